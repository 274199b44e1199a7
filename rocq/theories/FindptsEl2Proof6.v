(** findpts_el_2: the loop, the first guesses and the result. *)
From Verif Require Import Base BaseLemmas Tensor TensorSpec TensorProof Poly PolySpec PolyProof1 PolyProof2 FindptsEl2 FindptsEl2Proof1 FindptsEl2Proof2 FindptsEl2Proof3 FindptsEl2Proof4 FindptsEl2Proof5.
From Coq Require Import Reals Lra Psatz NArith Permutation.
Open Scope nat_scope.

Lemma forall2_len {A B} (Q : A -> B -> Prop) l m : Forall2 Q l m -> length l = length m.
Proof. induction 1; cbn; auto. Qed.
Section Loop.
Variable DBL_MAX : R.
Hypothesis HM : (0 < DBL_MAX)%R.
Variable P : products R.
Hypothesis G : good R 0%R Rplus Rmult P.
Variable fd : el.
Variable zd : nat -> arr.
Variable Qd : nat -> arr -> Prop.
Hypothesis Hel : forall d, d < 2 -> elem_dir fd zd Qd d.
Hypothesis Hux : length (ux fd) = 2.
Variable tol : R.
Hypothesis Reg : forall r, in_box r -> (ent (jacobian fd zd r) 0 * ent (jacobian fd zd r) 3 - ent (jacobian fd zd r) 1 * ent (jacobian fd zd r) 2 <> 0)%R.
Variable near : list R -> R.
Notation good_st := (good_st fd zd Qd).
Notation ok := (ok DBL_MAX fd zd tol near).
Notation moved := (moved DBL_MAX fd zd tol near).
Notation to := (to DBL_MAX fd zd tol near).
Definition key (p : pt) : nat * list R := (index p, px p).

Lemma to_keys l m : Forall2 to l m -> map key m = map key l.
Proof. induction 1 as [|p q l m H F IH]; cbn [map]; [auto|]. rewrite IH. destruct H as (_ & _ & _ & Ex & Ei). unfold key at 1 3. rewrite Ex, Ei. auto. Qed.
Lemma to_in l m q : Forall2 to l m -> In q m -> ok q /\ moved q.
Proof. induction 1 as [|p q' l m H F IH]; cbn [In]; [tauto|]. intros [<-|Hin]; [destruct H as (_ & A & B & _); auto|auto]. Qed.
Lemma ok_bin p : ok p -> bin p < 10 /\ (bin p < 9 <-> active p).
Proof.
  intros I. destruct (i_fl _ _ _ _ _ _ I) as (f & F1 & _ & F3). destruct F3 as [E|E].
  - assert (A : active p) by (unfold active; rewrite E; auto). pose proof (proj2 (bin_active p A)). split; [lia|tauto].
  - rewrite (bin_conv p f F1 E). split; [lia|]. split; [lia|]. intros A. unfold active in A. rewrite E in A. apply (nine_16 f F1) in A. contradiction.
Qed.

Notation step1 := (step1 DBL_MAX fd zd tol).
(** What happens to one point in k steps. *)
Definition activeb (p : pt) : bool := (low p <? 16)%N.
Fixpoint run1 (k : nat) (p : pt) : res pt :=
  match k with
  | O => Ok p
  | S k => if activeb p then q <- step1 (low p) p ;; run1 k q else Ok p
  end.
Lemma activeb_ok p : ok p -> (activeb p = true <-> active p).
Proof.
  intros I. destruct (i_fl _ _ _ _ _ _ I) as (f & F1 & _ & F3). unfold activeb, active. destruct F3 as [E|E]; rewrite E; pose proof (nine_16 f F1) as (_ & _ & _ & _ & _ & Nin); nines F1; vm_compute; intuition discriminate.
Qed.
Lemma run1_S k p : run1 (S k) p = if activeb p then q <- step1 (low p) p ;; run1 k q else Ok p.
Proof. reflexivity. Qed.
Lemma run1_stop k p : activeb p = false -> run1 k p = Ok p.
Proof. intros H. destruct k; cbn [run1]; [auto|]. rewrite H. auto. Qed.
(** The point with the number i and the coordinates x at the beginning. *)
Definition first (i : nat) (x : list R) : pt := match seed1 DBL_MAX fd x with Ok (_, Some r) => Pt x r [] DBL_MAX 0%R 1%R i 0%N | _ => Pt x [] [] 0%R 0%R 0%R i 0%N end.
Definition ends (steps : nat) (p : pt) : Prop := run1 steps p = run1 50 (first (index p) (px p)).

Record ready (xs : list (list R)) (pstart : list pt) (count : list nat) (nconv : nat) (steps : nat) : Prop := {
  rd_keys : Permutation (map key pstart) (combine (seq 0 (length xs)) xs);
  rd_conv : nconv <= length pstart;
  rd_rest : forall p, In p (skipn nconv pstart) -> ok p /\ moved p /\ activeb p = false;
  rd_groups : exists gs, firstn nconv pstart = concat (map snd gs) /\ forall b ps, In (b, ps) gs -> nth_error count b = Some (length ps) /\ forall p, In p ps -> ok p /\ active p /\ bin p = b;
  rd_moved : steps = 0 -> forall p, In p pstart -> moved p;
  rd_ends : forall p, In p pstart -> ends steps p }.
Lemma group_len {B} (gs : list (B * list pt)) b ps : In (b, ps) gs -> length ps <= length (concat (map snd gs)).
Proof. induction gs as [|[c qs] gs IH]; cbn [In map concat snd]; [tauto|]. rewrite app_length. intros [E|Hin]; [injection E as -> ->; lia|]. specialize (IH Hin). lia. Qed.
Lemma ready_len xs ps count nconv steps : ready xs ps count nconv steps -> length ps = length xs.
Proof. intros [K _ _ _ _ _]. apply Permutation_length in K. rewrite map_length, combine_length, seq_length, Nat.min_id in K. auto. Qed.

Lemma iterate_ok xs : length xs <= npt_max fd -> forall steps s ps count nconv, good_st s -> ready xs ps count nconv steps ->
  exists ps' s', iterate DBL_MAX P steps fd s ps count nconv tol = Ok (ps', s') /\ good_st s' /\ Permutation (map key ps') (combine (seq 0 (length xs)) xs) /\ forall p, In p ps' -> ok p /\ moved p /\ run1 50 (first (index p) (px p)) = Ok p.
Proof.
  intros Hn. induction steps as [|steps IH]; intros s ps count nconv Hs Rd; pose proof (ready_len _ _ _ _ _ Rd) as Lp; cbn [iterate]; destruct Rd as [K C Rs (gs & Eg & Hg) M En].
  - exists ps, s. split; [auto|]. split; [auto|]. split; [auto|]. intros p Hp. pose proof (En p Hp) as Ep. unfold ends in Ep. change (run1 0 p) with (Ok p) in Ep. split; [|split; [apply M; auto|auto]].
    rewrite <- (firstn_skipn nconv ps) in Hp. apply in_app_or in Hp. destruct Hp as [Hp|Hp]; [|apply Rs; auto].
    rewrite Eg in Hp. apply in_concat in Hp. destruct Hp as (l & L1 & L2). apply in_map_iff in L1. destruct L1 as ([b l'] & E & L1). cbn in E. subst l'. apply (proj2 (Hg b l L1)). auto.
  - destruct (Nat.eqb_spec nconv 0) as [->|H0].
    + exists ps, s. split; [auto|]. split; [auto|]. split; [auto|]. intros p Hp. destruct (Rs p Hp) as (R1 & R2 & R3). split; [auto|]. split; [auto|]. pose proof (En p Hp) as Ep. unfold ends in Ep. rewrite run1_stop in Ep by auto. auto.
    + assert (Lc : length (concat (map snd gs)) = nconv) by (rewrite <- Eg; apply firstn_length_le; auto).
      destruct (advance_ok DBL_MAX HM P G fd zd Qd Hel Hux tol Reg near count gs) with (s := s) (fuel := nconv) as (pbuf & s1 & E & S1 & F); auto.
      { intros b l Hin. destruct (Hg b l Hin) as [A B]. split; [auto|]. split; [|auto]. pose proof (group_len gs b l Hin). lia. }
      { lia. }
      rewrite Eg, E. cbn [bind]. assert (Lb : length pbuf = nconv) by (rewrite <- (forall2_len _ _ _ F); auto).
      assert (Ib : forall p, In p pbuf -> ok p /\ moved p) by (intros p Hp; apply (to_in _ _ p F); auto).
      assert (Eb : forall q, In q pbuf -> ends steps q).
      { intros q Hq. assert (W : forall l m, Forall2 to l m -> In q m -> exists p, In p l /\ to p q) by (clear; induction 1 as [|p q' l m H F IH]; cbn [In]; [tauto|]; intros [<-|Hin]; [exists p; auto|destruct (IH Hin) as (p' & A & B); exists p'; auto]).
        destruct (W _ _ F Hq) as (p & Hp & (St & _ & _ & Ex & Ei)). assert (Hp' : In p ps) by (rewrite <- (firstn_skipn nconv ps); apply in_or_app; left; rewrite Eg; auto).
        pose proof (En p Hp') as Ep. unfold ends in *. rewrite Ex, Ei, <- Ep, run1_S.
        apply in_concat in Hp. destruct Hp as (l & L1 & L2). apply in_map_iff in L1. destruct L1 as ([b l'] & E0 & L1). cbn in E0. subst l'. destruct (proj2 (Hg b l L1) p L2) as (I & A & _).
        rewrite (proj2 (activeb_ok p I) A), St. reflexivity. }
      destruct (regroup_ok pbuf ps) as (count' & E' & Hc).
      { intros p Hp. apply ok_bin, Ib, Hp. }
      { lia. }
      rewrite E'. cbn [bind]. assert (B10 : forall p, In p pbuf -> bin p < 10) by (intros p Hp; apply ok_bin, Ib, Hp).
      pose proof (groups_perm bin pbuf 10 B10) as GP.
      assert (Lg : length (groups bin pbuf 10) = nconv) by (rewrite <- (Permutation_length GP); auto).
      pose proof (start_mono bin pbuf 9 10 ltac:(lia)) as Sm. rewrite <- (groups_len bin pbuf 10) in Sm.
      apply IH; [auto|]. constructor.
      * rewrite map_app. rewrite <- K. rewrite <- (firstn_skipn nconv ps) at 2. rewrite map_app, Lb. apply Permutation_app_tail. rewrite Eg, <- (to_keys _ _ F). apply Permutation_map. symmetry. auto.
      * rewrite app_length, skipn_length. lia.
      * intros p Hp. rewrite groups_S in Hp. rewrite <- app_assoc, skip_len in Hp by (symmetry; apply groups_len). apply in_app_or in Hp. destruct Hp as [Hp|Hp].
        -- apply in_pick in Hp. destruct Hp as [Hp B9]. destruct (Ib p Hp) as [I M']. split; [auto|]. split; [auto|]. destruct (activeb p) eqn:Ea; [|auto]. exfalso. apply (activeb_ok p I) in Ea. apply (ok_bin p I) in Ea. lia.
        -- rewrite Lb in Hp. apply Rs; auto.
      * exists (map (fun b => (b, pick bin b pbuf)) (seq 0 9)). split.
        -- rewrite groups_S, <- app_assoc, first_len by (symmetry; apply groups_len). unfold groups. rewrite map_map. auto.
        -- intros b l Hin. apply in_map_iff in Hin. destruct Hin as (b' & Ebb & Hb). injection Ebb as -> <-. apply in_seq in Hb. split; [apply Hc; lia|].
           intros p Hp. apply in_pick in Hp. destruct Hp as [Hp Bp]. destruct (Ib p Hp) as [I _]. split; [auto|]. split; [|auto]. apply (ok_bin p I). lia.
      * intros _ p Hp. apply in_app_or in Hp. destruct Hp as [Hp|Hp].
        -- apply Ib. apply (Permutation_in _ (Permutation_sym GP)). auto.
        -- rewrite Lb in Hp. apply Rs; auto.
      * intros p Hp. apply in_app_or in Hp. destruct Hp as [Hp|Hp].
        -- apply Eb. apply (Permutation_in _ (Permutation_sym GP)). auto.
        -- rewrite Lb in Hp. unfold ends. assert (Hp' : In p ps) by (rewrite <- (firstn_skipn nconv ps); apply in_or_app; auto). rewrite <- (En p Hp'). destruct (Rs p Hp) as (_ & _ & R3). rewrite !run1_stop by auto. auto.
Qed.

(** ** The result is written by index *)
Lemma write_ok (xs : list (list R)) (mk : pt -> pt) : forall (l : list pt) done m, length m = length xs -> NoDup (map index (done ++ l)) -> (forall p, In p (done ++ l) -> index p < length xs) ->
  (forall p, In p done -> nth_error m (index p) = Some (mk p)) ->
  exists m', foldM (fun pb p => wr pb (index p) (mk p)) l m = Ok m' /\ length m' = length xs /\ forall p, In p (done ++ l) -> nth_error m' (index p) = Some (mk p).
Proof.
  induction l as [|p l IH]; intros done m Lm Nd Hi Hm; cbn [foldM].
  - exists m. rewrite app_nil_r. auto.
  - rewrite wr_ok by (rewrite Lm; apply Hi; apply in_or_app; right; left; auto). cbn [bind].
    destruct (IH (done ++ [p]) (upd m (index p) (mk p))) as (m' & E & L & V).
    + rewrite upd_length. auto.
    + rewrite <- app_assoc. auto.
    + intros q. rewrite <- app_assoc. apply Hi.
    + intros q Hq. apply in_app_or in Hq. destruct Hq as [Hq|[<-|[]]].
      * destruct (Nat.eq_dec (index p) (index q)) as [Eq|Hn].
        -- exfalso. rewrite map_app in Nd. cbn [map] in Nd. apply NoDup_remove_2 in Nd. apply Nd. apply in_or_app. left. rewrite Eq. apply in_map. auto.
        -- rewrite nth_upd_other by auto. auto.
      * apply nth_error_upd_eq. rewrite Lm. apply Hi. apply in_or_app. right; left; auto.
    + exists m'. split; [auto|]. split; [auto|]. intros q Hq. apply V. rewrite <- app_assoc. auto.
Qed.

Lemma in_combine_seq {A} (l : list A) : forall k i x, In (i, x) (combine (seq k (length l)) l) <-> k <= i /\ nth_error l (i - k) = Some x.
Proof.
  induction l as [|y l IH]; intros k i x; cbn [length seq combine In].
  - split; [tauto|]. intros [_ H]. destruct (i - k); discriminate.
  - rewrite IH. split.
    + intros [E|[H1 H2]]; [injection E as <- <-; rewrite Nat.sub_diag; auto|]. split; [lia|]. replace (i - k) with (S (i - S k)) by lia. auto.
    + intros [H1 B]. destruct (Nat.eq_dec i k) as [->|Hn]; [left; rewrite Nat.sub_diag in B; injection B as ->; auto|right]. split; [lia|]. replace (i - k) with (S (i - S k)) in B by lia. auto.
Qed.

(** ** The first guess *)
Open Scope R_scope.
Notation get := PolySpec.get.
Definition node (i j : nat) : list R := [get (zd 0) i; get (zd 1) j].
Lemma node_val d i j : (d < 2)%nat -> (i < nn fd 0)%nat -> (j < nn fd 1)%nat -> T fd zd 0 0 d (node i j) = get (arr_at (ux fd) d) (j * nn fd 0 + i).
Proof.
  intros Hd Hi Hj. rewrite T_fold. unfold node. cbn [ent nth]. rewrite sum_is.
  rewrite (rsum_ext _ _ (fun a => get (arr_at (ux fd) d) (j * nn fd 0 + a) * (if (i =? a)%nat then 1 else 0))).
  - rewrite rsum_delta by auto. auto.
  - intros a Ha. rewrite sum_is. cbn [bas]. rewrite basis_node_ by (auto; apply (el_dist _ _ _ _ (Hel 0%nat ltac:(lia)))).
    rewrite (rsum_ext _ _ (fun b => get (arr_at (ux fd) d) (a + b * nn fd 0) * (if (j =? b)%nat then 1 else 0))).
    + rewrite rsum_delta by auto. rewrite Rmult_comm. f_equal. f_equal. lia.
    + intros b Hb. cbn [bas]. rewrite basis_node_ by (auto; apply (el_dist _ _ _ _ (Hel 1%nat ltac:(lia)))). auto.
Qed.
Notation D := (D fd zd).
Hypothesis Hin : forall d i, (d < 2)%nat -> (i < nn fd d)%nat -> -1 <= get (zd d) i <= 1.
Definition visit x := (fun '(best, r) '(j, i) =>
    zs <- rd (arr_at (zz fd) 1) j ;; zr <- rd (arr_at (zz fd) 0) i ;;
    let ii := (j * nn fd 0 + i)%nat in
    a <- rd (arr_at (ux fd) 0) ii ;; b <- rd (arr_at (ux fd) 1) ii ;;
    let dx := ent x 0 - a in let dy := ent x 1 - b in
    let d2 := dx * dx + dy * dy in
    Ok (if Rle_dec best d2 then (best, r) else (d2, Some [zr; zs]))) : R * option (list R) -> nat * nat -> res (R * option (list R)).
Definition seen (x : list R) (br : R * option (list R)) : Prop :=
  match br with
  | (b, None) => b = DBL_MAX
  | (b, Some r) => exists i j, (i < nn fd 0)%nat /\ (j < nn fd 1)%nat /\ r = node i j /\ b = D x r /\ b < DBL_MAX
  end.
Lemma visit_ok x b r i j : (i < nn fd 0)%nat -> (j < nn fd 1)%nat -> seen x (b, r) -> exists b' r', visit x (b, r) (j, i) = Ok (b', r') /\ seen x (b', r') /\ b' <= b /\ b' <= D x (node i j).
Proof.
  intros Hi Hj S. unfold visit. pose proof (Hel 0%nat ltac:(lia)) as E0. pose proof (Hel 1%nat ltac:(lia)) as E1.
  assert (Lt : (j * nn fd 0 + i < nn fd 0 * nn fd 1)%nat) by nia.
  rewrite (rd_nth _ _ 0) by (rewrite (el_zlen _ _ _ _ E1); auto). cbn [bind]. rewrite (rd_nth _ _ 0) by (rewrite (el_zlen _ _ _ _ E0); auto). cbn [bind].
  rewrite (rd_nth _ _ 0) by (pose proof (el_x _ _ _ _ E0); lia). cbn [bind]. rewrite (rd_nth _ _ 0) by (pose proof (el_x _ _ _ _ E1); lia). cbn [bind].
  assert (Z1 : nth j (arr_at (zz fd) 1) 0 = get (zd 1) j) by (apply (el_z _ _ _ _ E1); auto). assert (Z0 : nth i (arr_at (zz fd) 0) 0 = get (zd 0) i) by (apply (el_z _ _ _ _ E0); auto). rewrite Z0, Z1.
  pose proof (node_val 0 i j ltac:(lia) Hi Hj) as V0. pose proof (node_val 1 i j ltac:(lia) Hi Hj) as V1. unfold PolySpec.get in V0, V1. rewrite <- V0, <- V1.
  change ((ent x 0 - T fd zd 0 0 0 (node i j)) * (ent x 0 - T fd zd 0 0 0 (node i j)) + (ent x 1 - T fd zd 0 0 1 (node i j)) * (ent x 1 - T fd zd 0 0 1 (node i j))) with (D x (node i j)).
  destruct (Rle_dec b (D x (node i j))) as [Hl|Hl].
  - exists b, r. split; [auto|]. split; [auto|]. split; lra.
  - exists (D x (node i j)), (Some (node i j)). split; [auto|]. split; [|split; lra]. exists i, j. repeat split; auto.
    assert (b <= DBL_MAX) by (destruct r as [r|]; cbn in S; [destruct S as (_ & _ & _ & _ & _ & _ & S)|]; lra). lra.
Qed.
Lemma seed_ok x : (exists i j, (i < nn fd 0)%nat /\ (j < nn fd 1)%nat /\ D x (node i j) < DBL_MAX) ->
  exists i j, (i < nn fd 0)%nat /\ (j < nn fd 1)%nat /\ seed1 DBL_MAX fd x = Ok (D x (node i j), Some (node i j)) /\ D x (node i j) < DBL_MAX /\
    forall i' j', (i' < nn fd 0)%nat -> (j' < nn fd 1)%nat -> D x (node i j) <= D x (node i' j').
Proof.
  intros Hne. unfold seed1. fold (visit x).
  assert (F : forall l b r, (forall j i, In (j, i) l -> (i < nn fd 0)%nat /\ (j < nn fd 1)%nat) -> seen x (b, r) ->
    exists b' r', foldM (visit x) l (b, r) = Ok (b', r') /\ seen x (b', r') /\ b' <= b /\ forall j i, In (j, i) l -> b' <= D x (node i j)).
  { induction l as [|[j i] l IH]; intros b r Hl S; cbn [foldM].
    - exists b, r. split; [auto|]. split; [auto|]. split; [lra|]. intros j i [].
    - destruct (Hl j i (or_introl eq_refl)) as [Hi Hj]. destruct (visit_ok x b r i j Hi Hj S) as (b1 & r1 & E & S1 & L1 & L2). rewrite E. cbn [bind].
      destruct (IH b1 r1 (fun j' i' H => Hl j' i' (or_intror H)) S1) as (b2 & r2 & E2 & S2 & L3 & L4). exists b2, r2. split; [auto|]. split; [auto|]. split; [lra|].
      intros j' i' [Eq|H]; [injection Eq as <- <-; lra|auto]. }
  destruct (F (list_prod (seq 0 (nn fd 1)) (seq 0 (nn fd 0))) DBL_MAX None) as (b & r & E & S & _ & L).
  - intros j i H. apply in_prod_iff in H. destruct H as [A B]. apply in_seq in A, B. lia.
  - reflexivity.
  - assert (L' : forall i j, (i < nn fd 0)%nat -> (j < nn fd 1)%nat -> b <= D x (node i j)) by (intros i j A B; apply L; apply in_prod_iff; rewrite !in_seq; lia).
    rewrite E. destruct r as [r|]; cbn in S.
    + destruct S as (i & j & Hi & Hj & -> & -> & Hb). exists i, j. split; [auto|]. split; [auto|]. split; [auto|]. split; [auto|]. intros; apply L'; auto.
    + exfalso. destruct Hne as (i & j & Hi & Hj & Hn). pose proof (L' i j Hi Hj). lra.
Qed.
Lemma node_box i j : (i < nn fd 0)%nat -> (j < nn fd 1)%nat -> in_box (node i j).
Proof. intros Hi Hj. split; [auto|]. intros d Hd. destruct d as [|[|d]]; [apply (Hin 0); auto|apply (Hin 1); auto|lia]. Qed.
Hypothesis Hnear : forall x b r, seed1 DBL_MAX fd x = Ok (b, r) -> near x = b.
Lemma starts_ok xs : (forall x, In x xs -> exists i j, (i < nn fd 0)%nat /\ (j < nn fd 1)%nat /\ D x (node i j) < DBL_MAX) ->
  exists ps, start_points DBL_MAX fd xs = Ok ps /\ ready xs ps (length xs :: repeat 0%nat 8) (length xs) 50.
Proof.
  intros H. unfold start_points.
  destruct (mapM_forall2 (fun '(i, x) => '(_, r) <- seed1 DBL_MAX fd x ;; match r with None => UB | Some r => Ok (Pt x r [] DBL_MAX 0 1 i 0%N) end)
     (fun ix p => key p = ix /\ ok p /\ (active p /\ p = first (index p) (px p)) /\ bin p = 0%nat) (combine (seq 0 (length xs)) xs)) as (ps & E & F).
  { intros [i x] Hi. apply in_combine_r in Hi. destruct (seed_ok x (H x Hi)) as (a & b & Ha & Hb & E & Hl & _). rewrite E. cbn [bind]. eexists. split; [reflexivity|].
    split; [auto|]. assert (A : active (Pt x (node a b) [] DBL_MAX 0 1 i 0%N)) by (left; reflexivity).
    split; [|split; [split; [exact A|unfold first; cbn [px index]; rewrite E; reflexivity]|vm_compute; reflexivity]]. constructor; cbn [px pr oldr dist2 dist2p tr index flags].
    - apply node_box; auto.
    - lra.
    - exists 0%N. split; [left; auto|]. split; [|left; auto]. intros d Hd. left. destruct d as [|[|d]]; [reflexivity|reflexivity|lia].
    - left. constructor; cbn [px pr oldr dist2 dist2p tr index flags]; auto.
      + symmetry. apply (Hnear _ _ _ E).
      + rewrite (Hnear _ _ _ E). auto. }
  rewrite E. exists ps. split; [auto|]. assert (K : map key ps = combine (seq 0 (length xs)) xs).
  { clear E. induction F as [|ix p l m Hp F IH]; [auto|]. cbn [map]. destruct Hp as [-> _]. f_equal. auto. }
  assert (L : length ps = length xs). { rewrite <- (map_length key), K, combine_length, seq_length. lia. }
  assert (I : forall p, In p ps -> ok p /\ (active p /\ p = first (index p) (px p)) /\ bin p = 0%nat).
  { clear E K L. induction F as [|ix p l m Hp F IH]; cbn [In]; [tauto|]. intros q [<-|Hq]; [apply Hp|auto]. }
  constructor.
  - rewrite K. auto.
  - lia.
  - rewrite <- L, skipn_all. intros p [].
  - exists [(0%nat, ps)]. split; [cbn; rewrite app_nil_r, <- L; apply firstn_all|]. intros b l [Eq|[]]. injection Eq as <- <-. split; [rewrite <- L; auto|]. intros p Hp. destruct (I p Hp) as (I1 & [I2 _] & I3). auto.
  - discriminate.
  - intros p Hp. destruct (I p Hp) as (_ & [_ I2] & _). unfold ends. rewrite <- I2. auto.
Qed.

Definition masked (p : pt) : pt := Pt (px p) (pr p) (oldr p) (dist2 p) (dist2p p) (tr p) (index p) (N.land (flags p) FLAG_MASK).
Lemma el_ok s xs : good_st s -> (length xs <= npt_max fd)%nat -> (forall x, In x xs -> exists i j, (i < nn fd 0)%nat /\ (j < nn fd 1)%nat /\ D x (node i j) < DBL_MAX) ->
  exists out s', findpts_el_2 DBL_MAX P fd s xs tol = Ok (out, s') /\ good_st s' /\ length out = length xs /\
    forall i x, nth_error xs i = Some x -> exists p, nth_error out i = Some (masked p) /\ px p = x /\ index p = i /\ ok p /\ moved p /\ run1 50 (first i x) = Ok p.
Proof.
  intros Hs Hn Hx. unfold findpts_el_2. rewrite need_ok by lia. cbn [bind]. destruct (starts_ok xs Hx) as (ps & E & Rd). rewrite E. cbn [bind].
  destruct (iterate_ok xs Hn 50 s ps _ _ Hs Rd) as (ps' & s' & E' & S' & K & M). rewrite E'. cbn [bind].
  assert (L : length ps' = length xs). { apply Permutation_length in K. rewrite map_length, combine_length, seq_length in K. lia. }
  assert (Ki : Permutation (map index ps') (seq 0 (length xs))).
  { replace (map index ps') with (map fst (map key ps')) by (rewrite map_map; apply map_ext; auto).
    replace (seq 0 (length xs)) with (map fst (combine (seq 0 (length xs)) xs)); [apply Permutation_map; auto|].
    clear. generalize 0%nat. induction xs as [|x xs IH]; intros k; cbn; [auto|]. f_equal. auto. }
  destruct (write_ok xs masked ps' [] ps') as (m & Em & Lm & V).
  - auto.
  - cbn [app]. apply (Permutation_NoDup (Permutation_sym Ki)). apply seq_NoDup.
  - intros p Hp. cbn [app] in Hp. assert (Q : In (index p) (seq 0 (length xs))) by (apply (Permutation_in _ Ki); apply in_map; auto). apply in_seq in Q. lia.
  - intros p [].
  - unfold masked in Em. rewrite Em. cbn [bind]. exists m, s'. split; [auto|]. split; [auto|]. split; [auto|].
    intros i x Hi. assert (Q : In (i, x) (map key ps')). { apply (Permutation_in _ (Permutation_sym K)). apply in_combine_seq. split; [lia|]. rewrite Nat.sub_0_r. auto. }
    apply in_map_iff in Q. destruct Q as (p & Ek & Hp). injection Ek as <- <-. exists p. split; [apply V; auto|]. split; [auto|]. split; [auto|]. apply M; auto.
Qed.
End Loop.
