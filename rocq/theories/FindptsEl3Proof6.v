(** Groups, the loop, the first guesses and the result of findpts_el_3. *)
From Verif Require Import Base BaseLemmas Tensor TensorSpec TensorProof Poly PolySpec PolyProof1 PolyProof2 LobBndProof1 FindptsEl2 FindptsEl2Proof1 FindptsEl2Proof2 FindptsEl2Proof3 FindptsEl2Proof5 FindptsEl2Proof6 FindptsEl3 FindptsEl3Proof1 FindptsEl3Proof2 FindptsEl3Proof3 FindptsEl3Proof4 FindptsEl3Proof5.
From Coq Require Import Reals Lra Psatz NArith Permutation.
Open Scope nat_scope.

Lemma nth_upd_same_ {A} (l : list A) i v d : i < length l -> nth i (upd l i v) d = v.
Proof. intros H. apply nth_error_nth. apply nth_error_upd_eq. auto. Qed.
Lemma nth_upd_diff_ {A} (l : list A) i j v d : i <> j -> nth j (upd l i v) d = nth j l d.
Proof.
  intros H. pose proof (nth_upd_other l i j v H) as E. destruct (nth_error l j) as [w|] eqn:Ev.
  - rewrite (nth_error_nth _ _ d Ev). apply nth_error_nth. auto.
  - apply nth_error_None in Ev. rewrite !nth_overflow; auto. rewrite upd_length. auto.
Qed.
(** The numbers of points become the places of the first points. *)
Lemma prefix3_ok (c st : nat -> nat) : (forall b, st (S b) = st b + c b) -> forall n k count off,
  k + n <= length count -> k + n <= length off -> (forall b, b < length off -> nth b off 0 = if b <? k then st b else c b) -> (forall b, b < k -> nth b count 0 = c b) ->
  exists count' off', foldM (fun '(count, off, sum) i => ci <- rd off i ;; count <- wr count i ci ;; off <- wr off i sum ;; Ok (count, off, sum + ci)) (seq k n) (count, off, st k) = Ok (count', off', st (k + n)) /\
    length count' = length count /\ length off' = length off /\ (forall b, b < length off -> nth b off' 0 = if b <? k + n then st b else c b) /\ forall b, b < k + n -> nth b count' 0 = c b.
Proof.
  intros Hst. induction n as [|n IH]; intros k count off Lc Lo Vo Vc; cbn [seq foldM].
  - exists count, off. rewrite Nat.add_0_r. auto.
  - rewrite (rd_nth _ _ 0) by lia. cbn [bind]. rewrite wr_ok by lia. cbn [bind]. rewrite wr_ok by lia. cbn [bind].
    rewrite (Vo k) by lia. destruct (Nat.ltb_spec k k); [lia|]. rewrite <- Hst.
    destruct (IH (S k) (upd count k (c k)) (upd off k (st k))) as (count' & off' & E & L1 & L2 & V1 & V2).
    + rewrite upd_length. lia.
    + rewrite upd_length. lia.
    + intros b Hb. rewrite upd_length in Hb. destruct (Nat.eq_dec k b) as [<-|Hn].
      * rewrite nth_upd_same_ by lia. destruct (Nat.ltb_spec k (S k)); [auto|lia].
      * rewrite nth_upd_diff_ by auto. rewrite Vo by auto. destruct (Nat.ltb_spec b k), (Nat.ltb_spec b (S k)); try lia; auto.
    + intros b Hb. destruct (Nat.eq_dec k b) as [<-|Hn]; [apply nth_upd_same_; lia|]. rewrite nth_upd_diff_ by auto. apply Vc. lia.
    + rewrite upd_length in *. exists count', off'. replace (k + S n) with (S k + n) by lia. auto.
Qed.
Lemma regroup3_ok (pbuf ps : list pt) : (forall p, In p pbuf -> bin3 p < 28) -> length pbuf <= length ps ->
  exists count, regroup3 pbuf ps = Ok (groups bin3 pbuf 28 ++ skipn (length pbuf) ps, count, start bin3 pbuf 27) /\ forall b, b < 27 -> nth_error count b = Some (cnt bin3 b pbuf).
Proof.
  intros Hb Hl. unfold regroup3. destruct (count_ok bin3 pbuf (repeat 0 28) Hb) as (off & E & L & V). rewrite E. cbn [bind].
  rewrite repeat_length in L, V.
  destruct (prefix3_ok (fun b => cnt bin3 b pbuf) (start bin3 pbuf) (fun b => eq_refl) 27 0 (repeat 0 27) off) as (count & off1 & E1 & L1 & L2 & V1 & V2).
  - rewrite repeat_length. lia.
  - lia.
  - intros b B. rewrite V by lia. rewrite nth_repeat. destruct (Nat.ltb_spec b 0); [lia|auto].
  - intros b B. lia.
  - change (start bin3 pbuf 0) with 0 in E1. rewrite E1. cbn [bind]. change (0 + 27) with 27 in *. rewrite wr_ok by lia. cbn [bind].
    assert (St : forall b, b < 28 -> nth b (upd off1 27 (start bin3 pbuf 27)) 0 = start bin3 pbuf b).
    { intros b B. destruct (Nat.eq_dec 27 b) as [<-|Hn]; [apply nth_upd_same_; lia|]. rewrite nth_upd_diff_ by auto. rewrite V1 by lia. destruct (Nat.ltb_spec b 27); [auto|lia]. }
    destruct (scatter_ok bin3 pbuf 28 ps Hb Hl pbuf [] ps (upd off1 27 (start bin3 pbuf 27)) eq_refl eq_refl) as (m' & off' & E' & Em).
    + rewrite upd_length. lia.
    + intros b B. rewrite St by auto. cbn. lia.
    + intros b i _ Hi. cbn in Hi. lia.
    + auto.
    + rewrite E'. cbn [bind]. rewrite Em. eexists. split; [reflexivity|]. intros b B. rewrite repeat_length in L1. rewrite <- (V2 b B). apply nth_error_nth'. lia.
Qed.

(** ** The bins *)
Lemma bin_active3 p : active3 p -> bin3 p = N.to_nat (pt_flags_to_bin_noC3 (low3 p)) /\ bin3 p < 27.
Proof. unfold active3, bin3. fold (low3 p). generalize (low3 p). intros f H. flags27 H; vm_compute; split; try reflexivity; lia. Qed.
Lemma bin_conv3 p f : In f all27 -> low3 p = N.lor f CONVERGED_FLAG3 -> bin3 p = 27.
Proof. intros H E. unfold bin3. fold (low3 p). rewrite E. flags27 H; reflexivity. Qed.
Lemma bin_inj3 f g : In f all27 -> In g all27 -> pt_flags_to_bin_noC3 f = pt_flags_to_bin_noC3 g -> f = g.
Proof.
  assert (C : forallb (fun f => forallb (fun g => implb (pt_flags_to_bin_noC3 f =? pt_flags_to_bin_noC3 g)%N (f =? g)%N) all27) all27 = true) by reflexivity.
  intros H K E. rewrite forallb_forall in C. pose proof (C f H) as C1. cbv beta in C1. rewrite forallb_forall in C1. pose proof (C1 g K) as C2. cbv beta in C2. rewrite E, N.eqb_refl in C2. cbn [implb] in C2. apply N.eqb_eq. auto.
Qed.

Section Loop.
Variable DBL_MAX : R.
Hypothesis HM : (0 < DBL_MAX)%R.
Variable P : products R.
Hypothesis G : good R 0%R Rplus Rmult P.
Variable fd : el.
Variable zd : nat -> arr.
Variable Qd : nat -> arr -> Prop.
Hypothesis Hel : forall d, d < 3 -> elem_dir fd zd Qd d.
Hypothesis Hux : length (ux fd) = 3.
Hypothesis Hx : forall d, d < 3 -> nn fd 0 * nn fd 1 * nn fd 2 <= length (arr_at (ux fd) d).
Variable tol : R.
Hypothesis Reg : forall r, in_box3 r -> (det3 (jacobian fd zd r) <> 0)%R.
Variable near : list R -> R.
Notation good_st := (good_st fd zd Qd).
Notation inv := (inv3 DBL_MAX fd zd tol).
Notation step1 := (step3 DBL_MAX fd zd tol).
Definition ok3 (p : pt) : Prop := inv (near (px p)) p.
Definition moved3 (p : pt) : Prop := stepped_to3 fd zd tol (near (px p)) p \/ rejected_to3 DBL_MAX fd zd tol (near (px p)) p.
Definition to3 (p q : pt) : Prop := step1 (low3 p) p = Ok q /\ ok3 q /\ moved3 q /\ px q = px p /\ index q = index p.
Lemma step_to3 p : ok3 p -> active3 p -> exists q, step1 (low3 p) p = Ok q /\ to3 p q.
Proof.
  intros I A. destruct (step_ok3 DBL_MAX fd zd tol HM Reg _ p I A) as (q & E & Iq & Ex & Ei & M). exists q. split; [auto|]. split; [auto|]. unfold ok3, moved3. rewrite Ex. auto.
Qed.
Definition dispatch3 (f : N) (s : st3) (ps : list pt) : res (list pt * st3) :=
  if (num_constrained3 f =? 0)%N then findpt_vol DBL_MAX P fd s ps tol
  else if (num_constrained3 f =? 1)%N then findpt_face DBL_MAX P fd s ps tol
  else if (num_constrained3 f =? 2)%N then findpt_edge3 DBL_MAX P fd s ps tol
  else if (num_constrained3 f =? 3)%N then findpt_pt3 DBL_MAX P fd s ps tol else UB.
Lemma con_sides f p d j : ok3 p -> active3 p -> low3 p = f -> d < 3 -> j < 2 -> con f d = N.of_nat (j + 1) -> ent (pr p) d = side_r j.
Proof.
  intros I A L Hd Hj C. pose proof (active_con3 DBL_MAX fd zd tol _ p I A d Hd) as X. rewrite L, C in X. destruct j as [|[|j]]; [| |lia]; destruct X as [X|[[X V]|[X V]]]; try discriminate; exact V.
Qed.
Lemma dispatch_ok3 f s p0 ps : good_st s -> S (length ps) <= npt_max fd -> (forall p, In p (p0 :: ps) -> ok3 p /\ active3 p /\ low3 p = f) ->
  exists out s', dispatch3 f s (p0 :: ps) = Ok (out, s') /\ good_st s' /\ Forall2 to3 (p0 :: ps) out.
Proof.
  intros S Hn Hp. destruct (mapM_forall2 (step1 f) to3 (p0 :: ps)) as (out & E & F).
  { intros p Hin. destruct (Hp p Hin) as (I & A & L). rewrite <- L. apply step_to3; auto. }
  destruct (Hp p0 (or_introl eq_refl)) as (I0 & A0 & L0). unfold dispatch3.
  assert (Nf : In f all27) by (rewrite <- L0; exact A0).
  assert (X : exists s', good_st s' /\ (if (num_constrained3 f =? 0)%N then findpt_vol DBL_MAX P fd s (p0 :: ps) tol
    else if (num_constrained3 f =? 1)%N then findpt_face DBL_MAX P fd s (p0 :: ps) tol else if (num_constrained3 f =? 2)%N then findpt_edge3 DBL_MAX P fd s (p0 :: ps) tol
    else if (num_constrained3 f =? 3)%N then findpt_pt3 DBL_MAX P fd s (p0 :: ps) tol else UB) = (out <- mapM (step1 f) (p0 :: ps) ;; Ok (out, s'))).
  { unfold FindptsEl3Proof5.step3. destruct (kinds27 f Nf) as [[E1 E2]|[[E1 (j & dn & Hj & Hd & E2 & E3)]|[[E1 (i & j & de & Hi & Hj & Hd & E2 & E3 & E4)]|[E1 [(k & Hk & E2) E3]]]]]; rewrite E1; cbn [N.eqb Pos.eqb].
    - apply (vol_eq DBL_MAX P G fd zd Qd Hel Hux Hx); auto.
    - rewrite E3. pose proof (face_eq DBL_MAX P G fd zd Qd Hel Hux Hx s (p0 :: ps) tol dn j S ltac:(cbn; lia) Hd Hj) as Y. cbv zeta in Y. rewrite <- E2 in Y. apply Y; [exists p0, ps; split; [auto|exact L0]|].
      intros p Hin. destruct (Hp p Hin) as (I & A & L). apply (con_sides f); auto. rewrite E2. rewrite (proj2 (proj2 (one27 _ dn (side_of3 j Hj) Hd))), Nat.eqb_refl by auto. auto.
    - rewrite E3. pose proof (edge3_eq DBL_MAX P G fd zd Qd Hel Hux Hx s (p0 :: ps) tol de i j S ltac:(lia) Hd Hi Hj) as Y. cbv zeta in Y. rewrite <- E2 in Y. apply Y; [exists p0, ps; split; [auto|exact L0]|].
      intros p Hin. destruct (Hp p Hin) as (I & A & L). assert (C : con f (nx de) = N.of_nat (j + 1) /\ con f (pv de) = N.of_nat (i + 1)).
      { rewrite E2. clear -Hi Hj Hd. dim3 de Hd; (destruct i as [|[|i]]; [| |lia]); (destruct j as [|[|j]]; [| |lia]); split; reflexivity. }
      split; apply (con_sides f); auto using nx_lt, pv_lt; apply C.
    - pose proof (pt3_eq DBL_MAX P G fd zd Qd Hel Hux Hx s (p0 :: ps) tol k S Hk) as Y. rewrite <- E2 in Y. apply Y; [exists p0, ps; split; [auto|exact L0]|].
      intros p Hin. destruct (Hp p Hin) as (I & A & L). destruct (i3_box _ _ _ _ _ _ I) as [Lr _]. rewrite (list3 _ Lr). unfold corner.
      assert (M1 : k mod 2 < 2) by (apply Nat.mod_upper_bound; lia). assert (M2 : (k / 2) mod 2 < 2) by (apply Nat.mod_upper_bound; lia). assert (M3 : k / 4 < 2) by (apply Nat.div_lt_upper_bound; lia).
      rewrite (con_sides f p 0 (k mod 2)), (con_sides f p 1 ((k / 2) mod 2)), (con_sides f p 2 (k / 4)); auto; rewrite E2; clear -Hk; do 8 (destruct k as [|k]; [reflexivity|]); lia. }
  destruct X as (s' & S' & X). exists out, s'. rewrite X, E. auto.
Qed.

Lemma advance_ok3 count : forall (gs : list (nat * list pt)),
  (forall b ps, In (b, ps) gs -> nth_error count b = Some (length ps) /\ length ps <= npt_max fd /\ forall p, In p ps -> ok3 p /\ active3 p /\ bin3 p = b) ->
  forall s fuel, good_st s -> length (concat (map snd gs)) <= fuel ->
  exists out s', advance3 DBL_MAX P fuel fd s count (concat (map snd gs)) tol = Ok (out, s') /\ good_st s' /\ Forall2 to3 (concat (map snd gs)) out.
Proof.
  induction gs as [|[b ps] gs IH]; intros H s fuel Hs Hf.
  - cbn [map concat]. exists [], s. split; [destruct fuel; reflexivity|]. auto.
  - cbn [map concat snd] in *. destruct ps as [|p0 ps].
    + cbn [app] in *. apply IH; auto. intros b' ps' Hin. apply H. right; auto.
    + destruct fuel as [|fuel]; [cbn in Hf; lia|]. destruct (H b (p0 :: ps) (or_introl eq_refl)) as (Hc & Hn & Hp). destruct (Hp p0 (or_introl eq_refl)) as (I0 & A0 & B0).
      change ((p0 :: ps) ++ concat (map snd gs)) with (p0 :: (ps ++ concat (map snd gs))). cbn [advance3]. change (N.land (flags p0) FLAG_MASK3) with (low3 p0).
      rewrite (proj1 (bin_active3 p0 A0)) in B0. rewrite B0, (rd_ok _ _ _ Hc). cbn [bind].
      change (p0 :: (ps ++ concat (map snd gs))) with ((p0 :: ps) ++ concat (map snd gs)). rewrite app_length.
      destruct (Nat.leb_spec (length (p0 :: ps)) (length (p0 :: ps) + length (concat (map snd gs)))); [|lia]. cbn [bind].
      rewrite first_len, skip_len by auto.
      destruct (dispatch_ok3 (low3 p0) s p0 ps Hs Hn) as (out & s1 & E1 & S1 & F1).
      { intros p Hin. destruct (Hp p Hin) as (I & A & B). split; [auto|]. split; [auto|]. rewrite (proj1 (bin_active3 p A)) in B. apply bin_inj3; [exact A|exact A0|]. lia. }
      unfold dispatch3 in E1. rewrite E1. cbn [bind].
      destruct (IH (fun b' ps' Hin => H b' ps' (or_intror Hin)) s1 fuel S1) as (outs & s2 & E2 & S2 & F2); [rewrite app_length in Hf; cbn in Hf; lia|].
      rewrite E2. cbn [bind]. exists (out ++ outs), s2. split; [auto|]. split; [auto|]. apply Forall2_app; auto.
Qed.

Lemma to_keys3 l m : Forall2 to3 l m -> map key m = map key l.
Proof. induction 1 as [|p q l m H F IH]; cbn [map]; [auto|]. rewrite IH. destruct H as (_ & _ & _ & Ex & Ei). unfold key at 1 3. rewrite Ex, Ei. auto. Qed.
Lemma to_in3 l m q : Forall2 to3 l m -> In q m -> ok3 q /\ moved3 q.
Proof. induction 1 as [|p q' l m H F IH]; cbn [In]; [tauto|]. intros [<-|Hin]; [destruct H as (_ & A & B & _); auto|auto]. Qed.
Lemma ok_bin3 p : ok3 p -> bin3 p < 28 /\ (bin3 p < 27 <-> active3 p).
Proof.
  intros I. destruct (i3_fl _ _ _ _ _ _ I) as (f & F1 & _ & F3). destruct F3 as [E|E].
  - assert (A : active3 p) by (unfold active3; rewrite E; auto). pose proof (proj2 (bin_active3 p A)). split; [lia|tauto].
  - rewrite (bin_conv3 p f F1 E). split; [lia|]. split; [lia|]. intros A. unfold active3 in A. rewrite E in A. apply (conv_27 f F1) in A. contradiction.
Qed.

(** What happens to one point in k steps. *)
Definition activeb3 (p : pt) : bool := (low3 p <? 64)%N.
Fixpoint run3 (k : nat) (p : pt) : res pt :=
  match k with
  | O => Ok p
  | S k => if activeb3 p then q <- step1 (low3 p) p ;; run3 k q else Ok p
  end.
Lemma activeb_ok3 p : ok3 p -> (activeb3 p = true <-> active3 p).
Proof.
  intros I. destruct (i3_fl _ _ _ _ _ _ I) as (f & F1 & _ & F3). unfold activeb3, active3. destruct F3 as [E|E]; rewrite E; pose proof (conv_27 f F1) as (_ & _ & _ & _ & Nin).
  - pose proof (lt27 f F1) as X. apply N.ltb_lt in X. tauto.
  - assert (X : (N.lor f CONVERGED_FLAG3 <? 64)%N = false) by (clear -F1; flags27 F1; reflexivity). rewrite X. split; [discriminate|tauto].
Qed.
Lemma run3_S k p : run3 (S k) p = if activeb3 p then q <- step1 (low3 p) p ;; run3 k q else Ok p.
Proof. reflexivity. Qed.
Lemma run3_stop k p : activeb3 p = false -> run3 k p = Ok p.
Proof. intros H. destruct k; cbn [run3]; [auto|]. rewrite H. auto. Qed.
(** The point with the number i and the coordinates x at the beginning. *)
Definition first3 (i : nat) (x : list R) : pt := match seed3 DBL_MAX fd x with Ok (_, Some r) => Pt x r [] DBL_MAX 0%R 1%R i 0%N | _ => Pt x [] [] 0%R 0%R 0%R i 0%N end.
Definition ends3 (steps : nat) (p : pt) : Prop := run3 steps p = run3 50 (first3 (index p) (px p)).

Record ready3 (xs : list (list R)) (pstart : list pt) (count : list nat) (nconv : nat) (steps : nat) : Prop := {
  rd3_keys : Permutation (map key pstart) (combine (seq 0 (length xs)) xs);
  rd3_conv : nconv <= length pstart;
  rd3_rest : forall p, In p (skipn nconv pstart) -> ok3 p /\ moved3 p /\ activeb3 p = false;
  rd3_groups : exists gs, firstn nconv pstart = concat (map snd gs) /\ forall b ps, In (b, ps) gs -> nth_error count b = Some (length ps) /\ forall p, In p ps -> ok3 p /\ active3 p /\ bin3 p = b;
  rd3_moved : steps = 0 -> forall p, In p pstart -> moved3 p;
  rd3_ends : forall p, In p pstart -> ends3 steps p }.
Lemma ready_len3 xs ps count nconv steps : ready3 xs ps count nconv steps -> length ps = length xs.
Proof. intros [K _ _ _ _ _]. apply Permutation_length in K. rewrite map_length, combine_length, seq_length, Nat.min_id in K. auto. Qed.

Lemma group_len3 {B} (gs : list (B * list pt)) b ps : In (b, ps) gs -> length ps <= length (concat (map snd gs)).
Proof. clear. induction gs as [|[c qs] gs IH]; cbn [In map concat snd]; [tauto|]. rewrite app_length. intros [E|Hin]; [injection E as -> ->; lia|]. specialize (IH Hin). lia. Qed.
Lemma iterate_ok3 xs : length xs <= npt_max fd -> forall steps s ps count nconv, good_st s -> ready3 xs ps count nconv steps ->
  exists ps' s', iterate3 DBL_MAX P steps fd s ps count nconv tol = Ok (ps', s') /\ good_st s' /\ Permutation (map key ps') (combine (seq 0 (length xs)) xs) /\ forall p, In p ps' -> ok3 p /\ moved3 p /\ run3 50 (first3 (index p) (px p)) = Ok p.
Proof.
  intros Hn. induction steps as [|steps IH]; intros s ps count nconv Hs Rd; pose proof (ready_len3 _ _ _ _ _ Rd) as Lp; cbn [iterate3]; destruct Rd as [K C Rs (gs & Eg & Hg) M En].
  - exists ps, s. split; [auto|]. split; [auto|]. split; [auto|]. intros p Hp. pose proof (En p Hp) as Ep. unfold ends3 in Ep. change (run3 0 p) with (Ok p) in Ep. split; [|split; [apply M; auto|auto]].
    rewrite <- (firstn_skipn nconv ps) in Hp. apply in_app_or in Hp. destruct Hp as [Hp|Hp]; [|apply Rs; auto].
    rewrite Eg in Hp. apply in_concat in Hp. destruct Hp as (l & L1 & L2). apply in_map_iff in L1. destruct L1 as ([b l'] & E & L1). cbn in E. subst l'. apply (proj2 (Hg b l L1)). auto.
  - destruct (Nat.eqb_spec nconv 0) as [->|H0].
    + exists ps, s. split; [auto|]. split; [auto|]. split; [auto|]. intros p Hp. destruct (Rs p Hp) as (R1 & R2 & R3). split; [auto|]. split; [auto|]. pose proof (En p Hp) as Ep. unfold ends3 in Ep. rewrite run3_stop in Ep by auto. auto.
    + assert (Lc : length (concat (map snd gs)) = nconv) by (rewrite <- Eg; apply firstn_length_le; auto).
      destruct (advance_ok3 count gs) with (s := s) (fuel := nconv) as (pbuf & s1 & E & S1 & F); auto.
      { intros b l Hin. destruct (Hg b l Hin) as [A B]. split; [auto|]. split; [|auto]. pose proof (group_len3 gs b l Hin). lia. }
      { lia. }
      rewrite Eg, E. cbn [bind]. assert (Lb : length pbuf = nconv) by (rewrite <- (forall2_len _ _ _ F); auto).
      assert (Ib : forall p, In p pbuf -> ok3 p /\ moved3 p) by (intros p Hp; apply (to_in3 _ _ p F); auto).
      assert (Eb : forall q, In q pbuf -> ends3 steps q).
      { intros q Hq. assert (W : forall l m, Forall2 to3 l m -> In q m -> exists p, In p l /\ to3 p q) by (clear; induction 1 as [|p q' l m H F IH]; cbn [In]; [tauto|]; intros [<-|Hin]; [exists p; auto|destruct (IH Hin) as (p' & A & B); exists p'; auto]).
        destruct (W _ _ F Hq) as (p & Hp & (St & _ & _ & Ex & Ei)). assert (Hp' : In p ps) by (rewrite <- (firstn_skipn nconv ps); apply in_or_app; left; rewrite Eg; auto).
        pose proof (En p Hp') as Ep. unfold ends3 in *. rewrite Ex, Ei, <- Ep, run3_S.
        apply in_concat in Hp. destruct Hp as (l & L1 & L2). apply in_map_iff in L1. destruct L1 as ([b l'] & E0 & L1). cbn in E0. subst l'. destruct (proj2 (Hg b l L1) p L2) as (I & A & _).
        rewrite (proj2 (activeb_ok3 p I) A), St. reflexivity. }
      destruct (regroup3_ok pbuf ps) as (count' & E' & Hc).
      { intros p Hp. apply ok_bin3, Ib, Hp. }
      { lia. }
      rewrite E'. cbn [bind]. assert (B10 : forall p, In p pbuf -> bin3 p < 28) by (intros p Hp; apply ok_bin3, Ib, Hp).
      pose proof (groups_perm bin3 pbuf 28 B10) as GP.
      assert (Lg : length (groups bin3 pbuf 28) = nconv) by (rewrite <- (Permutation_length GP); auto).
      pose proof (start_mono bin3 pbuf 27 28 ltac:(lia)) as Sm. rewrite <- (groups_len bin3 pbuf 28) in Sm.
      apply IH; [auto|]. constructor.
      * rewrite map_app. rewrite <- K. rewrite <- (firstn_skipn nconv ps) at 2. rewrite map_app, Lb. apply Permutation_app_tail. rewrite Eg, <- (to_keys3 _ _ F). apply Permutation_map. symmetry. auto.
      * rewrite app_length, skipn_length. lia.
      * intros p Hp. rewrite groups_S in Hp. rewrite <- app_assoc, skip_len in Hp by (symmetry; apply groups_len). apply in_app_or in Hp. destruct Hp as [Hp|Hp].
        -- apply in_pick in Hp. destruct Hp as [Hp B9]. destruct (Ib p Hp) as [I M']. split; [auto|]. split; [auto|]. destruct (activeb3 p) eqn:Ea; [|auto]. exfalso. apply (activeb_ok3 p I) in Ea. apply (ok_bin3 p I) in Ea. lia.
        -- rewrite Lb in Hp. apply Rs; auto.
      * exists (map (fun b => (b, pick bin3 b pbuf)) (seq 0 27)). split.
        -- rewrite groups_S, <- app_assoc, first_len by (symmetry; apply groups_len). unfold groups. rewrite map_map. auto.
        -- intros b l Hin. apply in_map_iff in Hin. destruct Hin as (b' & Ebb & Hb). injection Ebb as -> <-. apply in_seq in Hb. split; [apply Hc; lia|].
           intros p Hp. apply in_pick in Hp. destruct Hp as [Hp Bp]. destruct (Ib p Hp) as [I _]. split; [auto|]. split; [|auto]. apply (ok_bin3 p I). lia.
      * intros _ p Hp. apply in_app_or in Hp. destruct Hp as [Hp|Hp].
        -- apply Ib. apply (Permutation_in _ (Permutation_sym GP)). auto.
        -- rewrite Lb in Hp. apply Rs; auto.
      * intros p Hp. apply in_app_or in Hp. destruct Hp as [Hp|Hp].
        -- apply Eb. apply (Permutation_in _ (Permutation_sym GP)). auto.
        -- rewrite Lb in Hp. unfold ends3. assert (Hp' : In p ps) by (rewrite <- (firstn_skipn nconv ps); apply in_or_app; auto). rewrite <- (En p Hp'). destruct (Rs p Hp) as (_ & _ & R3). rewrite !run3_stop by auto. auto.
Qed.

(** ** The first guess *)
Open Scope R_scope.
Notation get := PolySpec.get.
Definition nodept (i j k : nat) : list R := [get (zd 0) i; get (zd 1) j; get (zd 2) k].
Lemma bs_node d i a : (d < 3)%nat -> (i < nn fd d)%nat -> (a < nn fd d)%nat -> bs fd zd d 0 a (get (zd d) i) = if (i =? a)%nat then 1 else 0.
Proof. intros Hd Hi Ha. unfold bs. cbn [bas]. apply basis_node_; auto. apply (el_dist _ _ _ _ (Hel d Hd)). Qed.
Lemma rsum_at n i f : (i < n)%nat -> rsum n (fun a => (if (i =? a)%nat then 1 else 0) * f a) = f i.
Proof. intros H. rewrite (rsum_ext _ _ (fun a => f a * (if (i =? a)%nat then 1 else 0))) by (intros; ring). apply rsum_delta. auto. Qed.
Lemma nodept_val d i j k : (d < 3)%nat -> (i < nn fd 0)%nat -> (j < nn fd 1)%nat -> (k < nn fd 2)%nat -> T fd zd [0; 0; 0]%nat d (nodept i j k) = get (arr_at (ux fd) d) ((k * nn fd 1 + j) * nn fd 0 + i).
Proof.
  intros Hd Hi Hj Hk. unfold T, nodept. cbn [ent nth]. rewrite (rsum_ext _ _ (fun a => (if (i =? a)%nat then 1 else 0) * EE fd zd 0 0 0 d a (get (zd 1) j) (get (zd 2) k))) by (intros a Ha; rewrite bs_node by auto; auto).
  rewrite rsum_at by auto. unfold EE. cyc. rewrite (rsum_ext _ _ (fun a => (if (j =? a)%nat then 1 else 0) * FF fd zd 2 0 d i a (get (zd 2) k))) by (intros a Ha; rewrite bs_node by auto; auto).
  rewrite rsum_at by auto. unfold FF. rewrite (rsum_ext _ _ (fun a => (if (k =? a)%nat then 1 else 0) * node fd 2 d a i j)) by (intros a Ha; rewrite bs_node by auto; ring).
  rewrite rsum_at by auto. unfold node, node_at. f_equal. ring.
Qed.
Notation D := (D3 fd zd).
Hypothesis Hin : forall d i, (d < 3)%nat -> (i < nn fd d)%nat -> -1 <= get (zd d) i <= 1.
Definition visit3 x := (fun '(best, r) '(k, (j, i)) =>
    zt <- rd (arr_at (zz fd) 2) k ;; zs <- rd (arr_at (zz fd) 1) j ;; zr <- rd (arr_at (zz fd) 0) i ;;
    let ii := ((k * nn fd 1 + j) * nn fd 0 + i)%nat in
    a <- rd (arr_at (ux fd) 0) ii ;; b <- rd (arr_at (ux fd) 1) ii ;; c <- rd (arr_at (ux fd) 2) ii ;;
    let dx := ent x 0 - a in let dy := ent x 1 - b in let dz := ent x 2 - c in
    let d2 := dx * dx + dy * dy + dz * dz in
    Ok (if Rle_dec best d2 then (best, r) else (d2, Some [zr; zs; zt]))) : R * option (list R) -> nat * (nat * nat) -> res (R * option (list R)).
Definition in_range (i j k : nat) : Prop := (i < nn fd 0)%nat /\ (j < nn fd 1)%nat /\ (k < nn fd 2)%nat.
Definition seen3 (x : list R) (br : R * option (list R)) : Prop :=
  match br with
  | (b, None) => b = DBL_MAX
  | (b, Some r) => exists i j k, in_range i j k /\ r = nodept i j k /\ b = D x r /\ b < DBL_MAX
  end.
Lemma visit3_ok x b r i j k : in_range i j k -> seen3 x (b, r) -> exists b' r', visit3 x (b, r) (k, (j, i)) = Ok (b', r') /\ seen3 x (b', r') /\ b' <= b /\ b' <= D x (nodept i j k).
Proof.
  intros (Hi & Hj & Hk) S. unfold visit3. pose proof (Hel 0%nat ltac:(lia)) as E0. pose proof (Hel 1%nat ltac:(lia)) as E1. pose proof (Hel 2%nat ltac:(lia)) as E2.
  assert (Lt : ((k * nn fd 1 + j) * nn fd 0 + i < nn fd 0 * nn fd 1 * nn fd 2)%nat). { assert (k * nn fd 1 + j + 1 <= nn fd 1 * nn fd 2)%nat by nia. nia. }
  rewrite (rd_nth _ _ 0) by (rewrite (el_zlen _ _ _ _ E2); auto). cbn [bind]. rewrite (rd_nth _ _ 0) by (rewrite (el_zlen _ _ _ _ E1); auto). cbn [bind]. rewrite (rd_nth _ _ 0) by (rewrite (el_zlen _ _ _ _ E0); auto). cbn [bind].
  rewrite (rd_nth _ _ 0) by (pose proof (Hx 0%nat ltac:(lia)); lia). cbn [bind]. rewrite (rd_nth _ _ 0) by (pose proof (Hx 1%nat ltac:(lia)); lia). cbn [bind]. rewrite (rd_nth _ _ 0) by (pose proof (Hx 2%nat ltac:(lia)); lia). cbn [bind].
  assert (Z2 : nth k (arr_at (zz fd) 2) 0 = get (zd 2) k) by (apply (el_z _ _ _ _ E2); auto). assert (Z1 : nth j (arr_at (zz fd) 1) 0 = get (zd 1) j) by (apply (el_z _ _ _ _ E1); auto). assert (Z0 : nth i (arr_at (zz fd) 0) 0 = get (zd 0) i) by (apply (el_z _ _ _ _ E0); auto). rewrite Z0, Z1, Z2.
  pose proof (nodept_val 0 i j k ltac:(lia) Hi Hj Hk) as V0. pose proof (nodept_val 1 i j k ltac:(lia) Hi Hj Hk) as V1. pose proof (nodept_val 2 i j k ltac:(lia) Hi Hj Hk) as V2. unfold PolySpec.get in V0, V1, V2. rewrite <- V0, <- V1, <- V2.
  change ((ent x 0 - T fd zd [0; 0; 0]%nat 0 (nodept i j k)) * (ent x 0 - T fd zd [0; 0; 0]%nat 0 (nodept i j k)) + (ent x 1 - T fd zd [0; 0; 0]%nat 1 (nodept i j k)) * (ent x 1 - T fd zd [0; 0; 0]%nat 1 (nodept i j k)) + (ent x 2 - T fd zd [0; 0; 0]%nat 2 (nodept i j k)) * (ent x 2 - T fd zd [0; 0; 0]%nat 2 (nodept i j k))) with (D x (nodept i j k)).
  destruct (Rle_dec b (D x (nodept i j k))) as [Hl|Hl].
  - exists b, r. split; [auto|]. split; [auto|]. split; lra.
  - exists (D x (nodept i j k)), (Some (nodept i j k)). split; [auto|]. split; [|split; lra]. exists i, j, k. split; [repeat split; auto|]. split; [auto|]. split; [auto|].
    assert (b <= DBL_MAX) by (destruct r as [r|]; cbn in S; [destruct S as (_ & _ & _ & _ & _ & _ & S)|]; lra). lra.
Qed.
Lemma seed_ok3 x : (exists i j k, in_range i j k /\ D x (nodept i j k) < DBL_MAX) ->
  exists i j k, in_range i j k /\ seed3 DBL_MAX fd x = Ok (D x (nodept i j k), Some (nodept i j k)) /\ D x (nodept i j k) < DBL_MAX /\
    forall i' j' k', in_range i' j' k' -> D x (nodept i j k) <= D x (nodept i' j' k').
Proof.
  intros Hne. unfold seed3. fold (visit3 x).
  assert (F : forall l b r, (forall k j i, In (k, (j, i)) l -> in_range i j k) -> seen3 x (b, r) ->
    exists b' r', foldM (visit3 x) l (b, r) = Ok (b', r') /\ seen3 x (b', r') /\ b' <= b /\ forall k j i, In (k, (j, i)) l -> b' <= D x (nodept i j k)).
  { induction l as [|[k [j i]] l IH]; intros b r Hl S; cbn [foldM].
    - exists b, r. split; [auto|]. split; [auto|]. split; [lra|]. intros k j i [].
    - destruct (visit3_ok x b r i j k (Hl k j i (or_introl eq_refl)) S) as (b1 & r1 & E & S1 & L1 & L2). rewrite E. cbn [bind].
      destruct (IH b1 r1 (fun k' j' i' H => Hl k' j' i' (or_intror H)) S1) as (b2 & r2 & E2 & S2 & L3 & L4). exists b2, r2. split; [auto|]. split; [auto|]. split; [lra|].
      intros k' j' i' [Eq|H]; [injection Eq as <- <- <-; lra|auto]. }
  destruct (F (list_prod (seq 0 (nn fd 2)) (list_prod (seq 0 (nn fd 1)) (seq 0 (nn fd 0)))) DBL_MAX None) as (b & r & E & S & _ & L).
  - intros k j i H. apply in_prod_iff in H. destruct H as [A B]. apply in_prod_iff in B. destruct B as [B C]. apply in_seq in A, B, C. unfold in_range. lia.
  - reflexivity.
  - assert (L' : forall i j k, in_range i j k -> b <= D x (nodept i j k)) by (intros i j k (A & B & C); apply L; apply in_prod_iff; rewrite in_prod_iff, !in_seq; lia).
    rewrite E. destruct r as [r|]; cbn in S.
    + destruct S as (i & j & k & Hr & -> & -> & Hb). exists i, j, k. split; [auto|]. split; [auto|]. split; [auto|]. intros; apply L'; auto.
    + exfalso. destruct Hne as (i & j & k & Hr & Hn). pose proof (L' i j k Hr). lra.
Qed.
Lemma node_box3 i j k : in_range i j k -> in_box3 (nodept i j k).
Proof. intros (Hi & Hj & Hk). split; [auto|]. intros d Hd. dim3 d Hd; [apply (Hin 0)|apply (Hin 1)|apply (Hin 2)]; auto. Qed.
Hypothesis Hnear : forall x b r, seed3 DBL_MAX fd x = Ok (b, r) -> near x = b.
Lemma starts_ok3 xs : (forall x, In x xs -> exists i j k, in_range i j k /\ D x (nodept i j k) < DBL_MAX) ->
  exists ps, start_points3 DBL_MAX fd xs = Ok ps /\ ready3 xs ps (length xs :: repeat 0%nat 26) (length xs) 50.
Proof.
  intros H. unfold start_points3.
  destruct (mapM_forall2 (fun '(i, x) => '(_, r) <- seed3 DBL_MAX fd x ;; match r with None => UB | Some r => Ok (Pt x r [] DBL_MAX 0 1 i 0%N) end)
     (fun ix p => key p = ix /\ ok3 p /\ (active3 p /\ p = first3 (index p) (px p)) /\ bin3 p = 0%nat) (combine (seq 0 (length xs)) xs)) as (ps & E & F).
  { intros [i x] Hi. apply in_combine_r in Hi. destruct (seed_ok3 x (H x Hi)) as (a & b & c & Hr & E & Hl & _). rewrite E. cbn [bind]. eexists. split; [reflexivity|].
    split; [auto|]. assert (A : active3 (Pt x (nodept a b c) [] DBL_MAX 0 1 i 0%N)) by (left; reflexivity).
    split; [|split; [split; [exact A|unfold first3; cbn [px index]; rewrite E; reflexivity]|reflexivity]]. constructor; cbn [px pr oldr dist2 dist2p tr index flags].
    - apply node_box3; auto.
    - lra.
    - exists 0%N. split; [left; auto|]. split; [|left; auto]. intros d Hd. left. dim3 d Hd; reflexivity.
    - left. constructor; cbn [px pr oldr dist2 dist2p tr index flags]; auto.
      + symmetry. apply (Hnear _ _ _ E).
      + rewrite (Hnear _ _ _ E). auto. }
  rewrite E. exists ps. split; [auto|]. assert (K : map key ps = combine (seq 0 (length xs)) xs).
  { clear E. induction F as [|ix p l m Hp F IH]; [auto|]. cbn [map]. destruct Hp as [-> _]. f_equal. auto. }
  assert (L : length ps = length xs). { rewrite <- (map_length key), K, combine_length, seq_length. lia. }
  assert (I : forall p, In p ps -> ok3 p /\ (active3 p /\ p = first3 (index p) (px p)) /\ bin3 p = 0%nat).
  { clear E K L. induction F as [|ix p l m Hp F IH]; cbn [In]; [tauto|]. intros q [<-|Hq]; [apply Hp|auto]. }
  constructor.
  - rewrite K. auto.
  - lia.
  - rewrite <- L, skipn_all. intros p [].
  - exists [(0%nat, ps)]. split; [cbn; rewrite app_nil_r, <- L; apply firstn_all|]. intros b l [Eq|[]]. injection Eq as <- <-. split; [rewrite <- L; auto|]. intros p Hp. destruct (I p Hp) as (I1 & [I2 _] & I3). auto.
  - discriminate.
  - intros p Hp. destruct (I p Hp) as (_ & [_ I2] & _). unfold ends3. rewrite <- I2. auto.
Qed.

Definition masked3 (p : pt) : pt := Pt (px p) (pr p) (oldr p) (dist2 p) (dist2p p) (tr p) (index p) (N.land (flags p) FLAG_MASK3).
Lemma el_ok3 s xs : good_st s -> (length xs <= npt_max fd)%nat -> (forall x, In x xs -> exists i j k, in_range i j k /\ D x (nodept i j k) < DBL_MAX) ->
  exists out s', findpts_el_3 DBL_MAX P fd s xs tol = Ok (out, s') /\ good_st s' /\ length out = length xs /\
    forall i x, nth_error xs i = Some x -> exists p, nth_error out i = Some (masked3 p) /\ px p = x /\ index p = i /\ ok3 p /\ moved3 p /\ run3 50 (first3 i x) = Ok p.
Proof.
  intros Hs Hn Hxs. unfold findpts_el_3. rewrite need_ok by lia. cbn [bind]. destruct (starts_ok3 xs Hxs) as (ps & E & Rd). rewrite E. cbn [bind].
  destruct (iterate_ok3 xs Hn 50 s ps _ _ Hs Rd) as (ps' & s' & E' & S' & K & M). rewrite E'. cbn [bind].
  assert (L : length ps' = length xs). { apply Permutation_length in K. rewrite map_length, combine_length, seq_length in K. lia. }
  assert (Ki : Permutation (map index ps') (seq 0 (length xs))).
  { replace (map index ps') with (map fst (map key ps')) by (rewrite map_map; apply map_ext; auto).
    replace (seq 0 (length xs)) with (map fst (combine (seq 0 (length xs)) xs)); [apply Permutation_map; auto|].
    clear. generalize 0%nat. induction xs as [|x xs IH]; intros k; cbn; [auto|]. f_equal. auto. }
  destruct (write_ok xs masked3 ps' [] ps') as (m & Em & Lm & V).
  - auto.
  - cbn [app]. apply (Permutation_NoDup (Permutation_sym Ki)). apply seq_NoDup.
  - intros p Hp. cbn [app] in Hp. assert (Q : In (index p) (seq 0 (length xs))) by (apply (Permutation_in _ Ki); apply in_map; auto). apply in_seq in Q. lia.
  - intros p [].
  - unfold masked3 in Em. rewrite Em. cbn [bind]. exists m, s'. split; [auto|]. split; [auto|]. split; [auto|].
    intros i x Hi. assert (Q : In (i, x) (map key ps')). { apply (Permutation_in _ (Permutation_sym K)). apply (in_combine_seq (El 0 [] [] [] [] [[]; []]) eq_refl xs 0 i x). split; [lia|]. rewrite Nat.sub_0_r. auto. }
    apply in_map_iff in Q. destruct Q as (p & Ek & Hp). injection Ek as <- <-. exists p. split; [apply V; auto|]. split; [auto|]. split; [auto|]. apply M; auto.
Qed.
End Loop.
