(** Groups, and the grouping by constraints, of findpts_el_2. *)
From Verif Require Import Base BaseLemmas Tensor TensorSpec TensorProof Poly PolySpec FindptsEl2 FindptsEl2Proof1 FindptsEl2Proof2 FindptsEl2Proof3 FindptsEl2Proof4.
From Coq Require Import Reals Lra Psatz NArith Permutation.
Open Scope R_scope.

Lemma mapM_forall2 {A B} (f : A -> res B) (Q : A -> B -> Prop) l : (forall x, In x l -> exists y, f x = Ok y /\ Q x y) -> exists ys, mapM f l = Ok ys /\ Forall2 Q l ys.
Proof.
  induction l as [|x l IH]; intros H; cbn [mapM].
  - exists []. auto.
  - destruct (H x) as (y & E & Qy); [left; auto|]. rewrite E. cbn [bind]. destruct IH as (ys & E' & F); [intros; apply H; right; auto|]. rewrite E'. cbn [bind]. exists (y :: ys). auto.
Qed.

Open Scope nat_scope.
Lemma nth_error_skipn' {A} (l : list A) k i : nth_error (skipn k l) i = nth_error l (k + i).
Proof. revert l; induction k; intros l; [auto|]. destruct l; [destruct i; auto|cbn; auto]. Qed.
(** ** The counting sort *)
Section Sort.
Context {A : Type} (bn : A -> nat).
Definition pick (b : nat) (l : list A) : list A := filter (fun p => bn p =? b) l.
Definition cnt (b : nat) (l : list A) : nat := length (pick b l).
Fixpoint start (l : list A) (b : nat) : nat := match b with O => 0 | S b => start l b + cnt b l end.
Definition groups (l : list A) (k : nat) : list A := concat (map (fun b => pick b l) (seq 0 k)).
Lemma groups_S l k : groups l (S k) = groups l k ++ pick k l.
Proof. unfold groups. rewrite seq_S, map_app, concat_app. cbn. rewrite app_nil_r. auto. Qed.
Lemma groups_len l k : length (groups l k) = start l k.
Proof. induction k; [auto|]. rewrite groups_S, app_length, IHk. auto. Qed.
Lemma groups_perm l k : (forall p, In p l -> bn p < k) -> Permutation l (groups l k).
Proof.
  intros H. assert (G : Permutation (filter (fun p => bn p <? k) l) (groups l k)).
  { clear H. induction k as [|k IH].
    - change (groups l 0) with (@nil A). replace (filter (fun p => bn p <? 0) l) with (@nil A); [apply perm_nil|]. induction l; cbn; auto.
    - rewrite groups_S, <- IH. clear IH. unfold pick. induction l as [|p l IH]; [constructor|]. cbn [filter].
      destruct (Nat.ltb_spec (bn p) (S k)), (Nat.ltb_spec (bn p) k), (Nat.eqb_spec (bn p) k); try lia; auto.
      + cbn. constructor. auto.
      + rewrite <- Permutation_middle. constructor. auto. }
  rewrite <- G. replace (filter _ l) with l; [auto|]. symmetry. clear G. induction l as [|p l IH]; [auto|]. cbn [filter].
  destruct (Nat.ltb_spec (bn p) k) as [|Hb]; [f_equal; apply IH; intros; apply H; right; auto|]. exfalso. pose proof (H p (or_introl eq_refl)). lia.
Qed.
Lemma start_total l k : (forall p, In p l -> bn p < k) -> start l k = length l.
Proof. intros H. rewrite <- groups_len. symmetry. apply Permutation_length. apply groups_perm, H. Qed.
Lemma start_mono l b c : b <= c -> start l b <= start l c.
Proof. induction 1; [auto|]. cbn [start]. lia. Qed.
Lemma groups_nth l k : forall b i, b < k -> i < cnt b l -> nth_error (groups l k) (start l b + i) = nth_error (pick b l) i.
Proof.
  induction k as [|k IH]; intros b i Hb Hi; [lia|]. rewrite groups_S. destruct (Nat.eq_dec b k) as [->|Hn].
  - rewrite nth_error_app2; rewrite groups_len; [f_equal; lia|lia].
  - rewrite nth_error_app1; [apply IH; auto; lia|]. rewrite groups_len. pose proof (start_mono l (S b) k ltac:(lia)). cbn [start] in H. lia.
Qed.
Lemma start_split l k i : i < start l k -> exists b, b < k /\ start l b <= i < start l (S b).
Proof.
  induction k as [|k IH]; cbn [start]; intros H; [lia|]. destruct (Nat.lt_ge_cases i (start l k)) as [Hl|Hl].
  - destruct (IH Hl) as (b & B1 & B2). exists b. split; [lia|auto].
  - exists k. split; [lia|]. cbn [start]. lia.
Qed.
Lemma pick_app b l m : pick b (l ++ m) = pick b l ++ pick b m.
Proof. apply filter_app. Qed.
Lemma cnt_app b l m : cnt b (l ++ m) = cnt b l + cnt b m.
Proof. unfold cnt. rewrite pick_app, app_length. auto. Qed.
Lemma cnt_one b p : cnt b [p] = if bn p =? b then 1 else 0.
Proof. unfold cnt, pick. cbn. destruct (bn p =? b); auto. Qed.
Lemma in_pick b p l : In p (pick b l) <-> In p l /\ bn p = b.
Proof. unfold pick. rewrite filter_In, Nat.eqb_eq. tauto. Qed.

Lemma count_ok l : forall off, (forall p, In p l -> bn p < length off) ->
  exists off', foldM (fun off p => c <- rd off (bn p) ;; wr off (bn p) (c + 1)) l off = Ok off' /\ length off' = length off /\ forall b, b < length off -> nth b off' 0 = nth b off 0 + cnt b l.
Proof.
  induction l as [|p l IH]; intros off H; cbn [foldM].
  - exists off. repeat split; auto; intros; cbn; lia.
  - assert (Hp : bn p < length off) by (apply H; left; auto). rewrite (rd_nth _ _ 0) by auto. cbn [bind]. rewrite wr_ok by auto. cbn [bind].
    destruct (IH (upd off (bn p) (nth (bn p) off 0 + 1))) as (off' & E & L & V); [rewrite upd_length; intros; apply H; right; auto|]. exists off'. split; [auto|]. split; [rewrite L, upd_length; auto|].
    intros b Hb. rewrite V by (rewrite upd_length; auto). change (p :: l) with ([p] ++ l). rewrite cnt_app, cnt_one. destruct (Nat.eqb_spec (bn p) b) as [Eb|Hn].
    + rewrite <- Eb. rewrite (nth_error_nth (upd off (bn p) (nth (bn p) off 0 + 1)) (bn p) 0 (nth_error_upd_eq _ _ _ Hp)). lia.
    + assert (X : nth b (upd off (bn p) (nth (bn p) off 0 + 1)) 0 = nth b off 0); [|lia]. pose proof (nth_upd_other off (bn p) b (nth (bn p) off 0 + 1) Hn) as Y.
      destruct (nth_error off b) as [v|] eqn:Ev; [rewrite (nth_error_nth _ _ 0 Ev); apply nth_error_nth; auto|]. apply nth_error_None in Ev. lia.
Qed.

(** The copies. *)
Lemma scatter_ok (full : list A) K (ps : list A) : (forall p, In p full -> bn p < K) -> length full <= length ps ->
  forall l2 l1 m off, full = l1 ++ l2 -> length m = length ps -> length off = K ->
  (forall b, b < K -> nth b off 0 = start full b + cnt b l1) ->
  (forall b i, b < K -> i < cnt b l1 -> nth_error m (start full b + i) = nth_error (pick b l1) i) ->
  (forall i, length full <= i -> nth_error m i = nth_error ps i) ->
  exists m' off', foldM (fun '(ps, off) p => o <- rd off (bn p) ;; off <- wr off (bn p) (o + 1) ;; ps <- wr ps o p ;; Ok (ps, off)) l2 (m, off) = Ok (m', off') /\
    m' = groups full K ++ skipn (length full) ps.
Proof.
  intros Hb Hl. assert (Htot : start full K = length full) by (apply start_total; auto).
  induction l2 as [|p l2 IH]; intros l1 m off Ef Lm Lo Vo Vm Vt; cbn [foldM].
  - exists m, off. split; [auto|]. rewrite app_nil_r in Ef. subst l1. apply nth_error_ext. intros i.
    destruct (Nat.lt_ge_cases i (length full)) as [Hi|Hi].
    + rewrite nth_error_app1 by (rewrite groups_len; lia). rewrite <- Htot in Hi. destruct (start_split full K i Hi) as (b & B1 & B2). cbn [start] in B2.
      replace i with (start full b + (i - start full b)) by lia. rewrite Vm by (auto; lia). rewrite groups_nth by (auto; lia). auto.
    + rewrite nth_error_app2 by (rewrite groups_len; lia). rewrite groups_len, Htot. rewrite Vt by auto. rewrite nth_error_skipn'. f_equal. lia.
  - assert (Hp : bn p < K) by (apply Hb; rewrite Ef; apply in_or_app; right; left; auto).
    rewrite (rd_nth _ _ 0) by lia. cbn [bind]. rewrite wr_ok by lia. cbn [bind]. rewrite (Vo _ Hp).
    assert (Hc : cnt (bn p) l1 < cnt (bn p) full) by (rewrite Ef; change (p :: l2) with ([p] ++ l2); rewrite !cnt_app, cnt_one, Nat.eqb_refl; lia).
    assert (Ho : start full (bn p) + cnt (bn p) l1 < length full). { pose proof (start_mono full (S (bn p)) K ltac:(lia)) as Q. cbn [start] in Q. lia. }
    rewrite wr_ok by lia. cbn [bind]. apply (IH (l1 ++ [p])).
    + rewrite <- app_assoc. auto.
    + rewrite upd_length. auto.
    + rewrite upd_length. auto.
    + intros b B. rewrite cnt_app, cnt_one. destruct (Nat.eqb_spec (bn p) b) as [Eb|Hn].
      * rewrite <- Eb. rewrite (nth_error_nth _ _ 0 (nth_error_upd_eq off (bn p) (start full (bn p) + cnt (bn p) l1 + 1) ltac:(lia))). lia.
      * pose proof (nth_upd_other off (bn p) b (start full (bn p) + cnt (bn p) l1 + 1) Hn) as Y. rewrite Nat.add_0_r. rewrite <- (Vo b) by auto.
        destruct (nth_error off b) as [v|] eqn:Ev; [rewrite (nth_error_nth _ _ 0 Ev); apply nth_error_nth; auto|]. apply nth_error_None in Ev. lia.
    + intros b i B Hi. rewrite cnt_app, cnt_one in Hi. rewrite pick_app. destruct (Nat.eq_dec b (bn p)) as [->|Hn].
      * rewrite Nat.eqb_refl in Hi. destruct (Nat.eq_dec i (cnt (bn p) l1)) as [->|Hne].
        -- rewrite nth_error_upd_eq by lia. unfold cnt. rewrite nth_error_app2, Nat.sub_diag by lia. unfold pick at 1. cbn [filter]. rewrite Nat.eqb_refl. auto.
        -- rewrite nth_upd_other by lia. rewrite nth_error_app1 by (unfold cnt in *; lia). apply Vm; auto. lia.
      * destruct (Nat.eqb_spec (bn p) b); [congruence|]. rewrite nth_upd_other.
        -- rewrite nth_error_app1 by (unfold cnt in *; lia). apply Vm; auto. lia.
        -- assert (Hib : i < cnt b full) by (rewrite Ef; rewrite cnt_app; lia). destruct (Nat.lt_ge_cases b (bn p)) as [Hlt|Hge].
           ++ pose proof (start_mono full (S b) (bn p) ltac:(lia)) as Q. cbn [start] in Q. lia.
           ++ pose proof (start_mono full (S (bn p)) b ltac:(lia)) as Q. cbn [start] in Q. lia.
    + intros i Hi. rewrite nth_upd_other by lia. auto.
Qed.
End Sort.

Lemma prefix_ok c0 c1 c2 c3 c4 c5 c6 c7 c8 c9 :
  foldM (fun '(count, off, sum) i => ci <- rd off i ;; count <- wr count i ci ;; off <- wr off i sum ;; Ok (count, off, sum + ci)) (seq 0 9)
    (repeat 0 9, [c0; c1; c2; c3; c4; c5; c6; c7; c8; c9], 0) =
  Ok ([c0; c1; c2; c3; c4; c5; c6; c7; c8],
      [0; 0 + c0; 0 + c0 + c1; 0 + c0 + c1 + c2; 0 + c0 + c1 + c2 + c3; 0 + c0 + c1 + c2 + c3 + c4; 0 + c0 + c1 + c2 + c3 + c4 + c5; 0 + c0 + c1 + c2 + c3 + c4 + c5 + c6; 0 + c0 + c1 + c2 + c3 + c4 + c5 + c6 + c7; c9],
      0 + c0 + c1 + c2 + c3 + c4 + c5 + c6 + c7 + c8).
Proof. reflexivity. Qed.

Lemma regroup_ok (pbuf ps : list pt) : (forall p, In p pbuf -> bin p < 10) -> length pbuf <= length ps ->
  exists count, regroup pbuf ps = Ok (groups bin pbuf 10 ++ skipn (length pbuf) ps, count, start bin pbuf 9) /\ forall b, b < 9 -> nth_error count b = Some (cnt bin b pbuf).
Proof.
  intros Hb Hl. unfold regroup. destruct (count_ok bin pbuf (repeat 0 10) Hb) as (off & E & L & V). rewrite E. cbn [bind].
  rewrite repeat_length in L, V. destruct off as [|c0 [|c1 [|c2 [|c3 [|c4 [|c5 [|c6 [|c7 [|c8 [|c9 [|? ?]]]]]]]]]]]; try discriminate L.
  assert (C : forall b, b < 10 -> nth b [c0; c1; c2; c3; c4; c5; c6; c7; c8; c9] 0 = cnt bin b pbuf).
  { intros b B. rewrite V by auto. replace (nth b (repeat 0 10) 0) with 0; [auto|]. symmetry. apply nth_repeat. }
  rewrite prefix_ok. cbn [bind].
  assert (St : forall b, b < 10 -> nth b [0; 0 + c0; 0 + c0 + c1; 0 + c0 + c1 + c2; 0 + c0 + c1 + c2 + c3; 0 + c0 + c1 + c2 + c3 + c4; 0 + c0 + c1 + c2 + c3 + c4 + c5; 0 + c0 + c1 + c2 + c3 + c4 + c5 + c6; 0 + c0 + c1 + c2 + c3 + c4 + c5 + c6 + c7; 0 + c0 + c1 + c2 + c3 + c4 + c5 + c6 + c7 + c8] 0 = start bin pbuf b).
  { intros b B. do 10 (destruct b as [|b]; [cbn [nth start]; rewrite <- ?(C 0), <- ?(C 1), <- ?(C 2), <- ?(C 3), <- ?(C 4), <- ?(C 5), <- ?(C 6), <- ?(C 7), <- ?(C 8) by lia; reflexivity|]). lia. }
  rewrite wr_ok by (cbn; lia). cbn [bind upd].
  pose proof (scatter_ok bin pbuf 10 ps Hb Hl pbuf [] ps _ eq_refl eq_refl (eq_refl : length [0; 0 + c0; 0 + c0 + c1; 0 + c0 + c1 + c2; 0 + c0 + c1 + c2 + c3; 0 + c0 + c1 + c2 + c3 + c4; 0 + c0 + c1 + c2 + c3 + c4 + c5; 0 + c0 + c1 + c2 + c3 + c4 + c5 + c6; 0 + c0 + c1 + c2 + c3 + c4 + c5 + c6 + c7; 0 + c0 + c1 + c2 + c3 + c4 + c5 + c6 + c7 + c8] = 10)) as X.
  destruct X as (m' & off' & E' & Em).
  - intros b B. rewrite St by auto. cbn. lia.
  - intros b i _ Hi. cbn in Hi. lia.
  - auto.
  - rewrite E'. cbn [bind]. rewrite Em. eexists. split; [f_equal; f_equal; apply (St 9); lia|]. intros b B. rewrite <- C by lia.
    do 9 (destruct b as [|b]; [reflexivity|]). lia.
Qed.

Lemma skip_len {A} (l1 l2 : list A) k : k = length l1 -> skipn k (l1 ++ l2) = l2.
Proof. intros ->. induction l1; auto. Qed.
Lemma first_len {A} (l1 l2 : list A) k : k = length l1 -> firstn k (l1 ++ l2) = l1.
Proof. intros ->. induction l1; cbn; f_equal; auto. Qed.

(** ** The bins *)
Lemma bin_active p : active p -> bin p = N.to_nat (pt_flags_to_bin_noC (low p)) /\ bin p < 9.
Proof. unfold active, bin. fold (low p). generalize (low p). intros f H. nines H; vm_compute; split; try reflexivity; lia. Qed.
Lemma bin_conv p f : In f nine -> low p = N.lor f CONVERGED_FLAG -> bin p = 9.
Proof. intros H E. unfold bin. fold (low p). rewrite E. nines H; reflexivity. Qed.
Lemma bin_inj f g : In f nine -> In g nine -> pt_flags_to_bin_noC f = pt_flags_to_bin_noC g -> f = g.
Proof. intros H K. nines H; nines K; intros E; vm_compute in E; try discriminate; auto. Qed.

Section Loop.
Variable DBL_MAX : R.
Hypothesis HM : (0 < DBL_MAX)%R.
Variable P : products R.
Hypothesis G : good R 0%R Rplus Rmult P.
Variable fd : el.
Variable zd : nat -> arr.
Variable Qd : nat -> arr -> Prop.
Hypothesis Hel : forall d, d < 2 -> elem_dir fd zd Qd d.
Hypothesis Hux : length (ux fd) = 2.
Variable tol : R.
Hypothesis Reg : forall r, in_box r -> (ent (jacobian fd zd r) 0 * ent (jacobian fd zd r) 3 - ent (jacobian fd zd r) 1 * ent (jacobian fd zd r) 2 <> 0)%R.
Variable near : list R -> R.
Notation good_st := (good_st fd zd Qd).
Notation inv := (inv DBL_MAX fd zd tol).
Notation step1 := (step1 DBL_MAX fd zd tol).
Definition ok (p : pt) : Prop := inv (near (px p)) p.
Definition moved (p : pt) : Prop := stepped_to fd zd tol (near (px p)) p \/ rejected_to DBL_MAX fd zd tol (near (px p)) p.
Definition to (p q : pt) : Prop := step1 (low p) p = Ok q /\ ok q /\ moved q /\ px q = px p /\ index q = index p.
Lemma step_to p : ok p -> active p -> exists q, step1 (low p) p = Ok q /\ to p q.
Proof.
  intros I A. destruct (step_ok DBL_MAX HM fd zd tol Reg _ p I A) as (q & E & Iq & Ex & Ei & M). exists q. split; [auto|]. split; [auto|]. unfold ok, moved. rewrite Ex. auto.
Qed.
Definition dispatch (f : N) (s : st) (ps : list pt) : res (list pt * st) :=
  if (num_constrained f =? 0)%N then findpt_area DBL_MAX P fd s ps tol
  else if (num_constrained f =? 1)%N then findpt_edge DBL_MAX P fd s ps tol
  else if (num_constrained f =? 2)%N then findpt_pt DBL_MAX P fd s ps tol else UB.
Lemma dispatch_ok f s p0 ps : good_st s -> S (length ps) <= npt_max fd -> (forall p, In p (p0 :: ps) -> ok p /\ active p /\ low p = f) ->
  exists out s', dispatch f s (p0 :: ps) = Ok (out, s') /\ good_st s' /\ Forall2 to (p0 :: ps) out.
Proof.
  intros S Hn Hp. destruct (mapM_forall2 (step1 f) to (p0 :: ps)) as (out & E & F).
  { intros p Hin. destruct (Hp p Hin) as (I & A & L). rewrite <- L. apply step_to; auto. }
  destruct (Hp p0 (or_introl eq_refl)) as (I0 & A0 & L0). unfold dispatch.
  assert (Nf : In f nine) by (rewrite <- L0; exact A0).
  assert (X : exists s', good_st s' /\ (if (num_constrained f =? 0)%N then findpt_area DBL_MAX P fd s (p0 :: ps) tol
    else if (num_constrained f =? 1)%N then findpt_edge DBL_MAX P fd s (p0 :: ps) tol else if (num_constrained f =? 2)%N then findpt_pt DBL_MAX P fd s (p0 :: ps) tol else UB) = (out <- mapM (step1 f) (p0 :: ps) ;; Ok (out, s'))).
  { unfold FindptsEl2Proof4.step1. destruct (nine_kinds f Nf) as [[E1 E2]|[[E1 (j & dn & Hj & Hd & E2 & E3)]|[E1 (j & i & Hj & Hi & E2)]]]; rewrite E1; cbn [N.eqb Pos.eqb].
    - apply (area_eq DBL_MAX P G fd zd Qd Hel); auto.
    - rewrite E3. pose proof (edge_eq DBL_MAX P G fd zd Qd Hel Hux s (p0 :: ps) tol dn j S ltac:(cbn; lia) Hd Hj) as Y. cbv zeta in Y. rewrite <- E2 in Y. apply Y; [exists p0, ps; split; [auto|exact L0]|].
      intros p Hin. destruct (Hp p Hin) as (I & A & L). pose proof (active_con DBL_MAX fd zd tol _ p I A dn Hd) as C. rewrite L, E2, con_at, Nat.eqb_refl in C by (auto using side_of).
      destruct j as [|[|j]]; [| |lia]; destruct C as [C|[[C V]|[C V]]]; try discriminate; exact V.
    - pose proof (pt_eq DBL_MAX P G fd zd Qd Hel Hux s (p0 :: ps) tol j i S Hj Hi) as Y. cbv zeta in Y. rewrite <- E2 in Y. apply Y; [exists p0, ps; split; [auto|exact L0]|].
      intros p Hin. destruct (Hp p Hin) as (I & A & L). pose proof (active_con DBL_MAX fd zd tol _ p I A) as C. rewrite L, E2 in C.
      destruct (i_box _ _ _ _ _ _ I) as [Lr _]. unfold corner. destruct (pr p) as [|a [|b [|? ?]]] eqn:Epr; try discriminate Lr.
      pose proof (C 0 ltac:(lia)) as Ca. pose proof (C 1 ltac:(lia)) as Cb. cbn [ent nth] in Ca, Cb.
      destruct i as [|[|i]]; [| |lia]; (destruct j as [|[|j]]; [| |lia]); destruct Ca as [Ca|[[Ca Va]|[Ca Va]]]; try discriminate; destruct Cb as [Cb|[[Cb Vb]|[Cb Vb]]]; try discriminate; rewrite Va, Vb; reflexivity. }
  destruct X as (s' & S' & X). exists out, s'. rewrite X, E. auto.
Qed.

Lemma advance_ok count : forall (gs : list (nat * list pt)),
  (forall b ps, In (b, ps) gs -> nth_error count b = Some (length ps) /\ length ps <= npt_max fd /\ forall p, In p ps -> ok p /\ active p /\ bin p = b) ->
  forall s fuel, good_st s -> length (concat (map snd gs)) <= fuel ->
  exists out s', advance DBL_MAX P fuel fd s count (concat (map snd gs)) tol = Ok (out, s') /\ good_st s' /\ Forall2 to (concat (map snd gs)) out.
Proof.
  induction gs as [|[b ps] gs IH]; intros H s fuel Hs Hf.
  - cbn [map concat]. exists [], s. split; [destruct fuel; reflexivity|]. auto.
  - cbn [map concat snd] in *. destruct ps as [|p0 ps].
    + cbn [app] in *. apply IH; auto. intros b' ps' Hin. apply H. right; auto.
    + destruct fuel as [|fuel]; [cbn in Hf; lia|]. destruct (H b (p0 :: ps) (or_introl eq_refl)) as (Hc & Hn & Hp). destruct (Hp p0 (or_introl eq_refl)) as (I0 & A0 & B0).
      change ((p0 :: ps) ++ concat (map snd gs)) with (p0 :: (ps ++ concat (map snd gs))). cbn [advance]. change (N.land (flags p0) FLAG_MASK) with (low p0).
      rewrite (proj1 (bin_active p0 A0)) in B0. rewrite B0, (rd_ok _ _ _ Hc). cbn [bind].
      change (p0 :: (ps ++ concat (map snd gs))) with ((p0 :: ps) ++ concat (map snd gs)). rewrite app_length.
      destruct (Nat.leb_spec (length (p0 :: ps)) (length (p0 :: ps) + length (concat (map snd gs)))); [|lia]. cbn [bind].
      rewrite first_len, skip_len by auto.
      destruct (dispatch_ok (low p0) s p0 ps Hs Hn) as (out & s1 & E1 & S1 & F1).
      { intros p Hin. destruct (Hp p Hin) as (I & A & B). split; [auto|]. split; [auto|]. rewrite (proj1 (bin_active p A)) in B. apply bin_inj; [exact A|exact A0|]. lia. }
      unfold dispatch in E1. rewrite E1. cbn [bind].
      destruct (IH (fun b' ps' Hin => H b' ps' (or_intror Hin)) s1 fuel S1) as (outs & s2 & E2 & S2 & F2); [rewrite app_length in Hf; cbn in Hf; lia|].
      rewrite E2. cbn [bind]. exists (out ++ outs), s2. split; [auto|]. split; [auto|]. apply Forall2_app; auto.
Qed.
End Loop.
