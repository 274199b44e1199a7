(** findpts_el_setup_3, findpts_el_start_3 and findpts_el_eval_3. *)
From Verif Require Import Base BaseLemmas Tensor TensorSpec TensorProof Poly PolySpec PolyProof1 PolyProof2 PolyProof3 PolyGll LobBndSpec FindptsEl2 FindptsEl2Spec FindptsEl2Proof1 FindptsEl2Proof2 FindptsEl2Proof3 FindptsEl2Proof7 FindptsEl3 FindptsEl3Spec FindptsEl3Proof1 FindptsEl3Proof4.
From Coq Require Import Reals Lra Psatz NArith.
Open Scope R_scope.

Definition trip {A} (a b c : A) (d : nat) : A := match d with 0%nat => a | 1%nat => b | _ => c end.
Lemma setup_ok3 nn nr ns nt z0 z1 z2 npt x : el_points nn nr z0 -> el_points nn ns z1 -> el_points nn nt z2 -> coords nr ns nt x ->
  exists fd s Qd, findpts_el_setup_3 nn nr ns nt npt x = Ok (fd, s) /\ npt_max fd = npt /\ n fd = [nr; ns; nt] /\ ux fd = x /\
    (forall d, (d < 3)%nat -> elem_dir fd (trip z0 z1 z2) Qd d) /\ good_st fd (trip z0 z1 z2) Qd s.
Proof.
  intros P0 P1 P2 [Lx Cx]. destruct (setup_dir_ok nn nr z0 P0) as (a0 & f0 & d0 & w0 & Q0 & E0 & A1 & A2 & A3 & A4 & A5 & A6). destruct (setup_dir_ok nn ns z1 P1) as (b0 & g0 & e0 & v0 & R0 & F0 & B1 & B2 & B3 & B4 & B5 & B6).
  destruct (setup_dir_ok nn nt z2 P2) as (c0 & h0 & k0 & y0 & S0 & G0 & C1 & C2 & C3 & C4 & C5 & C6).
  unfold findpts_el_setup_3. rewrite E0. cbn [bind]. rewrite F0. cbn [bind]. rewrite G0. cbn [bind]. eexists; eexists; exists (trip Q0 R0 S0). split; [reflexivity|]. split; [auto|]. split; [auto|]. split; [auto|].
  pose proof (ep_n _ _ _ P2) as N2. split.
  - intros d Hd. pose proof (Cx d Hd) as Cd. assert (Cd' : (nr * ns <= length (nth d x []))%nat) by nia. clear Cx. dim3 d Hd.
    + destruct P0 as [? LP ? ? ?]. constructor; cbn; auto. apply (lp_distinct _ _ _ LP).
    + destruct P1 as [? LP ? ? ?]. constructor; cbn; auto. apply (lp_distinct _ _ _ LP).
    + destruct P2 as [? LP ? ? ?]. constructor; cbn; auto. apply (lp_distinct _ _ _ LP).
  - constructor; cbn [lag_data3 side_init3 faces edges3 pts3]; auto.
    + intros d Hd. dim3 d Hd; auto.
    + intros dn j _ _ H. exfalso. apply H. reflexivity.
    + intros de i j _ _ _ H. exfalso. apply H. reflexivity.
    + intros k _ H. exfalso. apply H. reflexivity.
Qed.
Lemma start_ok3 fd zd Qd s nr ns nt x : n fd = [nr; ns; nt] -> (forall d, (d < 3)%nat -> elem_dir fd zd Qd d) -> good_st fd zd Qd s -> coords nr ns nt x ->
  let '(fd', s') := findpts_el_start_3 fd s x in npt_max fd' = npt_max fd /\ n fd' = n fd /\ ux fd' = x /\
    (forall d, (d < 3)%nat -> elem_dir fd' zd Qd d) /\ good_st fd' zd Qd s'.
Proof.
  intros En Hel [S1 S2 S3 S4 S5 _ _ _] [Lx Cx]. unfold findpts_el_start_3. split; [auto|]. split; [auto|]. split; [auto|]. split.
  - pose proof (el_n _ _ _ _ (Hel 2%nat ltac:(lia))) as N2. intros d Hd. pose proof (Cx d Hd) as Cd. destruct (Hel d Hd) as [? ? ? ? ? ? ? ? ? ?]. constructor; auto. unfold nn in *. cbn [n ux] in *. rewrite En in *. cbn [nth] in *. unfold arr_at. nia.
  - constructor; cbn [set_init lag_data3 side_init3 faces edges3 pts3]; auto; intros; exfalso; match goal with H : N.land 0 _ <> _ |- _ => apply H end; reflexivity.
Qed.

Section Eval.
Variable P : products R.
Hypothesis G : good R 0 Rplus Rmult P.
Variable fd : el.
Variable zd : nat -> arr.
Variable Qd : nat -> arr -> Prop.
Hypothesis Hel : forall d, (d < 3)%nat -> elem_dir fd zd Qd d.
Hypothesis Hux : length (ux fd) = 3%nat.
Notation nr := (nn fd 0).
Notation ns := (nn fd 1).
Notation nt := (nn fd 2).
(** The value at r of the function with the values u at the nodes. *)
Definition inter3 (u : arr) (r : list R) : R :=
  rsum nr (fun i => bs fd zd 0 0 i (ent r 0) * rsum ns (fun j => bs fd zd 1 0 j (ent r 1) * rsum nt (fun k => get u (i + nr * (j + ns * k)) * bs fd zd 2 0 k (ent r 2)))).
Lemma eval_ok3 s rs u : good_st fd zd Qd s -> (length rs <= npt_max fd)%nat -> (nr * ns * nt <= length u)%nat -> exists s', good_st fd zd Qd s' /\
  findpts_el_eval_3 P fd s rs u = Ok (map (inter3 u) rs, s').
Proof.
  intros S Hn Hu. pose proof (el_n _ _ _ _ (Hel 0%nat ltac:(lia))) as N0. unfold findpts_el_eval_3.
  rewrite need_ok. 2:{ pose proof (proj1 (have3_all fd Hux) (length rs) Hn) as H0. destruct (Nat.ltb_spec ns (2 * nr)); nia. }
  cbn [bind].
  destruct (lag_dir3_ok fd zd Qd Hel Hux s 0 0 (map (fun r => ent r 0) rs) S ltac:(lia) ltac:(lia)) as (wtr & s1 & E1 & S1 & _ & L1' & W1). rewrite E1. cbn [bind].
  destruct (lag_dir3_ok fd zd Qd Hel Hux s1 1 0 (map (fun r => ent r 1) rs) S1 ltac:(lia) ltac:(lia)) as (wts & s2 & E2 & S2 & _ & L2' & W2). rewrite E2. cbn [bind].
  destruct (lag_dir3_ok fd zd Qd Hel Hux s2 2 0 (map (fun r => ent r 2) rs) S2 ltac:(lia) ltac:(lia)) as (wtt & s3 & E3 & S3 & _ & L3' & W3). rewrite E3. cbn [bind].
  rewrite map_length in L1', L2', L3', W1, W2, W3. exists s3. split; [auto|]. set (pn := length rs) in *. set (nrs := (nr * ns)%nat) in *.
  destruct (good_mxm _ _ _ _ _ G (repeat 0 (nrs * pn)) nrs u nt wtt pn) as (C & EC & LC & WC & _); [rewrite repeat_length; lia|unfold nrs in *; nia|lia|].
  rewrite EC. cbn [bind]. rewrite repeat_length in LC.
  assert (M : mapM (fun i => tensor_i2 R 0 Rplus Rmult P (from wtr (i * nr)) nr (from wts (i * ns)) ns (from C (i * nrs)) (repeat 0 ns)) (seq 0 pn) = Ok (map (fun i => inter3 u (nth i rs [])) (seq 0 pn))).
  { apply mapM_ok. intros i Hi. apply in_seq in Hi. assert (Hi' : (i < pn)%nat) by lia. set (r := nth i rs []).
    assert (Lr : forall k, nth i (map (fun r => ent r k) rs) 0 = ent r k).
    { intros k. unfold r. rewrite (nth_indep _ 0 (ent [] k)) by (rewrite map_length; auto). apply (map_nth (fun r => ent r k)). }
    assert (i * nr + nr <= nr * pn)%nat by nia. assert (i * ns + ns <= ns * pn)%nat by nia. assert (i * nrs + nrs <= nrs * pn)%nat by nia.
    unfold from. rewrite (i2_ok R 0 1 Rplus Rmult Rminus Ropp RTheory P G) by (rewrite ?skipn_length, ?repeat_length; fold nrs; lia). f_equal. unfold inter3.
    rewrite apply2_rs. apply rsum_ext. intros a Ha. f_equal.
    - unfold row. etransitivity; [apply (get_skipn R 0)|]. rewrite <- Lr, <- (W1 i 0%nat a) by lia. apply gget. lia.
    - apply rsum_ext. intros b Hb. assert (a + b * nr < nrs)%nat by (unfold nrs; nia).
      assert (Eb : TensorSpec.get R 0 (skipn (i * ns) wts) b = bs fd zd 1 0 b (ent r 1)).
      { unfold row. etransitivity; [apply (get_skipn R 0)|]. rewrite <- Lr, <- (W2 i 0%nat b) by lia. apply gget. lia. }
      assert (Ec : get (skipn (i * nrs) C) (a + b * nr) = rsum nt (fun k => get u (a + nr * (b + ns * k)) * bs fd zd 2 0 k (ent r 2))).
      { etransitivity; [apply (get_skipn R 0)|]. transitivity (get C ((a + b * nr) + i * nrs)); [apply gget; lia|]. etransitivity; [apply WC; lia|]. unfold MB. rewrite sum_rs. apply rsum_ext. intros k Hk.
        f_equal; [apply gget; unfold nrs; lia|]. rewrite <- Lr, <- (W3 i 0%nat k) by lia. apply gget. lia. }
      rewrite Eb, Ec. ring. }
  rewrite M. cbn [bind]. f_equal. f_equal. unfold pn. clear. rewrite <- (map_map (fun i => nth i rs []) (inter3 u)). f_equal. apply ListLemmas_map_nth.
Qed.
End Eval.
