(** Elements that are parallelograms. *)
From Verif Require Import Base BaseLemmas Tensor TensorSpec TensorProof Poly PolySpec PolyProof1 PolyProof2 FindptsEl2 FindptsEl2Proof1 FindptsEl2Proof2 FindptsEl2Proof3 FindptsEl2Proof4 FindptsEl2Proof5 FindptsEl2Proof6.
From Coq Require Import Reals Lra Psatz NArith.
Open Scope R_scope.
Notation get := PolySpec.get.

Section Affine.
Variable DBL_MAX : R.
Variable fd : el.
Variable zd : nat -> arr.
Variable Qd : nat -> arr -> Prop.
Hypothesis Hel : forall d, (d < 2)%nat -> elem_dir fd zd Qd d.
Hypothesis Hux : length (ux fd) = 2%nat.
Variable tol : R.
Notation nr := (nn fd 0).
Notation ns := (nn fd 1).
Notation T := (T fd zd).
Notation D := (D fd zd).
Notation residual := (residual fd zd).
Notation jacobian := (jacobian fd zd).
(** The coordinate d of the node (i,j). *)
Variable a b c : nat -> R.
Hypothesis Haff : forall d i j, (d < 2)%nat -> (i < nr)%nat -> (j < ns)%nat -> get (arr_at (ux fd) d) (j * nr + i) = a d + b d * get (zd 0) i + c d * get (zd 1) j.

Lemma aff_T d r : (d < 2)%nat -> T 0 0 d r = a d + b d * ent r 0 + c d * ent r 1.
Proof.
  intros Hd. pose proof (Hel 0%nat ltac:(lia)) as E0. pose proof (Hel 1%nat ltac:(lia)) as E1. rewrite T_fold, sum_is.
  rewrite (rsum_ext _ _ (fun i => peval [a d + c d * ent r 1; b d] (get (zd 0) i) * basis (zd 0) nr i (ent r 0))).
  - rewrite interpolation_; [cbn [peval]; ring|apply (el_dist _ _ _ _ E0)|cbn; apply (el_n _ _ _ _ E0)].
  - intros i Hi. rewrite sum_is. cbn [bas]. rewrite Rmult_comm. f_equal.
    rewrite (rsum_ext _ _ (fun j => peval [a d + b d * get (zd 0) i; c d] (get (zd 1) j) * basis (zd 1) ns j (ent r 1))).
    + rewrite interpolation_; [cbn [peval]; ring|apply (el_dist _ _ _ _ E1)|cbn; apply (el_n _ _ _ _ E1)].
    + intros j Hj. cbn [bas]. f_equal. rewrite Nat.add_comm, Haff by auto. cbn [peval]. ring.
Qed.
Lemma aff_der k l x : derivable_pt_lim (fun t => k + l * t) x l.
Proof.
  intros eps He. exists (mkposreal 1 Rlt_0_1). intros h Hh _. replace ((k + l * (x + h) - (k + l * x)) / h - l) with 0 by (field; auto). rewrite Rabs_R0. auto.
Qed.
Lemma aff_jac r : length r = 2%nat -> jacobian r = [b 0%nat; c 0%nat; b 1%nat; c 1%nat].
Proof.
  intros L. destruct r as [|u [|v [|? ?]]]; try discriminate. unfold FindptsEl2Proof3.jacobian.
  assert (X0 : forall d, (d < 2)%nat -> T 1 0 d [u; v] = b d).
  { intros d Hd. apply (uniqueness_limite (fun x => T 0 0 d [x; v]) u).
    - apply (Te_der fd zd Qd Hel Hux 0 0 0 d [u; v] u); auto; lia.
    - apply derivable_pt_lim_ext with (f := fun t => (a d + c d * v) + b d * t); [intros t; rewrite aff_T by auto; cbn [ent nth]; ring|apply aff_der]. }
  assert (X1 : forall d, (d < 2)%nat -> T 0 1 d [u; v] = c d).
  { intros d Hd. apply (uniqueness_limite (fun x => T 0 0 d [u; x]) v).
    - apply (Te_der fd zd Qd Hel Hux 1 0 0 d [u; v] v); auto; lia.
    - apply derivable_pt_lim_ext with (f := fun t => (a d + b d * u) + c d * t); [intros t; rewrite aff_T by auto; cbn [ent nth]; ring|apply aff_der]. }
  rewrite !X0, !X1 by lia. auto.
Qed.
Hypothesis Det : b 0%nat * c 1%nat - c 0%nat * b 1%nat <> 0.
(** x is the image of rs. *)
Variable x rs : list R.
Hypothesis Hrs : in_box rs.
Hypothesis Hx : forall d, (d < 2)%nat -> ent x d = a d + b d * ent rs 0 + c d * ent rs 1.

Lemma exact_dist : D x rs = 0.
Proof. unfold FindptsEl2Proof4.D. rewrite !aff_T, !Hx by lia. ring. Qed.
Lemma exact_step out p : px p = x -> in_box (pr p) -> 0 < tr p -> (forall d, (d < 2)%nat -> Rabs (ent rs d - ent (pr p) d) <= tr p) ->
  newton_area out (jacobian (pr p)) (residual p) p tol = Ok (set_step out rs (D x (pr p))
    (N.lor (if Rlt_dec (Rabs (ent rs 0 - ent (pr p) 0) + Rabs (ent rs 1 - ent (pr p) 1)) tol then CONVERGED_FLAG else 0%N) (shl (flags p) 5))).
Proof.
  intros Ex Bx Ht Near. destruct Bx as [Lp Bp]. rewrite aff_jac by auto. set (J := [b 0%nat; c 0%nat; b 1%nat; c 1%nat]).
  assert (Dj : ent J 0 * ent J 3 - ent J 1 * ent J 2 <> 0) by (unfold J; cbn; auto).
  assert (Rd : forall d, (d < 2)%nat -> ent (residual p) d = b d * (ent rs 0 - ent (pr p) 0) + c d * (ent rs 1 - ent (pr p) 1)).
  { intros d Hd. unfold FindptsEl2Proof3.residual. rewrite !aff_T, Ex, !Hx by lia. destruct d as [|[|d]]; cbn [ent nth]; [| |lia]; unfold ent; ring. }
  assert (N0 : ent (newton_dir J (residual p)) 0 = ent rs 0 - ent (pr p) 0 /\ ent (newton_dir J (residual p)) 1 = ent rs 1 - ent (pr p) 1).
  { unfold newton_dir. cbn [ent nth]. unfold J. cbn [ent nth]. fold (ent (residual p) 0) (ent (residual p) 1). rewrite !Rd by lia. split; field; auto. }
  destruct N0 as [N0 N1].
  destruct (newton_area_ok J (residual p) Dj out p tol (conj Lp Bp) Ht) as (dr & fl & St & E). rewrite E.
  destruct (st_near _ _ _ _ _ _ St) as (D0 & D1 & Df).
  { intros d Hd. destruct d as [|[|d]]; [rewrite N0|rewrite N1|lia]; (split; [apply Near; lia|]).
    - replace (ent (pr p) 0 + (ent rs 0 - ent (pr p) 0)) with (ent rs 0) by ring. apply Hrs. lia.
    - replace (ent (pr p) 1 + (ent rs 1 - ent (pr p) 1)) with (ent rs 1) by ring. apply Hrs. lia. }
  rewrite D0, D1, N0, N1, Df. f_equal. f_equal.
  - destruct Hrs as [Lr _]. destruct rs as [|u [|v [|? ?]]]; try discriminate. cbn [ent nth]. f_equal; [ring|f_equal; ring].
  - unfold obj, lin_res. rewrite D0, D1, N0, N1. cbn [ent nth]. fold (ent (residual p) 0) (ent (residual p) 1). unfold J. cbn [ent nth]. rewrite !Rd by lia.
    unfold FindptsEl2Proof4.D. rewrite !aff_T, !Hx by lia. unfold ent. ring.
Qed.

Hypothesis Htol : 0 < tol.
Hypothesis Hsome : exists i j, (i < nr)%nat /\ (j < ns)%nat /\ D x (node zd i j) < DBL_MAX.
Hypothesis Hin : forall d i, (d < 2)%nat -> (i < nn fd d)%nat -> -1 <= get (zd d) i <= 1.
(** The nearest node. *)
Hypothesis Hnear : forall i j, (i < nr)%nat -> (j < ns)%nat -> (forall i' j', (i' < nr)%nat -> (j' < ns)%nat -> D x (node zd i j) <= D x (node zd i' j')) ->
  forall d, (d < 2)%nat -> Rabs (ent rs d - ent (node zd i j) d) <= 1.
Lemma exact_run k i : exists q, run1 DBL_MAX fd zd tol (S (S k)) (first DBL_MAX fd i x) = Ok q /\ pr q = rs /\ low q = CONVERGED_FLAG /\
  (dist2 q = 0 \/ (Rabs (ent rs 0 - ent (oldr q) 0) + Rabs (ent rs 1 - ent (oldr q) 1) < tol /\ dist2 q = D x (oldr q))).
Proof.
  destruct (seed_ok DBL_MAX fd zd Qd Hel Hux x Hsome) as (u & v & Hu & Hv & Es & Hl & Hmin).
  assert (Ef : first DBL_MAX fd i x = Pt x (node zd u v) [] DBL_MAX 0 1 i 0%N) by (unfold first; rewrite Es; auto). rewrite Ef. set (r0 := node zd u v) in *.
  assert (B0 : in_box r0) by (apply (node_box fd zd Hux Hin); auto). pose proof (Hnear u v Hu Hv Hmin) as Nr. fold r0 in Nr.
  set (d1 := Rabs (ent rs 0 - ent r0 0) + Rabs (ent rs 1 - ent r0 1)).
  set (p0 := Pt x r0 [] DBL_MAX 0 1 i 0%N).
  assert (S1 : step1 DBL_MAX fd zd tol (low p0) p0 = Ok (Pt x rs r0 (D x r0) (D x r0) 2 i (if Rlt_dec d1 tol then CONVERGED_FLAG else 0%N))).
  { change (step1 DBL_MAX fd zd tol (low p0) p0) with (area1 DBL_MAX fd zd tol p0). unfold area1, reject_prior_step_q. rewrite resid_sq. cbn [px pr dist2 dist2p tr index p0].
    destruct (Rle_dec (1 / 100 * 0) (DBL_MAX - D x r0)) as [_|H]; [|exfalso; apply H; lra]. destruct (Rle_dec (9 / 10 * 0) (DBL_MAX - D x r0)) as [_|H]; [|exfalso; apply H; lra].
    rewrite (exact_step _ p0) by (auto; try exact B0; try (cbn; lra)). unfold set_step. cbn [px pr oldr dist2 tr index flags p0]. replace (1 * 2) with 2 by ring. fold d1.
    f_equal. f_equal. destruct (Rlt_dec d1 tol); reflexivity. }
  rewrite run1_S. replace (activeb p0) with true by reflexivity. rewrite S1. cbn [bind]. set (f1 := if Rlt_dec d1 tol then CONVERGED_FLAG else 0%N) in *. set (p1 := Pt x rs r0 (D x r0) (D x r0) 2 i f1).
  destruct (Rlt_dec d1 tol) as [H1|H1].
  - exists p1. split; [apply run1_stop; reflexivity|]. split; [auto|]. split; [reflexivity|]. right. auto.
  - assert (S2 : step1 DBL_MAX fd zd tol (low p1) p1 = Ok (Pt x rs rs 0 0 4 i CONVERGED_FLAG)).
    { change (step1 DBL_MAX fd zd tol (low p1) p1) with (area1 DBL_MAX fd zd tol p1). unfold area1, reject_prior_step_q. rewrite resid_sq. cbn [px pr dist2 dist2p tr index p1]. rewrite exact_dist.
      assert (0 <= D x r0) by (apply Rplus_le_le_0_compat; apply Rle_0_sqr).
      destruct (Rle_dec (1 / 100 * D x r0) (D x r0 - 0)) as [_|H']; [|exfalso; apply H'; lra]. destruct (Rle_dec (9 / 10 * D x r0) (D x r0 - 0)) as [_|H']; [|exfalso; apply H'; lra].
      rewrite (exact_step _ p1); [|reflexivity|exact Hrs|cbn; lra|intros d Hd; cbn [pr p1 tr]; unfold Rminus; rewrite Rplus_opp_r, Rabs_R0; lra].
      unfold set_step. cbn [px pr oldr dist2 tr index flags p1]. rewrite exact_dist. replace (2 * 2) with 4 by ring. unfold Rminus. rewrite !Rplus_opp_r, Rabs_R0, Rplus_0_r. destruct (Rlt_dec 0 tol); [|contradiction]. reflexivity. }
    rewrite run1_S. replace (activeb p1) with true by reflexivity. rewrite S2. cbn [bind]. exists (Pt x rs rs 0 0 4 i CONVERGED_FLAG). split; [apply run1_stop; reflexivity|]. auto.
Qed.
End Affine.
