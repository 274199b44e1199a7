(** Elements that are parallelepipeds; bricks. *)
From Verif Require Import Base BaseLemmas Tensor TensorSpec TensorProof Poly PolySpec PolyProof1 PolyProof2 PolyProof3 LobBndSpec FindptsEl2 FindptsEl2Spec FindptsEl2Proof1 FindptsEl2Proof2 FindptsEl2Proof3 FindptsEl2Proof8 FindptsEl2Proof11 FindptsEl3 FindptsEl3Spec FindptsEl3Proof1 FindptsEl3Proof2 FindptsEl3Proof3 FindptsEl3Proof4 FindptsEl3Proof5 FindptsEl3Proof6 FindptsEl3Proof7 FindptsEl3Proof8 FindptsEl3Proof9.
From Coq Require Import Reals Lra Psatz NArith.
Open Scope R_scope.
Notation get := PolySpec.get.

Section Affine.
Variable DBL_MAX : R.
Variable fd : el.
Variable zd : nat -> arr.
Variable Qd : nat -> arr -> Prop.
Hypothesis Hel : forall d, (d < 3)%nat -> elem_dir fd zd Qd d.
Hypothesis Hux : length (ux fd) = 3%nat.
Hypothesis Hxl : forall d, (d < 3)%nat -> (nn fd 0 * nn fd 1 * nn fd 2 <= length (arr_at (ux fd) d))%nat.
Variable tol : R.
Notation nr := (nn fd 0).
Notation ns := (nn fd 1).
Notation nt := (nn fd 2).
Notation T := (T fd zd).
Notation D := (D3 fd zd).
Notation residual := (residual fd zd).
Notation jacobian := (jacobian fd zd).
(** The coordinate c of the node (i,j,k). *)
Variable a : nat -> R.
Variable b : nat -> nat -> R.
Definition affine (c : nat) (r : list R) : R := a c + b c 0%nat * ent r 0 + b c 1%nat * ent r 1 + b c 2%nat * ent r 2.
Hypothesis Haff : forall c i j k, (c < 3)%nat -> in_range fd i j k -> get (arr_at (ux fd) c) ((k * ns + j) * nr + i) = affine c (nodept zd i j k).

Lemma line_sum d u v x : (d < 3)%nat -> rsum (nn fd d) (fun i => bs fd zd d 0 i x * (u + v * get (zd d) i)) = u + v * x.
Proof.
  intros Hd. pose proof (Hel d Hd) as E0. rewrite (rsum_ext _ _ (fun i => peval [u; v] (get (zd d) i) * basis (zd d) (nn fd d) i x)).
  - rewrite interpolation_; [cbn [peval]; ring|apply (el_dist _ _ _ _ E0)|cbn; apply (el_n _ _ _ _ E0)].
  - intros i Hi. unfold bs. cbn [bas peval]. ring.
Qed.
Lemma aff_T3 c r : (c < 3)%nat -> T [0; 0; 0]%nat c r = affine c r.
Proof.
  intros Hc. unfold FindptsEl3Proof4.T, EE, FF. cyc. cbn [nth].
  rewrite (rsum_ext _ _ (fun i => bs fd zd 0 0 i (ent r 0) * ((a c + b c 1%nat * ent r 1 + b c 2%nat * ent r 2) + b c 0%nat * get (zd 0) i))).
  - rewrite line_sum by lia. unfold affine. ring.
  - intros i Hi. f_equal. rewrite (rsum_ext _ _ (fun j => bs fd zd 1 0 j (ent r 1) * ((a c + b c 0%nat * get (zd 0) i + b c 2%nat * ent r 2) + b c 1%nat * get (zd 1) j))).
    + rewrite line_sum by lia. ring.
    + intros j Hj. f_equal. rewrite (rsum_ext _ _ (fun k => bs fd zd 2 0 k (ent r 2) * ((a c + b c 0%nat * get (zd 0) i + b c 1%nat * get (zd 1) j) + b c 2%nat * get (zd 2) k))).
      * rewrite line_sum by lia. ring.
      * intros k Hk. rewrite Rmult_comm. f_equal. unfold node, node_at. replace (i + nr * (j + ns * k))%nat with ((k * ns + j) * nr + i)%nat by ring. rewrite Haff by (auto; repeat split; auto). unfold affine, nodept. cbn [ent nth]. ring.
Qed.
Lemma aff_der3 c e r : (c < 3)%nat -> (e < 3)%nat -> length r = 3%nat -> T (ord e) c r = b c e.
Proof.
  intros Hc He L. apply (uniqueness_limite (fun x => T [0; 0; 0]%nat c (upd r e x)) (ent r e)).
  - pose proof (T_der fd zd Qd Hel Hux e [0; 0; 0]%nat c r (ent r e) He eq_refl) as Q. dim3 e He; apply Q; cbn; auto.
  - apply derivable_pt_lim_ext with (f := fun t => (affine c r - b c e * ent r e) + b c e * t).
    + intros t. rewrite aff_T3 by auto. unfold affine. destruct r as [|r0 [|r1 [|r2 [|? ?]]]]; try discriminate. dim3 e He; cbn [upd ent nth]; ring.
    + apply aff_der.
Qed.
Lemma aff_jac3 r : length r = 3%nat -> jacobian r = [b 0%nat 0%nat; b 0%nat 1%nat; b 0%nat 2%nat; b 1%nat 0%nat; b 1%nat 1%nat; b 1%nat 2%nat; b 2%nat 0%nat; b 2%nat 1%nat; b 2%nat 2%nat].
Proof. intros L. unfold FindptsEl3Proof4.jacobian, dims. cbn [map concat app]. rewrite !aff_der3 by (auto; lia). reflexivity. Qed.
Hypothesis Det : b 0%nat 0%nat * (b 1%nat 1%nat * b 2%nat 2%nat - b 1%nat 2%nat * b 2%nat 1%nat)
    - b 0%nat 1%nat * (b 1%nat 0%nat * b 2%nat 2%nat - b 1%nat 2%nat * b 2%nat 0%nat)
    + b 0%nat 2%nat * (b 1%nat 0%nat * b 2%nat 1%nat - b 1%nat 1%nat * b 2%nat 0%nat) <> 0.
Variable x rs : list R.
Hypothesis Hrs : in_box3 rs.
Hypothesis Hx : forall c, (c < 3)%nat -> ent x c = affine c rs.

Lemma exact_dist3 : D x rs = 0.
Proof. unfold FindptsEl3Proof5.D3, norm2, res3, dims. cbn [map ent nth]. rewrite !aff_T3, !Hx by lia. ring. Qed.
Lemma exact_step3 out p : px p = x -> in_box3 (pr p) -> 0 < tr p -> (forall d, (d < 3)%nat -> Rabs (ent rs d - ent (pr p) d) <= tr p) ->
  vstep fd zd out p tol = Ok (set_step out rs (D x (pr p))
    (N.lor (if Rlt_dec (Rabs (ent rs 0 - ent (pr p) 0) + Rabs (ent rs 1 - ent (pr p) 1) + Rabs (ent rs 2 - ent (pr p) 2)) tol then CONVERGED_FLAG3 else 0%N) (shl (flags p) 7))).
Proof.
  intros Ex Bx Ht Near. pose proof Bx as [Lp Bp]. unfold vstep. change (residual p) with (res3 fd zd (px p) (pr p)). rewrite Ex.
  assert (Dj : det3 (jacobian (pr p)) <> 0). { rewrite aff_jac3 by auto. intros E. apply Det. rewrite <- E. unfold det3. cbn [ent nth]. ring. }
  assert (Zo : obj3 (jacobian (pr p)) (res3 fd zd x (pr p)) (sub3 rs (pr p)) = 0).
  { unfold obj3, norm2. rewrite !lin_ent by lia. rewrite aff_jac3 by auto. unfold res3, sub3, dims. cbn [map ent nth Nat.mul Nat.add]. rewrite !aff_T3, !Hx by lia. unfold affine, ent. ring. }
  pose proof (obj_zero_dir (jacobian (pr p)) (res3 fd zd x (pr p)) (sub3 rs (pr p)) Dj eq_refl Zo) as Nd.
  destruct (newton_vol_ok (jacobian (pr p)) (res3 fd zd x (pr p)) Dj out p tol Bx Ht) as (dr & fl & St & E). rewrite E.
  assert (Edr : dr = sub3 rs (pr p) /\ fl = 0%N).
  { rewrite Nd. apply (s3_near _ _ _ _ _ _ St). intros d Hd. rewrite <- Nd, sub3_ent by auto. split; [apply Near; auto|]. replace (ent (pr p) d + (ent rs d - ent (pr p) d)) with (ent rs d) by ring. apply Hrs. auto. }
  destruct Edr as [-> ->]. rewrite !sub3_ent by lia. rewrite Zo, obj_zero. fold (D x (pr p)). f_equal. f_equal; [|ring].
  apply box_ext3; auto; [split; [reflexivity|]|]; intros d Hd; rewrite add3_ent, sub3_ent by auto.
  - replace (ent (pr p) d + (ent rs d - ent (pr p) d)) with (ent rs d) by ring. apply Hrs. auto.
  - ring.
Qed.

Hypothesis Htol : 0 < tol.
Hypothesis Hsome : exists i j k, in_range fd i j k /\ D x (nodept zd i j k) < DBL_MAX.
Hypothesis Hin : forall d i, (d < 3)%nat -> (i < nn fd d)%nat -> -1 <= get (zd d) i <= 1.
Hypothesis Hnear : forall i j k, in_range fd i j k -> (forall i' j' k', in_range fd i' j' k' -> D x (nodept zd i j k) <= D x (nodept zd i' j' k')) ->
  forall d, (d < 3)%nat -> Rabs (ent rs d - ent (nodept zd i j k) d) <= 1.
Lemma D_pos r : 0 <= D x r.
Proof. unfold FindptsEl3Proof5.D3, norm2. apply Rplus_le_le_0_compat; [apply Rplus_le_le_0_compat|]; apply Rle_0_sqr. Qed.
Lemma exact_run3 k i : exists q, run3 DBL_MAX fd zd tol (S (S k)) (first3 DBL_MAX fd i x) = Ok q /\ pr q = rs /\ low3 q = CONVERGED_FLAG3.
Proof.
  destruct (seed_ok3 DBL_MAX fd zd Qd Hel Hux Hxl x Hsome) as (u & v & w & Huvw & Es & Hl & Hmin).
  assert (Ef : first3 DBL_MAX fd i x = Pt x (nodept zd u v w) [] DBL_MAX 0 1 i 0%N) by (unfold first3; rewrite Es; auto). rewrite Ef. clear Ef. pose proof (Hnear u v w Huvw Hmin) as Nr.
  assert (B0 : in_box3 (nodept zd u v w)). { destruct Huvw as (A1 & A2 & A3). split; [auto|]. intros d Hd. dim3 d Hd; [apply (Hin 0)|apply (Hin 1)|apply (Hin 2)]; auto. }
  set (r0 := nodept zd u v w) in *. clearbody r0.
  set (d1 := Rabs (ent rs 0 - ent r0 0) + Rabs (ent rs 1 - ent r0 1) + Rabs (ent rs 2 - ent r0 2)).
  set (p0 := Pt x r0 [] DBL_MAX 0 1 i 0%N).
  assert (S1 : step3 DBL_MAX fd zd tol 0 p0 = Ok (Pt x rs r0 (D x r0) (D x r0) 2 i (if Rlt_dec d1 tol then CONVERGED_FLAG3 else 0%N))).
  { change (step3 DBL_MAX fd zd tol 0 p0) with (vol1 DBL_MAX fd zd tol p0). unfold vol1, after, reject_prior_step_q3. fold (norm2 (residual p0)). change (norm2 (residual p0)) with (D x r0). cbn [px pr dist2 dist2p tr index p0].
    destruct (Rle_dec (1 / 100 * 0) (DBL_MAX - D x r0)) as [_|H]; [|exfalso; apply H; lra]. destruct (Rle_dec (9 / 10 * 0) (DBL_MAX - D x r0)) as [_|H]; [|exfalso; apply H; lra].
    rewrite (exact_step3 _ p0) by (auto; try exact B0; try (cbn; lra)). unfold set_step. cbn [px pr oldr dist2 tr index flags p0]. replace (1 * 2) with 2 by ring. fold d1.
    f_equal. f_equal. destruct (Rlt_dec d1 tol); reflexivity. }
  rewrite run3_S. change (activeb3 p0) with true. cbn match. change (low3 p0) with 0%N. rewrite S1. cbn [bind]. set (f1 := if Rlt_dec d1 tol then CONVERGED_FLAG3 else 0%N) in *. set (p1 := Pt x rs r0 (D x r0) (D x r0) 2 i f1).
  destruct (Rlt_dec d1 tol) as [H1|H1].
  - exists p1. split; [apply run3_stop; reflexivity|]. split; [auto|]. reflexivity.
  - assert (S2 : step3 DBL_MAX fd zd tol 0 p1 = Ok (Pt x rs rs 0 0 4 i CONVERGED_FLAG3)).
    { change (step3 DBL_MAX fd zd tol 0 p1) with (vol1 DBL_MAX fd zd tol p1). unfold vol1, after, reject_prior_step_q3. fold (norm2 (residual p1)). change (norm2 (residual p1)) with (D x rs). cbn [px pr dist2 dist2p tr index p1]. rewrite exact_dist3.
      pose proof (D_pos r0) as Dp.
      destruct (Rle_dec (1 / 100 * D x r0) (D x r0 - 0)) as [_|H']; [|exfalso; apply H'; lra]. destruct (Rle_dec (9 / 10 * D x r0) (D x r0 - 0)) as [_|H']; [|exfalso; apply H'; lra].
      rewrite (exact_step3 _ p1); [|reflexivity|exact Hrs|cbn; lra|intros d Hd; cbn [pr p1 tr]; unfold Rminus; rewrite Rplus_opp_r, Rabs_R0; lra].
      unfold set_step. cbn [px pr oldr dist2 tr index flags p1]. rewrite exact_dist3. replace (2 * 2) with 4 by ring. unfold Rminus. rewrite !Rplus_opp_r, Rabs_R0, !Rplus_0_r. destruct (Rlt_dec 0 tol); [|contradiction]. reflexivity. }
    rewrite run3_S. change (activeb3 p1) with true. cbn match. change (low3 p1) with 0%N. rewrite S2. cbn [bind]. exists (Pt x rs rs 0 0 4 i CONVERGED_FLAG3). split; [apply run3_stop; reflexivity|]. auto.
Qed.
End Affine.

Section Par.
Variable DBL_MAX : R.
Hypothesis HM : 0 < DBL_MAX.
Variable nr ns nt : nat.
Variable zr zs zt : arr.
Variable npt : nat.
Variable e : shape3.
Variable fd : el.
Variable s : st3.
Variable Qd : nat -> arr -> Prop.
Notation zd := (trip zr zs zt).
Hypothesis K : known3 nr ns nt zr zs zt npt e fd s Qd.
Variable a : nat -> R.
Variable b : nat -> nat -> R.
Hypothesis Pp : parallelepiped e a b.
Let Hux := proj1 (known_x nr ns nt zr zs zt npt e fd s Qd K).
Let HX := proj2 (known_x nr ns nt zr zs zt npt e fd s Qd K).
Let Hel := k3_dir _ _ _ _ _ _ _ _ _ _ _ K.
Let Hsh : sh3 fd zd = e := k3_sh _ _ _ _ _ _ _ _ _ _ _ K.
Let Det := pp_det _ _ _ Pp.
Lemma par_aff3 c i j k : (c < 3)%nat -> in_range fd i j k -> get (arr_at (ux fd) c) ((k * nn fd 1 + j) * nn fd 0 + i) = affine a b c (nodept zd i j k).
Proof. intros Hc Hr. pose proof (pp_x _ _ _ Pp c i j k Hc) as Q. rewrite <- Hsh in Q. apply Q. exact Hr. Qed.
Lemma par_image3 c r : (c < 3)%nat -> image3 e c r = affine a b c r.
Proof. intros Hc. rewrite <- Hsh, <- T_value3. apply (aff_T3 fd zd Qd Hel Hux a b par_aff3). auto. Qed.
Lemma par_regular3 : regular3 e.
Proof.
  intros r J [L _] HJ. assert (E : forall c d, (c < 3)%nat -> (d < 3)%nat -> J c d = b c d).
  { intros c d Hc Hd. rewrite <- (aff_der3 fd zd Qd Hel Hux a b par_aff3 c d r Hc Hd L). rewrite <- Hsh in HJ. exact (uniqueness_limite _ _ _ _ (HJ c d Hc Hd) (has_partials3 fd zd Qd Hel Hux r L c d Hc Hd)). }
  rewrite !E by lia. exact Det.
Qed.
Hypothesis Orth : forall d f, (d < 3)%nat -> (f < 3)%nat -> d <> f -> b 0%nat d * b 0%nat f + b 1%nat d * b 1%nat f + b 2%nat d * b 2%nat f = 0.
Variable x rs : list R.
Hypothesis Hrs : in_box3 rs.
Hypothesis Hx : forall c, (c < 3)%nat -> nth c x 0 = image3 e c rs.
Variable tol : R.
Hypothesis Htol : 0 < tol.
Hypothesis Hreach : reachable3 DBL_MAX e x.
Hypothesis Hin : forall d i, (d < 3)%nat -> (i < nn fd d)%nat -> -1 <= get (zd d) i <= 1.
Let Hxa c : (c < 3)%nat -> ent x c = affine a b c rs. Proof. intros Hc. unfold ent. rewrite Hx by auto. apply par_image3. auto. Qed.
Definition edge2 (d : nat) : R := b 0%nat d * b 0%nat d + b 1%nat d * b 1%nat d + b 2%nat d * b 2%nat d.
Lemma par_dist3 r : D3 fd zd x r = edge2 0 * ((ent rs 0 - ent r 0) * (ent rs 0 - ent r 0)) + edge2 1 * ((ent rs 1 - ent r 1) * (ent rs 1 - ent r 1)) + edge2 2 * ((ent rs 2 - ent r 2) * (ent rs 2 - ent r 2)).
Proof.
  unfold D3, norm2, res3, dims. cbn [map ent nth]. rewrite !(aff_T3 fd zd Qd Hel Hux a b par_aff3), !Hxa by lia. unfold affine, edge2.
  set (p := ent rs 0 - ent r 0). set (q := ent rs 1 - ent r 1). set (t := ent rs 2 - ent r 2).
  assert (Z : forall c, a c + b c 0%nat * ent rs 0 + b c 1%nat * ent rs 1 + b c 2%nat * ent rs 2 - (a c + b c 0%nat * ent r 0 + b c 1%nat * ent r 1 + b c 2%nat * ent r 2) = b c 0%nat * p + b c 1%nat * q + b c 2%nat * t) by (intros c; unfold p, q, t; ring).
  rewrite !Z. pose proof (Orth 0 1 ltac:(lia) ltac:(lia) ltac:(lia)) as O1. pose proof (Orth 0 2 ltac:(lia) ltac:(lia) ltac:(lia)) as O2. pose proof (Orth 1 2 ltac:(lia) ltac:(lia) ltac:(lia)) as O3.
  transitivity ((b 0%nat 0%nat * b 0%nat 0%nat + b 1%nat 0%nat * b 1%nat 0%nat + b 2%nat 0%nat * b 2%nat 0%nat) * (p * p) + (b 0%nat 1%nat * b 0%nat 1%nat + b 1%nat 1%nat * b 1%nat 1%nat + b 2%nat 1%nat * b 2%nat 1%nat) * (q * q) + (b 0%nat 2%nat * b 0%nat 2%nat + b 1%nat 2%nat * b 1%nat 2%nat + b 2%nat 2%nat * b 2%nat 2%nat) * (t * t)
    + 2 * (b 0%nat 0%nat * b 0%nat 1%nat + b 1%nat 0%nat * b 1%nat 1%nat + b 2%nat 0%nat * b 2%nat 1%nat) * (p * q) + 2 * (b 0%nat 0%nat * b 0%nat 2%nat + b 1%nat 0%nat * b 1%nat 2%nat + b 2%nat 0%nat * b 2%nat 2%nat) * (p * t) + 2 * (b 0%nat 1%nat * b 0%nat 2%nat + b 1%nat 1%nat * b 1%nat 2%nat + b 2%nat 1%nat * b 2%nat 2%nat) * (q * t)); [ring|].
  rewrite O1, O2, O3. ring.
Qed.
Lemma edge_pos d : (d < 3)%nat -> 0 < edge2 d.
Proof.
  intros Hd. unfold edge2. destruct (Req_dec (b 0%nat d) 0) as [Z0|N0]; [destruct (Req_dec (b 1%nat d) 0) as [Z1|N1]; [destruct (Req_dec (b 2%nat d) 0) as [Z2|N2]|]|].
  - exfalso. apply Det. dim3 d Hd; rewrite Z0, Z1, Z2; ring.
  - assert (0 < b 2%nat d * b 2%nat d) by nra. nra.
  - assert (0 < b 1%nat d * b 1%nat d) by nra. nra.
  - assert (0 < b 0%nat d * b 0%nat d) by nra. nra.
Qed.
Lemma brick_near i j k : in_range fd i j k -> (forall i' j' k', in_range fd i' j' k' -> D3 fd zd x (nodept zd i j k) <= D3 fd zd x (nodept zd i' j' k')) ->
  forall d, (d < 3)%nat -> Rabs (ent rs d - ent (nodept zd i j k) d) <= 1.
Proof.
  intros (Hi & Hj & Hk) Hmin d Hd. assert (Can : forall k u v, 0 < k -> k * u <= k * v -> u <= v) by (intros k' u v Hk' Hl; apply (Rmult_le_reg_l k'); auto).
  pose proof (Hel 0%nat ltac:(lia)) as E0. pose proof (Hel 1%nat ltac:(lia)) as E1. pose proof (Hel 2%nat ltac:(lia)) as E2. pose proof (el_n _ _ _ _ E0) as L0. pose proof (el_n _ _ _ _ E1) as L1. pose proof (el_n _ _ _ _ E2) as L2.
  pose proof (el_first _ _ _ _ E0) as F0. pose proof (el_first _ _ _ _ E1) as F1. pose proof (el_first _ _ _ _ E2) as F2. pose proof (el_last _ _ _ _ E0) as G0. pose proof (el_last _ _ _ _ E1) as G1. pose proof (el_last _ _ _ _ E2) as G2.
  pose proof (edge_pos d Hd) as Pd. apply closest; [apply Hrs; auto| |]; apply (Can _ _ _ Pd).
  - dim3 d Hd.
    + pose proof (Hmin 0%nat j k ltac:(repeat split; auto; lia)) as A. rewrite !par_dist3 in A. unfold nodept in *. cbn [ent nth] in *. rewrite F0 in A. lra.
    + pose proof (Hmin i 0%nat k ltac:(repeat split; auto; lia)) as A. rewrite !par_dist3 in A. unfold nodept in *. cbn [ent nth] in *. rewrite F1 in A. lra.
    + pose proof (Hmin i j 0%nat ltac:(repeat split; auto; lia)) as A. rewrite !par_dist3 in A. unfold nodept in *. cbn [ent nth] in *. rewrite F2 in A. lra.
  - dim3 d Hd.
    + pose proof (Hmin (nn fd 0 - 1)%nat j k ltac:(repeat split; auto; lia)) as A. rewrite !par_dist3 in A. unfold nodept in *. cbn [ent nth] in *. rewrite G0 in A. lra.
    + pose proof (Hmin i (nn fd 1 - 1)%nat k ltac:(repeat split; auto; lia)) as A. rewrite !par_dist3 in A. unfold nodept in *. cbn [ent nth] in *. rewrite G1 in A. lra.
    + pose proof (Hmin i j (nn fd 2 - 1)%nat ltac:(repeat split; auto; lia)) as A. rewrite !par_dist3 in A. unfold nodept in *. cbn [ent nth] in *. rewrite G2 in A. lra.
Qed.
Lemma brick_run k i : exists q, run3 DBL_MAX fd zd tol (S (S k)) (first3 DBL_MAX fd i x) = Ok q /\ pr q = rs /\ low3 q = CONVERGED_FLAG3.
Proof.
  apply (exact_run3 DBL_MAX fd zd Qd Hel Hux HX tol a b par_aff3 Det x rs Hrs Hxa Htol); auto.
  - apply (reachable_node3 DBL_MAX fd zd). rewrite Hsh. auto.
  - exact brick_near.
Qed.
End Par.

Lemma brick_ok M P nodes_n nr ns nt zr zs zt npt e fd s xs tol : 0 < M -> good R 0 Rplus Rmult P -> el_points nodes_n nr zr -> el_points nodes_n ns zs -> el_points nodes_n nt zt ->
  history3 M P nodes_n nr ns nt zr zs zt npt e fd s -> brick e -> 0 < tol -> (length xs <= npt)%nat -> (forall x, In x xs -> reachable3 M e x) ->
  exists out s', findpts_el_3 M P fd s xs tol = Ok (out, s') /\
    forall i x r, nth_error xs i = Some x -> cube r -> (forall c, (c < 3)%nat -> nth c x 0 = image3 e c r) ->
      exists p, nth_error out i = Some p /\ found3 e tol i x p /\ pr p = r /\ flags p = 64%N.
Proof.
  intros HM G Hr Hs Ht H (a & b & Pp & Orth) Htol Hn Hx.
  destruct (history_known3 M HM P G nodes_n nr ns nt zr zs zt Hr Hs Ht npt e fd s H) as (Q & K).
  pose proof (par_regular3 nr ns nt zr zs zt npt e fd s Q K a b Pp) as Rg.
  destruct (search_known3 M HM P G nodes_n nr ns nt zr zs zt Hr Hs Ht npt e fd s Q xs tol K Rg Hn Hx) as (out & s' & E & _ & _ & V). exists out, s'. split; [auto|].
  intros i x r Hi Hc Hxr. destruct (V i x Hi) as (p & V1 & V2 & V3). exists (masked3 p). split; [auto|]. split; [auto|].
  destruct (brick_run M nr ns nt zr zs zt npt e fd s Q K a b Pp Orth x r Hc Hxr tol Htol) with (k := 48%nat) (i := i) as (q & E1 & E2 & E3).
  - apply Hx. apply (nth_error_In _ _ Hi).
  - intros d k. apply (node_in3 nodes_n nr ns nt zr zs zt Hr Hs Ht fd). apply (k3_n _ _ _ _ _ _ _ _ _ _ _ K).
  - rewrite V3 in E1. injection E1 as <-. split; [exact E2|exact E3].
Qed.
