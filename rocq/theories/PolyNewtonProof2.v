(** The last step of Newton's method near one of well separated roots. *)
From Verif Require Import Base BaseLemmas Poly PolySpec PolyProof1 PolyProof2 PolyProof3 PolyGllProof PolyQuadSpec PolyQuadProof1 PolyNewton PolyGenSpec PolyGenNodesProof.
From Coq Require Import Reals Lra.
Open Scope R_scope.

Lemma newton_poly_inv fuel f f' : forall x0 z, newton_poly fuel f f' x0 = Ok z ->
  exists x y, f' x <> 0 /\ y = x - f x / f' x /\ Rabs (y - x) <= - y * EPS /\ f' y <> 0 /\ z = y - f y / f' y.
Proof.
  induction fuel as [|k IH]; intros x0 z E; [discriminate|]. cbn [newton_poly] in E. destruct (Req_EM_T (f' x0) 0); [discriminate|].
  destruct (Rlt_dec _ _) as [L|L]; [eapply IH; eauto|]. destruct (Req_EM_T (f' _) 0); [discriminate|]. injection E as <-.
  eexists. eexists. split; [exact n|]. split; [reflexivity|]. split; [lra|]. split; [auto|reflexivity].
Qed.

(** All factors but one. *)
Definition skip (z : nat -> R) (i : nat) (y : R) (j : nat) : R := if (j =? i)%nat then 1 else y - z j.
Lemma rprod_skip (z : nat -> R) i y m : rprod m (fun j => y - z j) = (if (i <? m)%nat then y - z i else 1) * rprod m (skip z i y).
Proof.
  induction m as [|m IH]; [cbn; ring|]. cbn [rprod]. rewrite IH. unfold skip at 3.
  destruct (Nat.eqb_spec m i) as [->|N].
  - destruct (Nat.ltb_spec i i), (Nat.ltb_spec i (S i)); try lia. ring.
  - destruct (Nat.ltb_spec i m), (Nat.ltb_spec i (S m)); try lia; ring.
Qed.
Lemma skip_der (z : nat -> R) i x D : 0 < D -> forall m, (forall j, (j < m)%nat -> j <> i -> D <= Rabs (x - z j)) ->
  exists d, derivable_pt_lim (fun y => rprod m (skip z i y)) x d /\ D * Rabs d <= INR m * Rabs (rprod m (skip z i x)).
Proof.
  intros HD. induction m as [|m IH]; intros H.
  - exists 0. split; [apply (derivable_pt_lim_const 1)|]. rewrite Rabs_R0. cbn [INR]. lra.
  - destruct IH as (d & Hd & B); [intros; apply H; [lia|auto]|]. unfold skip. cbn [rprod]. fold (skip z i x) in *. pose proof (Rabs_pos (rprod m (skip z i x))) as P0.
    destruct (Nat.eqb_spec m i) as [->|N].
    + exists d. split.
      * apply (derivable_pt_lim_ext (fun y => rprod i (skip z i y))); [|exact Hd]. intros y. cbv beta. rewrite Rmult_1_r. reflexivity.
      * rewrite Rmult_1_r, S_INR. fold (skip z i x). lra.
    + exists (d * (x - z m) + rprod m (skip z i x) * 1). split.
      * apply (derivable_pt_lim_mult (fun y => rprod m (skip z i y)) (fun y => y - z m)); [exact Hd|].
        replace 1 with (1 - 0) by lra. apply (derivable_pt_lim_minus (fun y => y) (fun _ => z m)); [apply derivable_pt_lim_id|apply derivable_pt_lim_const].
      * fold (skip z i x). rewrite Rmult_1_r, Rabs_mult, S_INR. pose proof (H m ltac:(lia) N) as Hm. set (g := rprod m _) in *. set (a := Rabs (x - z m)) in *.
        apply (Rle_trans _ (D * Rabs d * a + D * Rabs g)).
        -- rewrite Rmult_assoc, <- Rmult_plus_distr_l. apply Rmult_le_compat_l; [lra|]. eapply Rle_trans; [apply Rabs_triang|]. rewrite Rabs_mult. fold a. lra.
        -- assert (Rabs g * D <= Rabs g * a) by (apply Rmult_le_compat_l; auto). assert (D * Rabs d * a <= INR m * Rabs g * a) by (apply Rmult_le_compat_r; lra). lra.
Qed.
(** e away from a root, with the others at least D away: the step leaves an error quadratic in e. *)
Lemma last_step z m f f' y i e D : distinct z m -> ispoly (m + 1) f -> (forall j, (j < m)%nat -> f (PolySpec.get z j) = 0) ->
  derivable_pt_lim f y f' -> f' <> 0 -> (i < m)%nat -> Rabs (y - PolySpec.get z i) <= e -> 0 < D -> (forall j, (j < m)%nat -> j <> i -> D <= Rabs (y - PolySpec.get z j)) ->
  INR m * e <= / 4 * D -> 3 * D * Rabs (y - f y / f' - PolySpec.get z i) <= 4 * INR m * (e * e).
Proof.
  intros Dz Hf Z0 Df N Hi He HD Hfar Hq. destruct (ip_roots z m Dz 1 f Hf Z0) as (g & (c & Lc & Hc) & E).
  assert (C : forall u, g u = peval c 0). { intros u. rewrite <- (Hc u). destruct c as [|a [|]]; [reflexivity|cbn [peval]; ring|cbn in Lc; lia]. }
  set (k := peval c 0) in *. set (r := PolySpec.get z i) in *.
  destruct (skip_der (PolySpec.get z) i y D HD m Hfar) as (d & Hd & B). set (h := rprod m (skip (PolySpec.get z) i y)) in *.
  assert (Ef : forall u, f u = (u - r) * rprod m (skip (PolySpec.get z) i u) * k).
  { intros u. rewrite E, C, (rprod_skip _ i). destruct (Nat.ltb_spec i m); [reflexivity|lia]. }
  assert (Ed : f' = (h + (y - r) * d) * k).
  { eapply (der_unique f (fun u => k * ((u - r) * rprod m (skip (PolySpec.get z) i u))) y); [intros u; rewrite Ef; ring|exact Df|].
    eapply der_eq; [apply (der_scal k); apply (der_mul (fun u => u - r) (fun u => rprod m (skip (PolySpec.get z) i u))); [apply (der_sub (fun u => u) (fun _ => r)); [apply der_id|apply derivable_pt_lim_const]|exact Hd]|]. fold h. ring. }
  assert (Nk : k <> 0) by (intros K; apply N; rewrite Ed, K; ring). assert (Nd : h + (y - r) * d <> 0) by (intros K; apply N; rewrite Ed, K; ring).
  set (t := y - r) in *. set (w := y - f y / f' - r).
  assert (Ew : w * (h + t * d) = t * t * d).
  { unfold w. rewrite (Ef y). fold h t. rewrite Ed. replace (y - t * h * k / ((h + t * d) * k) - r) with (t - t * h / (h + t * d)); [field; auto|]. unfold t. field. split; auto. }
  assert (P0 : 0 <= Rabs t) by apply Rabs_pos. assert (Pd : 0 <= Rabs d) by apply Rabs_pos. assert (Ph : 0 <= Rabs h) by apply Rabs_pos. assert (Pm : 0 <= INR m) by apply pos_INR.
  assert (Nh : h <> 0). { intros K. assert (d = 0). { rewrite K, Rabs_R0, Rmult_0_r in B. destruct (Req_dec d 0) as [|M]; [auto|]. pose proof (Rabs_pos_lt d M). nra. } apply Nd. rewrite K, H. ring. }
  assert (Ph' : 0 < Rabs h) by (apply Rabs_pos_lt; auto).
  assert (T : Rabs t * Rabs d <= / 4 * Rabs h).
  { assert (D * (Rabs t * Rabs d) <= D * (/ 4 * Rabs h)); [|apply (Rmult_le_reg_l D); auto].
    assert (Rabs t * (D * Rabs d) <= Rabs t * (INR m * Rabs h)) by (apply Rmult_le_compat_l; auto).
    assert (INR m * Rabs t <= INR m * e) by (apply Rmult_le_compat_l; auto).
    assert (INR m * Rabs t * Rabs h <= / 4 * D * Rabs h) by (apply Rmult_le_compat_r; lra). lra. }
  assert (G : 3 / 4 * Rabs h <= Rabs (h + t * d)).
  { pose proof (Rabs_triang_inv h (- (t * d))) as Q. rewrite Rabs_Ropp, Rabs_mult in Q. replace (h - - (t * d)) with (h + t * d) in Q by ring. lra. }
  assert (W : Rabs w * Rabs (h + t * d) = Rabs t * Rabs t * Rabs d) by (rewrite <- Rabs_mult, Ew, !Rabs_mult; ring).
  assert (Pw : 0 <= Rabs w) by apply Rabs_pos. assert (Pe : 0 <= e) by lra.
  assert (X1 : Rabs w * (3 / 4 * Rabs h) <= Rabs t * Rabs t * Rabs d) by (rewrite <- W; apply Rmult_le_compat_l; auto).
  assert (X2 : Rabs t * Rabs t <= e * e) by (apply Rmult_le_compat; auto).
  assert (X3 : D * (Rabs t * Rabs t * Rabs d) <= e * e * (INR m * Rabs h)).
  { replace (D * (Rabs t * Rabs t * Rabs d)) with (Rabs t * Rabs t * (D * Rabs d)) by ring. apply Rmult_le_compat; auto; apply Rmult_le_pos; lra. }
  assert (X4 : D * (Rabs w * (3 / 4 * Rabs h)) <= D * (Rabs t * Rabs t * Rabs d)) by (apply Rmult_le_compat_l; lra).
  apply (Rmult_le_reg_r (Rabs h)); [auto|]. lra.
Qed.
