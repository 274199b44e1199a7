(** From the internal description to the specification. *)
From Verif Require Import Base BaseLemmas Tensor TensorSpec TensorProof Poly PolySpec PolyProof1 PolyProof2 PolyProof3 LobBndSpec FindptsEl2 FindptsEl2Spec FindptsEl2Proof1 FindptsEl2Proof2 FindptsEl2Proof3 FindptsEl2Proof4 FindptsEl2Proof5 FindptsEl2Proof6 FindptsEl2Proof7.
From Coq Require Import Reals Lra Psatz NArith.
Open Scope R_scope.

Lemma sq_der (X Y : R -> R) X1 Y1 c0 c1 t : derivable_pt_lim X t X1 -> derivable_pt_lim Y t Y1 ->
  derivable_pt_lim (fun t => (c0 - X t) ^ 2 + (c1 - Y t) ^ 2) t (-2 * ((c0 - X t) * X1 + (c1 - Y t) * Y1)).
Proof.
  intros HX HY. apply derivable_pt_lim_ext with (f := fun t => (c0 - X t) * (c0 - X t) + (c1 - Y t) * (c1 - Y t)); [intros; ring|].
  assert (S : forall (F : R -> R) F1 c, derivable_pt_lim F t F1 -> derivable_pt_lim (fun t => c - F t) t (0 - F1)) by (intros F F1 c HF; apply der_sub; [apply derivable_pt_lim_const|auto]).
  pose proof (der_add _ _ _ _ _ (der_mul _ _ _ _ _ (S X X1 c0 HX) (S X X1 c0 HX)) (der_mul _ _ _ _ _ (S Y Y1 c1 HY) (S Y Y1 c1 HY))) as H.
  apply (der_eq _ _ _ _ H). ring.
Qed.
Lemma sq_der2 (X Y X1 Y1 : R -> R) X2 Y2 c0 c1 t : (forall y, derivable_pt_lim X y (X1 y)) -> (forall y, derivable_pt_lim Y y (Y1 y)) -> derivable_pt_lim X1 t X2 -> derivable_pt_lim Y1 t Y2 ->
  derivative2 (fun t => (c0 - X t) ^ 2 + (c1 - Y t) ^ 2) t (2 * (X1 t * X1 t + Y1 t * Y1 t - ((c0 - X t) * X2 + (c1 - Y t) * Y2))).
Proof.
  intros HX HY HX1 HY1. exists (fun t => -2 * ((c0 - X t) * X1 t + (c1 - Y t) * Y1 t)). split; [intros y; apply sq_der; auto|].
  assert (S : forall (F : R -> R) F1 c, derivable_pt_lim F t F1 -> derivable_pt_lim (fun t => c - F t) t (0 - F1)) by (intros F F1 c HF; apply der_sub; [apply derivable_pt_lim_const|auto]).
  pose proof (der_scal (-2) _ _ _ (der_add _ _ _ _ _ (der_mul _ _ _ _ _ (S X _ c0 (HX t)) HX1) (der_mul _ _ _ _ _ (S Y _ c1 (HY t)) HY1))) as H.
  apply (der_eq _ _ _ _ H). ring.
Qed.

Lemma Rmult_le_0_l u v : u <= 0 -> 0 <= v -> u * v <= 0.
Proof. intros. nra. Qed.

Section Link.
Variable fd : el.
Variable zd : nat -> arr.
Variable Qd : nat -> arr -> Prop.
Hypothesis Hel : forall d, (d < 2)%nat -> elem_dir fd zd Qd d.
Hypothesis Hux : length (ux fd) = 2%nat.
Notation nr := (nn fd 0).
Notation ns := (nn fd 1).
Notation T := (T fd zd).
Notation Te := (Te fd zd).
Notation D := (D fd zd).
Notation jacobian := (jacobian fd zd).
Definition sh : shape := Shape nr ns (zd 0%nat) (zd 1%nat) (arr_at (ux fd) 0) (arr_at (ux fd) 1).

Lemma inter_value u r : inter fd zd u r = value sh u (ent r 0) (ent r 1).
Proof.
  unfold inter, apply2, value, poly_2. cbn [s_zr s_zs s_nr s_ns sh]. rewrite sum_is. apply rsum_ext. intros j Hj. rewrite sum_is. apply rsum_ext. intros i Hi. cbn [bas].
  rewrite (gget u (i + nr * j) (0 + (j * nr + i))) by lia. ring.
Qed.
Lemma T_value d r : T 0 0 d r = value sh (arr_at (ux fd) d) (ent r 0) (ent r 1).
Proof. apply inter_value. Qed.
Lemma D_sqdist x r : D x r = sqdist sh x (nth 0 r 0) (nth 1 r 0).
Proof. unfold FindptsEl2Proof4.D, sqdist, image_x, image_y. rewrite !T_value. unfold ent. cbn [s_x s_y sh]. ring. Qed.
Lemma der_r d a b : (d < 2)%nat -> derivable_pt_lim (fun t => value sh (arr_at (ux fd) d) t b) a (T 1 0 d [a; b]).
Proof.
  intros Hd. apply derivable_pt_lim_ext with (f := fun t => T 0 0 d [t; b]); [intros t; apply T_value|]. apply (Te_der fd zd Qd Hel Hux 0 0 0 d [a; b] a); auto; lia.
Qed.
Lemma der_s d a b : (d < 2)%nat -> derivable_pt_lim (fun t => value sh (arr_at (ux fd) d) a t) b (T 0 1 d [a; b]).
Proof.
  intros Hd. apply derivable_pt_lim_ext with (f := fun t => T 0 0 d [a; t]); [intros t; apply T_value|]. apply (Te_der fd zd Qd Hel Hux 1 0 0 d [a; b] b); auto; lia.
Qed.
Lemma der_rr d a b : (d < 2)%nat -> derivable_pt_lim (fun t => T 1 0 d [t; b]) a (T 2 0 d [a; b]).
Proof. intros Hd. apply (Te_der fd zd Qd Hel Hux 0 1 0 d [a; b] a); auto; lia. Qed.
Lemma der_ss d a b : (d < 2)%nat -> derivable_pt_lim (fun t => T 0 1 d [a; t]) b (T 0 2 d [a; b]).
Proof. intros Hd. apply (Te_der fd zd Qd Hel Hux 1 1 0 d [a; b] b); auto; lia. Qed.
Lemma has_partials a b : partials sh a b (T 1 0 0 [a; b]) (T 0 1 0 [a; b]) (T 1 0 1 [a; b]) (T 0 1 1 [a; b]).
Proof. repeat split; [apply (der_r 0)|apply (der_s 0)|apply (der_r 1)|apply (der_s 1)]; lia. Qed.
Lemma partials_are a b xr xs yr ys : partials sh a b xr xs yr ys -> xr = T 1 0 0 [a; b] /\ xs = T 0 1 0 [a; b] /\ yr = T 1 0 1 [a; b] /\ ys = T 0 1 1 [a; b].
Proof.
  intros (A & B & C & E). destruct (has_partials a b) as (A' & B' & C' & E'). repeat split; [exact (uniqueness_limite _ _ _ _ A A')|exact (uniqueness_limite _ _ _ _ B B')|exact (uniqueness_limite _ _ _ _ C C')|exact (uniqueness_limite _ _ _ _ E E')].
Qed.
Lemma box_square r : in_box r <-> square r.
Proof.
  split; [intros [L B]; split; [auto|split; [apply (B 0%nat)|apply (B 1%nat)]; lia]|]. intros (L & A & B). split; [auto|]. intros d Hd. destruct d as [|[|d]]; [exact A|exact B|lia].
Qed.
Lemma regular_reg : regular sh -> forall r, in_box r -> ent (jacobian r) 0 * ent (jacobian r) 3 - ent (jacobian r) 1 * ent (jacobian r) 2 <> 0.
Proof.
  intros H r [L B]. destruct r as [|a [|b [|? ?]]]; try discriminate. pose proof (H a b _ _ _ _ (B 0%nat ltac:(lia)) (B 1%nat ltac:(lia)) (has_partials a b)) as Q. exact Q.
Qed.
Lemma der_dist_r x a b : derivable_pt_lim (fun t => sqdist sh x t b) a (-2 * ((ent x 0 - T 0 0 0 [a; b]) * T 1 0 0 [a; b] + (ent x 1 - T 0 0 1 [a; b]) * T 1 0 1 [a; b])).
Proof. rewrite !T_value. apply (sq_der (fun t => image_x sh t b) (fun t => image_y sh t b)); [apply (der_r 0)|apply (der_r 1)]; lia. Qed.
Lemma der_dist_s x a b : derivable_pt_lim (fun t => sqdist sh x a t) b (-2 * ((ent x 0 - T 0 0 0 [a; b]) * T 0 1 0 [a; b] + (ent x 1 - T 0 0 1 [a; b]) * T 0 1 1 [a; b])).
Proof. rewrite !T_value. apply (sq_der (fun t => image_x sh a t) (fun t => image_y sh a t)); [apply (der_s 0)|apply (der_s 1)]; lia. Qed.
Lemma der2_dist_r x a b : derivative2 (fun t => sqdist sh x t b) a (2 * (T 1 0 0 [a; b] * T 1 0 0 [a; b] + T 1 0 1 [a; b] * T 1 0 1 [a; b] - ((ent x 0 - T 0 0 0 [a; b]) * T 2 0 0 [a; b] + (ent x 1 - T 0 0 1 [a; b]) * T 2 0 1 [a; b]))).
Proof.
  rewrite !(T_value _ [a; b]). apply (sq_der2 (fun t => image_x sh t b) (fun t => image_y sh t b) (fun t => T 1 0 0 [t; b]) (fun t => T 1 0 1 [t; b])).
  - intros y. apply (der_r 0); lia.
  - intros y. apply (der_r 1); lia.
  - apply der_rr. lia.
  - apply der_rr. lia.
Qed.
Lemma der2_dist_s x a b : derivative2 (fun t => sqdist sh x a t) b (2 * (T 0 1 0 [a; b] * T 0 1 0 [a; b] + T 0 1 1 [a; b] * T 0 1 1 [a; b] - ((ent x 0 - T 0 0 0 [a; b]) * T 0 2 0 [a; b] + (ent x 1 - T 0 0 1 [a; b]) * T 0 2 1 [a; b]))).
Proof.
  rewrite !(T_value _ [a; b]). apply (sq_der2 (fun t => image_x sh a t) (fun t => image_y sh a t) (fun t => T 0 1 0 [a; t]) (fun t => T 0 1 1 [a; t])).
  - intros y. apply (der_s 0); lia.
  - intros y. apply (der_s 1); lia.
  - apply der_ss. lia.
  - apply der_ss. lia.
Qed.

Lemma linear_is x r r' : length r = 2%nat -> linear_sqdist sh x r r' (lin_model fd zd x r r').
Proof.
  intros L. destruct r as [|a [|b [|? ?]]]; try discriminate. cbn [nth]. exists (T 1 0 0 [a; b]), (T 0 1 0 [a; b]), (T 1 0 1 [a; b]), (T 0 1 1 [a; b]). split; [apply has_partials|].
  unfold lin_model, obj, lin_res, FindptsEl2Proof3.jacobian. cbn [ent nth]. fold (ent r' 0) (ent r' 1) (ent x 0) (ent x 1). rewrite !T_value. cbn [ent nth]. unfold image_x, image_y. cbn [s_x s_y sh]. unfold ent. ring.
Qed.
Lemma linear_unique x r r' v : length r = 2%nat -> linear_sqdist sh x r r' v -> v = lin_model fd zd x r r'.
Proof.
  intros L (xr & xs & yr & ys & Hp & ->). destruct (linear_is x r r' L) as (xr' & xs' & yr' & ys' & Hp' & ->).
  destruct (partials_are _ _ _ _ _ _ Hp) as (-> & -> & -> & ->). destruct (partials_are _ _ _ _ _ _ Hp') as (-> & -> & -> & ->). auto.
Qed.
Lemma predicted_ok x r r' v : length r = 2%nat -> predicted fd zd x r r' v -> prediction sh x r r' v.
Proof.
  intros L H. destruct H as [H|(de & Hde & H1 & H2)].
  - left. exists (lin_model fd zd x r r'). split; [apply linear_is; auto|]. rewrite H, D_sqdist. reflexivity.
  - right. destruct r as [|a [|b [|? ?]]]; try discriminate. cbn [nth]. destruct de as [|[|de]]; [left|right|lia]; cbn [Nat.sub] in H1.
    + split; [unfold ent in H1; cbn [nth] in H1; lra|]. eexists; eexists. split; [apply der_dist_r|]. split; [apply der2_dist_r|]. rewrite H2. unfold quad, FindptsEl2Proof3.Te, FindptsEl2Proof3.jacobian. cbn [ent nth Nat.eqb Nat.add]. unfold ent. field.
    + split; [unfold ent in H1; cbn [nth] in H1; lra|]. eexists; eexists. split; [apply der_dist_s|]. split; [apply der2_dist_s|]. rewrite H2. unfold quad, FindptsEl2Proof3.Te, FindptsEl2Proof3.jacobian. cbn [ent nth Nat.eqb Nat.add]. unfold ent. field.
Qed.
Lemma optimal_ok x r r' : length r = 2%nat -> optimal fd zd x r r' -> newton_step sh x r r'.
Proof.
  intros L H H0 H1. destruct H as (rho & Hr & N & M). { intros d Hd. destruct d as [|[|d]]; [exact H0|exact H1|lia]. }
  exists rho. split; [auto|]. split; [split; [apply (N 0%nat)|apply (N 1%nat)]; lia|].
  intros q u v Sq [N0 N1] Hu Hv. rewrite (linear_unique _ _ _ _ L Hu), (linear_unique _ _ _ _ L Hv). apply M; [apply box_square; auto|]. intros d Hd. destruct d as [|[|d]]; [exact N0|exact N1|lia].
Qed.
Lemma corner_ok x r : length r = 2%nat -> corner_stop fd zd x r -> corner_min sh x r.
Proof.
  intros L H. destruct r as [|a [|b [|? ?]]]; try discriminate. destruct (H 0%nat ltac:(lia)) as [A1 A2]. destruct (H 1%nat ltac:(lia)) as [B1 B2].
  unfold FindptsEl2Proof3.jacobian in A2, B2. cbn [ent nth Nat.add] in *. fold (ent x 0) (ent x 1) in A2, B2. split; [auto|]. split; [auto|]. intros f g Hf Hg.
  rewrite (uniqueness_limite _ _ _ _ Hf (der_dist_r x a b)), (uniqueness_limite _ _ _ _ Hg (der_dist_s x a b)). rewrite !Rmult_assoc. split; apply Rmult_le_0_l; auto; lra.
Qed.
End Link.
