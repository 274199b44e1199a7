(** Piecewise linear bounds of cubic polynomials. *)
From Verif Require Import Base Poly PolySpec LobBndSpec.
From Coq Require Import Reals Lra Psatz.
Open Scope R_scope.

Section Cubic.
Variable a0 a1 a2 a3 : R.
Definition cub (x : R) : R := a0 + a1 * x + a2 * (x * x) + a3 * (x * x * x).
Definition tanc (c x : R) : R := cub c + (x - c) * (a1 + 2 * a2 * c + 3 * a3 * (c * c)).
Lemma cub_tan c x : cub x = tanc c x + (x - c) * (x - c) * (a2 + 2 * a3 * c + a3 * x).
Proof. unfold tanc, cub. ring. Qed.
Lemma cub_der x : derivable_pt_lim cub x (a1 + 2 * a2 * x + 3 * a3 * (x * x)).
Proof.
  unfold cub. assert (I := derivable_pt_lim_id x). unfold id in I.
  pose proof (derivable_pt_lim_mult _ _ x _ _ I I) as I2. pose proof (derivable_pt_lim_mult _ _ x _ _ I2 I) as I3.
  pose proof (derivable_pt_lim_scal _ a1 x _ I) as S1. pose proof (derivable_pt_lim_scal _ a2 x _ I2) as S2. pose proof (derivable_pt_lim_scal _ a3 x _ I3) as S3.
  pose proof (derivable_pt_lim_plus _ _ x _ _ (derivable_pt_lim_plus _ _ x _ _ (derivable_pt_lim_plus _ _ x _ _ (derivable_pt_lim_const a0 x) S1) S2) S3) as T.
  unfold plus_fct, mult_fct, mult_real_fct, fct_cte in T. replace (a1 + 2 * a2 * x + 3 * a3 * (x * x)) with (0 + a1 * 1 + a2 * (1 * x + x * 1) + a3 * ((1 * x + x * 1) * x + x * x * 1)) by ring. exact T.
Qed.
End Cubic.

Lemma lin_pos A B t : -1 <= t <= 1 -> 0 <= A - B -> 0 <= A + B -> 0 <= A + B * t.
Proof. intros Ht H1 H2. pose proof (Rmult_le_pos _ _ H1 (ltac:(lra) : 0 <= 1 - t)). pose proof (Rmult_le_pos _ _ H2 (ltac:(lra) : 0 <= 1 + t)). lra. Qed.
Lemma scal_le a b s : 0 <= s -> a <= b -> a * s / 2 <= b * s / 2.
Proof. intros H1 H2. apply Rmult_le_compat_r; [lra|]. apply Rmult_le_compat_r; auto. Qed.
(** The remainder in one interval: t*t*(A+B*t). *)
Lemma rem_inner A B E0 E1 t : -1 <= t <= 1 -> E0 <= 0 -> E0 <= A - B -> E1 <= 0 -> E1 <= A + B ->
  E0 * (1 - t) / 2 + E1 * (1 + t) / 2 <= t * t * (A + B * t).
Proof.
  intros Ht H1 H2 H3 H4. destruct (Rle_lt_dec 0 (A - B)) as [Ha|Ha], (Rle_lt_dec 0 (A + B)) as [Hb|Hb].
  - pose proof (lin_pos A B t Ht Ha Hb). assert (0 <= t * t * (A + B * t)) by (apply Rmult_le_pos; [nra|auto]).
    pose proof (scal_le E0 0 (1 - t) ltac:(lra) H1). pose proof (scal_le E1 0 (1 + t) ltac:(lra) H3). lra.
  - (* A - B >= 0 > A + B *)
    assert (G : 0 <= (A * (-2 * t - 1) - B * (2 * t * t + 2 * t + 1))).
    { destruct (Rle_lt_dec t (-1/2)).
      - pose proof (Rmult_le_pos _ _ Ha (ltac:(lra) : 0 <= -2 * t - 1)). pose proof (Rmult_le_pos _ _ (ltac:(lra) : 0 <= - B) (Rle_0_sqr (t + 1))). unfold Rsqr in *. lra.
      - pose proof (Rmult_le_pos _ _ (ltac:(lra) : 0 <= - (A + B)) (ltac:(lra) : 0 <= 2 * t + 1)). pose proof (Rmult_le_pos _ _ (ltac:(lra) : 0 <= - B) (Rle_0_sqr t)). unfold Rsqr in *. lra. }
    pose proof (scal_le E0 0 (1 - t) ltac:(lra) H1) as X. pose proof (scal_le E1 (A + B) (1 + t) ltac:(lra) H4) as Y.
    assert (Z : t * t * (A + B * t) - (A + B) * (1 + t) / 2 = (1 - t) / 2 * (A * (-2 * t - 1) - B * (2 * t * t + 2 * t + 1))) by field.
    assert (0 <= (1 - t) / 2 * (A * (-2 * t - 1) - B * (2 * t * t + 2 * t + 1))) by (apply Rmult_le_pos; [lra|auto]). lra.
  - assert (G : 0 <= (A * (2 * t - 1) + B * (2 * t * t - 2 * t + 1))).
    { destruct (Rle_lt_dec t (1/2)).
      - pose proof (Rmult_le_pos _ _ (ltac:(lra) : 0 <= - (A - B)) (ltac:(lra) : 0 <= 1 - 2 * t)). pose proof (Rmult_le_pos _ _ (ltac:(lra) : 0 <= B) (Rle_0_sqr t)). unfold Rsqr in *. lra.
      - pose proof (Rmult_le_pos _ _ Hb (ltac:(lra) : 0 <= 2 * t - 1)). pose proof (Rmult_le_pos _ _ (ltac:(lra) : 0 <= B) (Rle_0_sqr (1 - t))). unfold Rsqr in *. lra. }
    pose proof (scal_le E1 0 (1 + t) ltac:(lra) H3) as X. pose proof (scal_le E0 (A - B) (1 - t) ltac:(lra) H2) as Y.
    assert (Z : t * t * (A + B * t) - (A - B) * (1 - t) / 2 = (1 + t) / 2 * (A * (2 * t - 1) + B * (2 * t * t - 2 * t + 1))) by field.
    assert (0 <= (1 + t) / 2 * (A * (2 * t - 1) + B * (2 * t * t - 2 * t + 1))) by (apply Rmult_le_pos; [lra|auto]). lra.
  - pose proof (lin_pos (- A) (- B) t Ht ltac:(lra) ltac:(lra)) as N. pose proof (Rmult_le_pos _ _ (ltac:(nra) : 0 <= 1 - t * t) N).
    pose proof (scal_le E0 (A - B) (1 - t) ltac:(lra) H2). pose proof (scal_le E1 (A + B) (1 + t) ltac:(lra) H4). lra.
Qed.
Lemma rem_end A B E1 t : -1 <= t <= 1 -> E1 <= A + B -> (A <= - Rabs B \/ 3 * Rabs B <= A /\ E1 <= -3 * A + 5 * B) ->
  (A - B) * (1 - t) / 2 + E1 * (1 + t) / 2 <= t * t * (A + B * t).
Proof.
  intros Ht H1 H.
  assert (Z : t * t * (A + B * t) - (A - B) * (1 - t) / 2 - E1 * (1 + t) / 2 = (1 + t) / 2 * (A * (2 * t - 1) + B * (2 * t * t - 2 * t + 1) - E1)) by field.
  assert (G : 0 <= A * (2 * t - 1) + B * (2 * t * t - 2 * t + 1) - E1).
  { pose proof (Rle_abs B) as R1. pose proof (Rle_abs (- B)) as R2. rewrite Rabs_Ropp in R2. destruct H as [H|[H H']].
    - pose proof (lin_pos (- A) (- B) t Ht ltac:(lra) ltac:(lra)) as N. assert (0 <= (1 - t) * - (A + B * t)) by (apply Rmult_le_pos; lra). nra.
    - pose proof (lin_pos (A - 2 * B) B t Ht ltac:(lra) ltac:(lra)) as N. assert (0 <= (t + 1) * (A + B * (t - 2))) by (apply Rmult_le_pos; lra). nra. }
  assert (0 <= (1 + t) / 2 * (A * (2 * t - 1) + B * (2 * t * t - 2 * t + 1) - E1)) by (apply Rmult_le_pos; [lra|auto]). lra.
Qed.

(** Linear interpolation in an interval. *)
Definition line (p q Lp Lq x : R) : R := ((q - x) * Lp + (x - p) * Lq) / (q - p).
Lemma line_t p q Lp Lq c r t : p < q -> c = (p + q) / 2 -> r = (q - p) / 2 -> line p q Lp Lq (c + r * t) = Lp * (1 - t) / 2 + Lq * (1 + t) / 2.
Proof. intros H -> ->. unfold line. field. lra. Qed.
Lemma cell_t p q x : p < q -> p <= x <= q -> exists t, -1 <= t <= 1 /\ x = (p + q) / 2 + (q - p) / 2 * t.
Proof.
  intros H Hx. exists ((2 * x - p - q) / (q - p)). split; [|field; lra]. assert (0 < / (q - p)) by (apply Rinv_0_lt_compat; lra). unfold Rdiv. split.
  - apply (Rmult_le_reg_r (q - p)); [lra|]. rewrite Rmult_assoc, Rinv_l by lra. lra.
  - apply (Rmult_le_reg_r (q - p)); [lra|]. rewrite Rmult_assoc, Rinv_l by lra. lra.
Qed.
Lemma line_mono p q Lp Lq Mp Mq x : p < q -> p <= x <= q -> Lp <= Mp -> Lq <= Mq -> line p q Lp Lq x <= line p q Mp Mq x.
Proof.
  intros H Hx H1 H2. unfold line, Rdiv. apply Rmult_le_compat_r; [left; apply Rinv_0_lt_compat; lra|]. nra.
Qed.

Section Cells.
Variable a0 a1 a2 a3 : R.
Let f := cub a0 a1 a2 a3.
Let tg := tanc a0 a1 a2 a3.
Variable p q : R.
Hypothesis Hpq : p < q.
Let c := (p + q) / 2.
Let r := (q - p) / 2.
Let A := r * r * (a2 + 3 * a3 * c).
Let B := r * r * r * a3.
Lemma f_t t : f (c + r * t) = tg c (c + r * t) + t * t * (A + B * t).
Proof. unfold f, tg. rewrite (cub_tan _ _ _ _ c (c + r * t)). unfold A, B. ring. Qed.
Lemma tg_t t : tg c (c + r * t) = tg c p * (1 - t) / 2 + tg c q * (1 + t) / 2.
Proof. unfold tg, tanc, r, c. field. Qed.
Lemma f_p : f p = tg c p + (A - B).
Proof. replace p with (c + r * -1) by (unfold c, r; field). rewrite f_t. ring. Qed.
Lemma f_q : f q = tg c q + (A + B).
Proof. replace q with (c + r * 1) at 1 by (unfold c, r; field). rewrite f_t. replace (c + r * 1) with q by (unfold c, r; field). ring. Qed.

Lemma inner_cell Lp Lq x : p <= x <= q -> Lp <= tg c p -> Lp <= f p -> Lq <= tg c q -> Lq <= f q -> line p q Lp Lq x <= f x.
Proof.
  intros Hx H1 H2 H3 H4. destruct (cell_t p q x Hpq Hx) as (t & Ht & E). fold c r in E. subst x. rewrite (line_t p q Lp Lq c r t Hpq eq_refl eq_refl), f_t, tg_t.
  rewrite f_p in H2. rewrite f_q in H4. pose proof (rem_inner A B (Lp - tg c p) (Lq - tg c q) t Ht) as G. lra.
Qed.
Lemma left_cell Lq c' x : p <= x <= q -> Lq <= f q -> Lq <= tg c' q ->
  (A <= - Rabs B \/ 3 * Rabs B <= A /\ tg c' q - tg c q <= -3 * A + 5 * B) -> line p q (f p) Lq x <= f x.
Proof.
  intros Hx H1 H2 H. destruct (cell_t p q x Hpq Hx) as (t & Ht & E). fold c r in E. subst x. rewrite (line_t p q _ Lq c r t Hpq eq_refl eq_refl), f_t, tg_t, f_p.
  rewrite f_q in H1. pose proof (rem_end A B (Lq - tg c q) t Ht) as G. lra.
Qed.
End Cells.
