(** Bounds of the Legendre polynomials; quadrature with nodes that are nearly exact. *)
From Verif Require Import Base BaseLemmas Poly PolySpec PolyProof1 PolyProof2 PolyProof3 PolyGll PolyGllSpec PolyGllProof PolyGllRoots PolyQuadSpec PolyQuadProof1 PolyQuadProof2 LobBndSpec LobBndProof3 LobBndSetupProof1.
From Coq Require Import Reals Lra.
Open Scope R_scope.

Lemma P_bound_pos n x : 0 <= x <= 1 -> P n x * P n x <= 1.
Proof.
  intros Hx. destruct n as [|n]; [rewrite P_0; lra|]. set (N := S n). assert (HN : 1 <= INR N) by (apply (le_INR 1); unfold N; lia).
  set (c := INR N * (INR N + 1)). assert (Hc : 0 < c) by (unfold c; nra).
  set (E := fun x => c * (P N x * P N x) + (1 - x * x) * (P1 N x * P1 N x)).
  assert (DE : forall y, derivable_pt_lim E y (2 * y * (P1 N y * P1 N y))).
  { intros y. eapply der_eq.
    - apply (der_add (fun x => c * (P N x * P N x)) (fun x => (1 - x * x) * (P1 N x * P1 N x))).
      + apply (der_scal c (fun x => P N x * P N x)). apply (der_mul (P N) (P N)); apply P_der.
      + apply (der_mul (fun x => 1 - x * x) (fun x => P1 N x * P1 N x)); [apply der_1mx2|]. apply (der_mul (P1 N) (P1 N)); apply P1_der.
    - pose proof (P_ode N y) as O. fold c in O. replace ((1 - y * y) * (P2 N y * P1 N y + P1 N y * P2 N y)) with (2 * P1 N y * ((1 - y * y) * P2 N y)) by ring. rewrite O. ring. }
  destruct (Req_dec x 1) as [->|Hne]; [rewrite P_at_1; lra|].
  destruct (MVT_cor2 E (fun y => 2 * y * (P1 N y * P1 N y)) x 1) as (y & Ey & Hy); [lra|intros; apply DE|].
  assert (0 <= 2 * y * (P1 N y * P1 N y) * (1 - x)). { apply Rmult_le_pos; [|lra]. apply Rmult_le_pos; [lra|]. apply Rle_0_sqr. }
  assert (E1 : E 1 = c) by (unfold E; rewrite P_at_1; ring).
  assert (0 <= (1 - x * x) * (P1 N x * P1 N x)). { apply Rmult_le_pos; [nra|]. apply Rle_0_sqr. }
  assert (E x <= c) by lra. unfold E in H1. apply (Rmult_le_reg_l c); lra.
Qed.
Lemma P_bound n x : -1 <= x <= 1 -> Rabs (P n x) <= 1.
Proof.
  intros Hx. assert (S : P n x * P n x <= 1).
  { destruct (Rle_dec 0 x); [apply P_bound_pos; lra|]. rewrite <- P_opp_sq. apply P_bound_pos. lra. }
  apply Rabs_le. nra.
Qed.
Lemma P1_bound n x : -1 <= x <= 1 -> Rabs (P1 n x) <= INR n * (INR n + 1) / 2.
Proof.
  intros Hx. induction n as [|n IH]; [rewrite P1_0, Rabs_R0; cbn [INR]; lra|]. rewrite (proj1 (BC n x)). rewrite S_INR.
  pose proof (P_bound n x Hx). pose proof (pos_INR n). eapply Rle_trans; [apply Rabs_triang|]. rewrite !Rabs_mult, (Rabs_right (INR n + 1)) by lra.
  assert (Rabs x <= 1) by (apply Rabs_le; lra). assert (Rabs x * Rabs (P1 n x) <= 1 * Rabs (P1 n x)) by (apply Rmult_le_compat_r; [apply Rabs_pos|auto]).
  assert ((INR n + 1) * Rabs (P n x) <= (INR n + 1) * 1) by (apply Rmult_le_compat_l; lra). nra.
Qed.
Lemma lipschitz (f f' : R -> R) K x y : (forall u, derivable_pt_lim f u (f' u)) -> (forall u, -1 <= u <= 1 -> Rabs (f' u) <= K) -> -1 <= x <= 1 -> -1 <= y <= 1 -> Rabs (f x - f y) <= K * Rabs (x - y).
Proof.
  intros D B. assert (G : forall x y, x < y -> -1 <= x <= 1 -> -1 <= y <= 1 -> Rabs (f x - f y) <= K * Rabs (x - y)).
  { clear x y. intros x y L Hx Hy. destruct (MVT_cor2 f f' x y L) as (u & E & Hu); [intros; apply D|]. rewrite Rabs_minus_sym, E, Rabs_mult, (Rabs_minus_sym x y).
    apply Rmult_le_compat_r; [apply Rabs_pos|]. apply B. lra. }
  intros Hx Hy. destruct (Rtotal_order x y) as [L|[->|L]]; [auto| |rewrite Rabs_minus_sym, (Rabs_minus_sym x y); auto].
  replace (f y - f y) with 0 by ring. replace (y - y) with 0 by ring. rewrite Rabs_R0. lra.
Qed.
Lemma norm1_nonneg c : 0 <= norm1 c. Proof. induction c as [|a c IH]; cbn [norm1]; [lra|]. pose proof (Rabs_pos a). lra. Qed.
Lemma peval_bound c x : -1 <= x <= 1 -> Rabs (peval c x) <= norm1 c.
Proof.
  intros Hx. induction c as [|a c IH]; cbn [peval norm1]; [rewrite Rabs_R0; lra|]. eapply Rle_trans; [apply Rabs_triang|]. rewrite Rabs_mult.
  assert (Rabs x <= 1) by (apply Rabs_le; lra). pose proof (Rabs_pos (peval c x)). nra.
Qed.
Lemma peval_lip c x y : -1 <= x <= 1 -> -1 <= y <= 1 -> Rabs (peval c x - peval c y) <= INR (length c) * norm1 c * Rabs (x - y).
Proof.
  intros Hx Hy. induction c as [|a c IH]; [cbn [peval norm1 length INR]; replace (0 - 0) with 0 by ring; rewrite Rabs_R0; lra|].
  cbn [peval norm1]. change (length (a :: c)) with (S (length c)). rewrite S_INR.
  replace (a + x * peval c x - (a + y * peval c y)) with (x * (peval c x - peval c y) + (x - y) * peval c y) by ring.
  eapply Rle_trans; [apply Rabs_triang|]. rewrite !Rabs_mult. assert (Rabs x <= 1) by (apply Rabs_le; lra). pose proof (peval_bound c y Hy).
  pose proof (Rabs_pos (peval c x - peval c y)). pose proof (Rabs_pos (x - y)). pose proof (Rabs_pos a). pose proof (norm1_nonneg c). pose proof (pos_INR (length c)).
  assert (Rabs x * Rabs (peval c x - peval c y) <= INR (length c) * norm1 c * Rabs (x - y)) by nra.
  assert (Rabs (x - y) * Rabs (peval c y) <= Rabs (x - y) * norm1 c) by (apply Rmult_le_compat_l; auto).
  assert (0 <= INR (length c) * Rabs a * Rabs (x - y)) by (repeat apply Rmult_le_pos; auto). assert (0 <= Rabs a * Rabs (x - y)) by (apply Rmult_le_pos; auto). lra.
Qed.

Lemma rsum_abs n f g : (forall i, (i < n)%nat -> Rabs (f i) <= g i) -> Rabs (rsum n f) <= rsum n g.
Proof. induction n as [|n IH]; intros H; cbn [rsum]; [rewrite Rabs_R0; lra|]. eapply Rle_trans; [apply Rabs_triang|]. apply Rplus_le_compat; auto. Qed.

Section Near.
Variable n : nat.
Variables z r : arr.
Hypothesis Hn : (2 <= n)%nat.
Hypothesis Dr : distinct r n.
Hypothesis R0 : get r 0 = -1.
Hypothesis R1 : get r (n - 1) = 1.
Hypothesis RI : forall i, (1 <= i < n - 1)%nat -> P1 (n - 1) (get r i) = 0.
Variable delta : R.
Hypothesis rin : forall i, (i < n)%nat -> -1 <= get r i <= 1.
Hypothesis zin : forall i, (i < n)%nat -> -1 <= get z i <= 1.
Hypothesis near : forall i, (i < n)%nat -> Rabs (get z i - get r i) <= delta.
Let M := INR (n - 1) * INR n.
Hypothesis small : M * M * delta <= / 2.

Lemma near_exact c v : (length c <= 2 * n - 2)%nat -> integral (peval c) v ->
  (forall i, (i < n)%nat -> 0 < lobatto_weight n (get z i)) /\
  Rabs (rsum n (fun i => lobatto_weight n (get z i) * peval c (get z i)) - v) <= 4 * (M * M + INR n) * delta * norm1 c.
Proof.
  intros Lc Iv. destruct (lobatto_exact r n Hn Dr R0 R1 RI) as (NZ & EX).
  set (w := lobatto_weight n). assert (HM : 2 <= M).
  { unfold M. assert (2 <= INR n) by (apply (le_INR 2); auto). assert (1 <= INR (n - 1)) by (apply (le_INR 1); lia). nra. }
  assert (V : v = rsum n (fun i => w (get r i) * peval c (get r i))) by (eapply int_unique; [exact Iv|apply EX; exists c; auto]).
  assert (SP : forall i, (i < n)%nat -> 0 < P (n - 1) (get r i) * P (n - 1) (get r i)).
  { intros i Hi. specialize (NZ i Hi). destruct (Rtotal_order (P (n - 1) (get r i)) 0) as [|[|]]; [nra|contradiction|nra]. }
  assert (WP : forall i, (i < n)%nat -> 0 < w (get r i)).
  { intros i Hi. unfold w, lobatto_weight. fold M. apply Rdiv_lt_0_compat; [lra|]. apply Rmult_lt_0_compat; [lra|auto]. }
  assert (W2 : rsum n (fun i => w (get r i)) = 2).
  { eapply (int_unique (fun _ => 1)).
    - eapply int_val; [apply (EX (fun _ => 1)); apply (ip_mono 1); [lia|apply ip_const]|]. apply rsum_ext. intros; unfold w; ring.
    - apply (int_der (fun x => x)); [intros; apply der_id|ring]. }
  assert (WL : forall i, (i < n)%nat -> w (get r i) <= 2).
  { intros i Hi. rewrite <- W2. rewrite <- (rsum_delta n i (fun i => w (get r i)) Hi). apply rsum_le. intros j Hj. specialize (WP j Hj). destruct (i =? j)%nat; lra. }
  assert (PL : forall i, (i < n)%nat -> / M <= P (n - 1) (get r i) * P (n - 1) (get r i)).
  { intros i Hi. specialize (WL i Hi). specialize (SP i Hi). unfold w, lobatto_weight in WL. fold M in WL. set (p := P (n - 1) (get r i) * P (n - 1) (get r i)) in *.
    assert (0 < M * p) by nra. assert (2 <= 2 * (M * p)). { apply (Rmult_le_compat_r (M * p)) in WL; [|lra]. replace (2 / (M * p) * (M * p)) with 2 in WL by (field; lra). lra. }
    apply (Rmult_le_reg_l M); [lra|]. rewrite Rinv_r by lra. lra. }
  assert (D0 : 0 <= delta). { eapply Rle_trans; [apply Rabs_pos|]. apply (near 0%nat). lia. }
  assert (PD : forall i, (i < n)%nat -> Rabs (P (n - 1) (get r i) * P (n - 1) (get r i) - P (n - 1) (get z i) * P (n - 1) (get z i)) <= M * delta).
  { intros i Hi. pose proof (lipschitz (P (n - 1)) (P1 (n - 1)) _ (get r i) (get z i) (P_der (n - 1)) (fun u => P1_bound (n - 1) u) (rin i Hi) (zin i Hi)) as LP.
    pose proof (P_bound (n - 1) _ (rin i Hi)). pose proof (P_bound (n - 1) _ (zin i Hi)). specialize (near i Hi). rewrite Rabs_minus_sym in near.
    replace (P (n - 1) (get r i) * P (n - 1) (get r i) - P (n - 1) (get z i) * P (n - 1) (get z i)) with ((P (n - 1) (get r i) - P (n - 1) (get z i)) * (P (n - 1) (get r i) + P (n - 1) (get z i))) by ring.
    rewrite Rabs_mult. assert (T : Rabs (P (n - 1) (get r i) + P (n - 1) (get z i)) <= 2) by (eapply Rle_trans; [apply Rabs_triang|lra]).
    assert (EM : INR (n - 1) * (INR (n - 1) + 1) = M). { unfold M. f_equal. rewrite <- S_INR. f_equal. lia. }
    rewrite EM in LP. assert (LQ : Rabs (P (n - 1) (get r i) - P (n - 1) (get z i)) <= M / 2 * delta). { eapply Rle_trans; [exact LP|]. apply Rmult_le_compat_l; lra. }
    pose proof (Rabs_pos (P (n - 1) (get r i) - P (n - 1) (get z i))). pose proof (Rabs_pos (P (n - 1) (get r i) + P (n - 1) (get z i))).
    eapply Rle_trans; [apply Rmult_le_compat; [auto|auto|exact LQ|exact T]|]. lra. }
  assert (PZ : forall i, (i < n)%nat -> / (2 * M) <= P (n - 1) (get z i) * P (n - 1) (get z i)).
  { intros i Hi. specialize (PL i Hi). specialize (PD i Hi). pose proof (Rle_abs (P (n - 1) (get r i) * P (n - 1) (get r i) - P (n - 1) (get z i) * P (n - 1) (get z i))) as PA. assert (M * delta <= / (2 * M)).
    { apply (Rmult_le_reg_l M); [lra|]. replace (M * / (2 * M)) with (/ 2) by (field; lra). lra. }
    assert (/ M = / (2 * M) + / (2 * M)) by (field; lra). lra. }
  split.
  { intros i Hi. specialize (PZ i Hi). unfold lobatto_weight. fold M. assert (0 < / (2 * M)) by (apply Rinv_0_lt_compat; lra).
    assert (0 < M) by lra. apply Rdiv_lt_0_compat; [apply Rlt_0_2|]. apply Rmult_lt_0_compat; [assumption|]. eapply Rlt_le_trans; [|exact PZ]. assumption. }
  assert (WD : forall i, (i < n)%nat -> Rabs (w (get z i) - w (get r i)) <= w (get r i) * (2 * (M * M) * delta)).
  { intros i Hi. specialize (SP i Hi). specialize (PD i Hi). specialize (PZ i Hi). specialize (WP i Hi). unfold w, lobatto_weight in *. fold M in WP |- *.
    set (p := P (n - 1) (get r i) * P (n - 1) (get r i)) in *. set (q := P (n - 1) (get z i) * P (n - 1) (get z i)) in *.
    assert (0 < / (2 * M)) by (apply Rinv_0_lt_compat; lra). assert (Hq : 0 < q) by lra.
    replace (2 / (M * q) - 2 / (M * p)) with (2 / (M * p) * ((p - q) * / q)) by (field; lra). rewrite Rabs_mult, (Rabs_right (2 / (M * p))) by lra.
    apply Rmult_le_compat_l; [lra|]. rewrite Rabs_mult, (Rabs_right (/ q)) by (apply Rle_ge; left; apply Rinv_0_lt_compat; auto).
    assert (/ q <= 2 * M). { rewrite <- (Rinv_inv (2 * M)). apply Rinv_le_contravar; auto. }
    eapply Rle_trans; [apply Rmult_le_compat; [apply Rabs_pos|left; apply Rinv_0_lt_compat; auto|exact PD|exact H0]|]. lra. }
  rewrite V. replace (rsum n (fun i => w (get z i) * peval c (get z i)) - rsum n (fun i => w (get r i) * peval c (get r i)))
    with (rsum n (fun i => w (get z i) * peval c (get z i) - w (get r i) * peval c (get r i))).
  2:{ transitivity (rsum n (fun i => w (get z i) * peval c (get z i)) + rsum n (fun i => (-1) * (w (get r i) * peval c (get r i)))); [rewrite <- rsum_plus; apply rsum_ext; intros; ring|rewrite rsum_scal; ring]. }
  eapply Rle_trans; [apply (rsum_abs n _ (fun i => (2 * (M * M) + INR (2 * n - 2)) * delta * norm1 c * w (get r i)))|].
  - intros i Hi. replace (w (get z i) * peval c (get z i) - w (get r i) * peval c (get r i))
      with ((w (get z i) - w (get r i)) * peval c (get z i) + w (get r i) * (peval c (get z i) - peval c (get r i))) by ring.
    eapply Rle_trans; [apply Rabs_triang|]. rewrite !Rabs_mult. specialize (WD i Hi). specialize (WP i Hi). rewrite (Rabs_right (w (get r i))) by lra.
    pose proof (peval_bound c _ (zin i Hi)) as PB. pose proof (peval_lip c _ _ (zin i Hi) (rin i Hi)) as PLP. specialize (near i Hi). pose proof (norm1_nonneg c) as N1.
    assert (A : Rabs (w (get z i) - w (get r i)) * Rabs (peval c (get z i)) <= w (get r i) * (2 * (M * M) * delta) * norm1 c) by (apply Rmult_le_compat; auto using Rabs_pos).
    assert (LL : INR (length c) <= INR (2 * n - 2)) by (apply le_INR; auto). pose proof (pos_INR (length c)).
    assert (B : Rabs (peval c (get z i) - peval c (get r i)) <= INR (2 * n - 2) * norm1 c * delta).
    { eapply Rle_trans; [exact PLP|]. apply Rmult_le_compat; [apply Rmult_le_pos; auto|apply Rabs_pos|apply Rmult_le_compat_r; auto|auto]. }
    assert (C : w (get r i) * Rabs (peval c (get z i) - peval c (get r i)) <= w (get r i) * (INR (2 * n - 2) * norm1 c * delta)) by (apply Rmult_le_compat_l; lra). lra.
  - rewrite rsum_scal, W2. assert (INR (2 * n - 2) <= 2 * INR n). { replace (2 * INR n) with (INR (2 * n)) by (rewrite mult_INR; cbn; ring). apply le_INR. lia. }
    pose proof (norm1_nonneg c). assert (INR (2 * n - 2) * (delta * norm1 c) <= 2 * INR n * (delta * norm1 c)) by (apply Rmult_le_compat_r; [apply Rmult_le_pos; auto|auto]). lra.
Qed.
End Near.
