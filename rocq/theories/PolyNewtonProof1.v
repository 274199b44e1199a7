(** Bounds of the derivatives of Legendre polynomials; the distance of their roots. *)
From Verif Require Import Base BaseLemmas Poly PolySpec PolyProof1 PolyProof2 PolyProof3 PolyGll PolyGllSpec PolyGllProof PolyGllRoots PolyQuadSpec PolyQuadProof1 PolyQuadProof2 LobBndSpec LobBndProof3 LobBndSetupProof1 PolyQuadProof4.
From Coq Require Import Reals Lra.
Open Scope R_scope.

Lemma P1_sq n x : -1 <= x <= 1 -> Rabs (P1 n x) <= INR n ^ 2.
Proof.
  intros Hx. assert (Ax : Rabs x <= 1) by (apply Rabs_le; lra). induction n as [|n IH]; [rewrite P1_0, Rabs_R0; cbn; lra|].
  rewrite (proj1 (BC n x)). pose proof (P_bound n x Hx) as B. pose proof (pos_INR n) as N.
  eapply Rle_trans; [apply Rabs_triang|]. rewrite !Rabs_mult, (Rabs_pos_eq (INR n + 1)) by lra. rewrite S_INR.
  assert (Rabs x * Rabs (P1 n x) <= 1 * INR n ^ 2) by (apply Rmult_le_compat; auto; apply Rabs_pos).
  assert ((INR n + 1) * Rabs (P n x) <= (INR n + 1) * 1) by (apply Rmult_le_compat_l; lra). nra.
Qed.
Lemma P2_next n x : P2 (S n) x = x * P2 n x + (INR n + 2) * P1 n x.
Proof.
  eapply (der_unique (P1 (S n)) (fun x => x * P1 n x + (INR n + 1) * P n x) x); [intros y; apply BC|apply P1_der|].
  eapply der_eq; [apply (der_add (fun x => x * P1 n x) (fun x => (INR n + 1) * P n x)); [apply (der_mul (fun x => x) (P1 n)); [apply der_id|apply P1_der]|apply (der_scal (INR n + 1) (P n)); apply P_der]|]. ring.
Qed.
Lemma P2_bound n x : -1 <= x <= 1 -> Rabs (P2 n x) <= INR n ^ 4.
Proof.
  intros Hx. assert (Ax : Rabs x <= 1) by (apply Rabs_le; lra). induction n as [|n IH]; [rewrite P2_0, Rabs_R0; cbn; lra|].
  rewrite P2_next. pose proof (P1_sq n x Hx) as B. pose proof (pos_INR n) as N.
  eapply Rle_trans; [apply Rabs_triang|]. rewrite !Rabs_mult, (Rabs_pos_eq (INR n + 2)) by lra. rewrite S_INR.
  assert (Rabs x * Rabs (P2 n x) <= 1 * INR n ^ 4) by (apply Rmult_le_compat; auto; apply Rabs_pos).
  assert ((INR n + 2) * Rabs (P1 n x) <= (INR n + 2) * INR n ^ 2) by (apply Rmult_le_compat_l; lra).
  assert (Q : (INR n + 1) ^ 4 - (INR n ^ 4 + (INR n + 2) * INR n ^ 2) = 3 * INR n ^ 3 + 4 * INR n ^ 2 + 4 * INR n + 1) by ring.
  assert (0 <= INR n ^ 3) by (apply pow_le; auto). assert (0 <= INR n ^ 2) by (apply pow_le; auto). lra.
Qed.

(** n(n+1) P^2 + (1-x^2) P'^2 is least at 0, where it is at least 1. *)
Definition energy (n : nat) (x : R) : R := INR n * (INR n + 1) * (P n x * P n x) + (1 - x * x) * (P1 n x * P1 n x).
Lemma energy_der n y : derivable_pt_lim (energy n) y (2 * y * (P1 n y * P1 n y)).
Proof.
  eapply der_eq.
  - apply (der_add (fun x => INR n * (INR n + 1) * (P n x * P n x)) (fun x => (1 - x * x) * (P1 n x * P1 n x))).
    + apply (der_scal (INR n * (INR n + 1)) (fun x => P n x * P n x)). apply (der_mul (P n) (P n)); apply P_der.
    + apply (der_mul (fun x => 1 - x * x) (fun x => P1 n x * P1 n x)); [apply der_1mx2|]. apply (der_mul (P1 n) (P1 n)); apply P1_der.
  - pose proof (P_ode n y) as O. replace ((1 - y * y) * (P2 n y * P1 n y + P1 n y * P2 n y)) with (2 * P1 n y * ((1 - y * y) * P2 n y)) by ring. rewrite O. ring.
Qed.
Lemma energy_0 n : (1 <= n)%nat -> 1 <= energy n 0.
Proof.
  assert (E : forall n, energy n 0 = INR n * (INR n + 1) * (P n 0 * P n 0) + ((INR n + 1) * P (S n) 0) * ((INR n + 1) * P (S n) 0)).
  { intros k. unfold energy. pose proof (P1_post k 0) as Q. replace (P1 k 0) with (- ((INR k + 1) * P (S k) 0)) by lra. ring. }
  induction n as [|n IH]; [lia|]. intros _. destruct n as [|n].
  - rewrite E, P_1. rewrite P_SS, P_0, P_1. cbn [INR]. lra.
  - specialize (IH ltac:(lia)). rewrite E in IH. rewrite E. set (m := S n) in *. pose proof (P_SS m 0) as Q. pose proof (pos_INR m) as M.
    assert (X : (INR m + 2) * P (S (S m)) 0 = - ((INR m + 1) * P m 0)) by (rewrite Q; field; lra). rewrite !S_INR.
    replace (INR m + 1 + 1) with (INR m + 2) by ring. rewrite X.
    pose proof (Rle_0_sqr (P m 0)) as A. pose proof (Rle_0_sqr (P (S m) 0)) as B. unfold Rsqr in *.
    assert (0 <= (INR m + 1) * (P (S m) 0 * P (S m) 0)) by (apply Rmult_le_pos; lra). assert (0 <= (INR m + 1) * (P m 0 * P m 0)) by (apply Rmult_le_pos; lra).
    clear Q X E. clearbody m. revert IH M A B H H0. generalize (P m 0) (P (S m) 0) (INR m). intros a b k IH M A B H H0.
    replace ((k + 1) * (k + 2) * (b * b) + - ((k + 1) * a) * - ((k + 1) * a)) with (k * (k + 1) * (a * a) + (k + 1) * b * ((k + 1) * b) + (k + 1) * (b * b) + (k + 1) * (a * a)) by ring. lra.
Qed.
Lemma energy_ge n x : (1 <= n)%nat -> 1 <= energy n x.
Proof.
  intros Hn. eapply Rle_trans; [apply energy_0; exact Hn|].
  destruct (Rtotal_order x 0) as [L|[->|L]]; [|lra|].
  - destruct (MVT_cor2 (energy n) (fun y => 2 * y * (P1 n y * P1 n y)) x 0 L) as (y & E & Hy); [intros; apply energy_der|].
    pose proof (Rle_0_sqr (P1 n y)) as A. unfold Rsqr in A. assert (0 <= 2 * - y * (P1 n y * P1 n y) * (0 - x)) by (apply Rmult_le_pos; [apply Rmult_le_pos; [lra|exact A]|lra]). lra.
  - destruct (MVT_cor2 (energy n) (fun y => 2 * y * (P1 n y * P1 n y)) 0 x L) as (y & E & Hy); [intros; apply energy_der|].
    pose proof (Rle_0_sqr (P1 n y)) as A. unfold Rsqr in A. assert (0 <= 2 * y * (P1 n y * P1 n y) * (x - 0)) by (apply Rmult_le_pos; [apply Rmult_le_pos; [lra|exact A]|lra]). lra.
Qed.
Lemma abs_1 a : 1 <= a * a -> 1 <= Rabs a.
Proof. intros H. destruct (Rle_lt_dec 1 (Rabs a)) as [|L]; [auto|]. pose proof (Rabs_pos a). rewrite <- (Rabs_pos_eq (a * a)), Rabs_mult in H by lra. nra. Qed.
Lemma between a b c : -1 < a < 1 -> -1 < b < 1 -> a < c < b -> -1 <= c <= 1. Proof. lra. Qed.

(** Roots of P_n are more than 1/n^4 apart. *)
Lemma gauss_gap n a b : (1 <= n)%nat -> -1 < a < 1 -> -1 < b < 1 -> a < b -> P n a = 0 -> P n b = 0 -> 1 <= INR n ^ 4 * (b - a).
Proof.
  intros Hn Ha Hb L Pa Pb. destruct (MVT_cor2 (P n) (P1 n) a b L) as (c & E & Hc); [intros; apply P_der|].
  assert (C : P1 n c = 0) by (rewrite Pa, Pb in E; apply (Rmult_eq_reg_r (b - a)); lra).
  destruct (MVT_cor2 (P1 n) (P2 n) a c (proj1 Hc)) as (e & E2 & He); [intros; apply P1_der|]. rewrite C in E2.
  pose proof (energy_ge n a Hn) as G. unfold energy in G. rewrite Pa in G.
  assert (A1 : 1 <= Rabs (P1 n a)). { apply abs_1. pose proof (Rle_0_sqr (P1 n a)) as Q. unfold Rsqr in Q. nra. }
  assert (A2 : Rabs (P1 n a) = Rabs (P2 n e) * (c - a)).
  { rewrite <- (Rabs_pos_eq (c - a)), <- Rabs_mult, <- E2 by lra. rewrite <- Rabs_Ropp. f_equal. ring. }
  assert (B : Rabs (P2 n e) <= INR n ^ 4) by (apply P2_bound; lra).
  assert (Rabs (P2 n e) * (c - a) <= INR n ^ 4 * (c - a)) by (apply Rmult_le_compat_r; lra).
  assert (0 <= INR n ^ 4) by (apply pow_le, pos_INR). nra.
Qed.
(** Roots of P_n' are at least 1/(4 n^4) apart. *)
Lemma lobatto_gap n a b : (1 <= n)%nat -> -1 < a < 1 -> -1 < b < 1 -> a < b -> P1 n a = 0 -> P1 n b = 0 -> 1 <= 4 * INR n ^ 4 * (b - a).
Proof.
  intros Hn Ha Hb L Pa Pb. assert (N1 : 1 <= INR n) by (apply (le_INR 1); lia). set (N := INR n) in *. set (k := N * (N + 1)). assert (K : 0 < k <= 2 * N ^ 2) by (unfold k; nra).
  destruct (MVT_cor2 (P1 n) (P2 n) a b L) as (c & E & Hc); [intros; apply P1_der|].
  assert (C : P2 n c = 0) by (rewrite Pa, Pb in E; apply (Rmult_eq_reg_r (b - a)); lra).
  destruct (MVT_cor2 (P1 n) (P2 n) a c (proj1 Hc)) as (e & E2 & He); [intros; apply P1_der|]. rewrite Pa, Rminus_0_r in E2.
  assert (B : Rabs (P2 n e) <= N ^ 4) by (apply P2_bound; lra). assert (N4 : 0 <= N ^ 4) by (apply pow_le; lra). assert (N2 : 1 <= N ^ 2) by nra.
  assert (M : Rabs (P1 n c) <= N ^ 4 * (b - a)).
  { rewrite E2, Rabs_mult, (Rabs_pos_eq (c - a)) by lra. apply Rmult_le_compat; [apply Rabs_pos|lra|auto|lra]. }
  destruct (Rle_lt_dec (/ 4) (Rabs (P1 n c))) as [Q|Q]; [lra|]. clear M.
  pose proof (P_ode n c) as O. rewrite C in O. fold N in O. fold k in O.
  assert (PC : k * Rabs (P n c) <= / 2).
  { rewrite <- (Rabs_pos_eq k), <- Rabs_mult by lra. replace (k * P n c) with (2 * (c * P1 n c)) by lra. rewrite !Rabs_mult, (Rabs_pos_eq 2) by lra.
    assert (Rabs c <= 1) by (apply Rabs_le; lra). assert (Rabs c * Rabs (P1 n c) <= 1 * / 4) by (apply Rmult_le_compat; try apply Rabs_pos; lra). lra. }
  assert (PA : 1 <= k * Rabs (P n a)).
  { pose proof (energy_ge n a Hn) as G. unfold energy in G. rewrite Pa in G. fold N in G. fold k in G. pose proof (P_bound n a ltac:(lra)) as B1. pose proof (Rabs_pos (P n a)) as P0.
    assert (S : P n a * P n a = Rabs (P n a) * Rabs (P n a)) by (rewrite <- Rabs_mult; symmetry; apply Rabs_pos_eq; apply (Rle_0_sqr (P n a))). rewrite S in G.
    assert (Rabs (P n a) * Rabs (P n a) <= Rabs (P n a) * 1) by (apply Rmult_le_compat_l; auto).
    assert (k * (Rabs (P n a) * Rabs (P n a)) <= k * (Rabs (P n a) * 1)) by (apply Rmult_le_compat_l; lra). lra. }
  destruct (MVT_cor2 (P n) (P1 n) a c (proj1 Hc)) as (h & E3 & Hh); [intros; apply P_der|].
  assert (B3 : Rabs (P1 n h) <= N ^ 2) by (apply P1_sq; lra).
  assert (D : Rabs (P n a) <= Rabs (P n c) + N ^ 2 * (b - a)).
  { replace (P n a) with (P n c + - (P1 n h * (c - a))) by lra. eapply Rle_trans; [apply Rabs_triang|]. rewrite Rabs_Ropp, Rabs_mult, (Rabs_pos_eq (c - a)) by lra.
    apply Rplus_le_compat_l. apply Rmult_le_compat; [apply Rabs_pos|lra|auto|lra]. }
  assert (k * Rabs (P n a) <= k * (Rabs (P n c) + N ^ 2 * (b - a))) by (apply Rmult_le_compat_l; lra).
  assert (X : / 2 <= k * (N ^ 2 * (b - a))) by lra. assert (Y : k * (N ^ 2 * (b - a)) <= 2 * N ^ 2 * (N ^ 2 * (b - a))).
  { apply Rmult_le_compat_r; [apply Rmult_le_pos; lra|lra]. }
  replace (4 * N ^ 4 * (b - a)) with (2 * (2 * N ^ 2 * (N ^ 2 * (b - a)))) by ring. lra.
Qed.
