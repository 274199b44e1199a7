(** The iteration stops when it starts near a root. *)
From Verif Require Import Base BaseLemmas Poly PolySpec PolyProof1 PolyProof2 PolyProof3 PolyGll PolyGllSpec PolyGllProof PolyQuad PolyQuadSpec PolyQuadProof1 PolyQuadProof2 PolyQuadProof3 PolyQuadProof5 LobBndSpec LobBndProof3 LobBndSetupProof1 PolyNewton PolyGenSpec PolyGenNodesProof PolyNewtonProof1 PolyNewtonProof2 PolyNewtonProof3 PolyNewtonProof4.
From Coq Require Import Reals Lra Lia.
Open Scope R_scope.

Section Local.
Variables (z : arr) (m i : nat) (f f' : R -> R) (g e0 : R).
Hypothesis Dz : distinct z m.
Hypothesis Hf : ispoly (m + 1) f.
Hypothesis Z0 : forall j, (j < m)%nat -> f (PolySpec.get z j) = 0.
Hypothesis Df : forall u, derivable_pt_lim f u (f' u).
Hypothesis Nz : exists u, f u <> 0.
Hypothesis Hi : (i < m)%nat.
Hypothesis Gap : forall j, (j < m)%nat -> j <> i -> g <= Rabs (PolySpec.get z i - PolySpec.get z j).
Hypothesis E0 : 0 < e0.
Hypothesis Sm : (4 * INR m + 1) * e0 <= g.
Let r := PolySpec.get z i.

Lemma far x : Rabs (x - r) <= e0 -> forall j, (j < m)%nat -> j <> i -> g - e0 <= Rabs (x - PolySpec.get z j).
Proof.
  intros B j Hj N. pose proof (Gap j Hj N) as G. fold r in G. pose proof (Rabs_triang (r - x) (x - PolySpec.get z j)) as T.
  replace (r - x + (x - PolySpec.get z j)) with (r - PolySpec.get z j) in T by ring. rewrite (Rabs_minus_sym r x) in T. lra.
Qed.
Lemma Rm1 : 1 <= INR m. Proof. apply (le_INR 1). lia. Qed.
Lemma Dpos : 4 * INR m * e0 <= g - e0. Proof. lra. Qed.
Lemma der_nz x : Rabs (x - r) <= e0 -> f' x <> 0.
Proof.
  intros B. pose proof Rm1 as R1. pose proof Dpos as D4. destruct (ip_roots z m Dz 1 f Hf Z0) as (q & (c & Lc & Hc) & E).
  assert (C : forall u, q u = peval c 0). { intros u. rewrite <- (Hc u). destruct c as [|a [|]]; [reflexivity|cbn [peval]; ring|cbn in Lc; lia]. }
  set (k := peval c 0) in *. assert (Dp : 0 < g - e0) by nra.
  destruct (skip_der (PolySpec.get z) i x (g - e0) Dp m (far x B)) as (d & Hd & Bd). set (h := rprod m (skip (PolySpec.get z) i x)) in *.
  assert (Ef : forall u, f u = (u - r) * rprod m (skip (PolySpec.get z) i u) * k).
  { intros u. rewrite E, C, (rprod_skip _ i). destruct (Nat.ltb_spec i m); [reflexivity|lia]. }
  assert (Ed : f' x = (h + (x - r) * d) * k).
  { eapply (der_unique f (fun u => k * ((u - r) * rprod m (skip (PolySpec.get z) i u))) x); [intros u; rewrite Ef; ring|apply Df|].
    eapply der_eq; [apply (der_scal k); apply (der_mul (fun u => u - r) (fun u => rprod m (skip (PolySpec.get z) i u))); [apply (der_sub (fun u => u) (fun _ => r)); [apply der_id|apply derivable_pt_lim_const]|exact Hd]|]. fold h. ring. }
  assert (Kn : k <> 0) by (destruct Nz as (u & Hu); intros K; apply Hu; rewrite Ef, K; ring).
  assert (Hn : h <> 0).
  { unfold h. apply rprod_nonzero. intros j Hj. unfold skip. destruct (Nat.eqb_spec j i) as [|N]; [lra|]. pose proof (far x B j Hj N) as Fj. intros X. rewrite X, Rabs_R0 in Fj. lra. }
  rewrite Ed. intros X. apply Rmult_integral in X. destruct X as [X|X]; [|auto]. assert (Hp : 0 < Rabs h) by (apply Rabs_pos_lt; auto).
  assert (T : Rabs h = Rabs (x - r) * Rabs d). { rewrite <- Rabs_mult, <- Rabs_Ropp. f_equal. lra. }
  assert (Rabs (x - r) * Rabs d <= e0 * Rabs d) by (apply Rmult_le_compat_r; [apply Rabs_pos|auto]).
  assert (4 * INR m * e0 * Rabs d <= (g - e0) * Rabs d) by (apply Rmult_le_compat_r; [apply Rabs_pos|auto]). nra.
Qed.
Lemma local_step x e : 0 < e -> e <= e0 -> Rabs (x - r) <= e -> Rabs (x - f x / f' x - r) <= e / 3.
Proof.
  intros He Hle B. pose proof Rm1 as R1. pose proof Dpos as D4. assert (Dp : 0 < g - e0) by nra.
  pose proof (last_step z m f (f' x) x i e (g - e0) Dz Hf Z0 (Df x) (der_nz x ltac:(lra)) Hi B Dp (far x ltac:(lra))) as L. fold r in L.
  assert (M : 4 * INR m * e <= g - e0). { assert (4 * INR m * e <= 4 * INR m * e0) by (apply Rmult_le_compat_l; lra). lra. }
  specialize (L ltac:(lra)). assert (4 * INR m * e * e <= (g - e0) * e) by (apply Rmult_le_compat_r; lra).
  apply (Rmult_le_reg_l (3 * (g - e0))); lra.
Qed.
Lemma newton_S fuel x : newton_poly (S fuel) f f' x = if Req_EM_T (f' x) 0 then UB else
  if Rlt_dec (- (x - f x / f' x) * EPS) (Rabs (x - f x / f' x - x)) then newton_poly fuel f f' (x - f x / f' x)
  else if Req_EM_T (f' (x - f x / f' x)) 0 then UB else Ok (x - f x / f' x - f (x - f x / f' x) / f' (x - f x / f' x)).
Proof. reflexivity. Qed.
Lemma local_run k : forall x e, 0 < e -> e <= e0 -> Rabs (x - r) <= e -> 2 * e / 3 ^ k <= (- r - e0) * EPS -> exists v, newton_poly (S k) f f' x = Ok v /\ Rabs (v - r) <= e.
Proof.
  induction k as [|k IH]; intros x e He Hle B St; rewrite newton_S; (destruct (Req_EM_T (f' x) 0) as [Z|_]; [exfalso; apply (der_nz x); [lra|auto]|]);
    pose proof (local_step x e He Hle B) as B1; set (y := x - f x / f' x) in *; clearbody y; pose proof (local_step y (e / 3) ltac:(lra) ltac:(lra) B1) as B2;
    (destruct (Req_EM_T (f' y) 0) as [Z|_]; [exfalso; apply (der_nz y); [lra|auto]|]).
  - destruct (Rlt_dec _ _) as [L|L]; [exfalso|eexists; split; [reflexivity|lra]]. revert L. apply Rle_not_lt.
    assert (Rabs (y - x) <= Rabs (y - r) + Rabs (r - x)) by (replace (y - x) with ((y - r) + (r - x)) by ring; apply Rabs_triang). rewrite (Rabs_minus_sym r x) in H.
    cbn [pow] in St. assert (- r - e0 <= - y) by (pose proof (Rle_abs (y - r)); lra). assert ((- r - e0) * EPS <= - y * EPS) by (apply Rmult_le_compat_r; [left; apply EPS_pos|lra]). lra.
  - destruct (Rlt_dec _ _) as [L|L]; [|eexists; split; [reflexivity|lra]]. assert (P3 : 0 < 3 ^ k) by (apply pow_lt; lra).
    destruct (IH y (e / 3) ltac:(lra) ltac:(lra) B1) as (v & E & Bv).
    + replace (2 * (e / 3) / 3 ^ k) with (2 * e / 3 ^ S k); [auto|]. cbn [pow]. field. lra.
    + exists v. split; [exact E|lra].
Qed.
Lemma local_stops x : Rabs (x - r) <= e0 -> e0 < - r -> exists fuel v, newton_poly fuel f f' x = Ok v /\ Rabs (v - r) <= e0.
Proof.
  intros B Hr. assert (Q : 0 < (- r - e0) * EPS) by (apply Rmult_lt_0_compat; [lra|apply EPS_pos]).
  destruct (pow_lt_1_zero (/ 3) ltac:(rewrite Rabs_right; lra) ((- r - e0) * EPS / (2 * e0))) as (k & Hk); [apply Rdiv_lt_0_compat; lra|].
  specialize (Hk k (le_n k)). exists (S k). apply local_run; auto; try lra.
  rewrite pow_inv in Hk. assert (P3 : 0 < / 3 ^ k) by (apply Rinv_0_lt_compat, pow_lt; lra). rewrite Rabs_right in Hk by lra.
  assert (2 * e0 * / 3 ^ k < 2 * e0 * ((- r - e0) * EPS / (2 * e0))) by (apply Rmult_lt_compat_l; lra).
  replace (2 * e0 * ((- r - e0) * EPS / (2 * e0))) with ((- r - e0) * EPS) in H by (field; lra). unfold Rdiv. lra.
Qed.
End Local.

(** The distance of a root from 0. *)
Lemma small_delta N : 1 <= N <= 100 -> N ^ 4 * (N ^ 7 / 2 ^ 86) <= / 100.
Proof.
  intros HN. assert (B : forall k, N ^ k <= 100 ^ k) by (intros; apply pow_incr; lra). pose proof (B 7%nat) as B7. pose proof (B 4%nat) as B4.
  assert (P7 : 0 < N ^ 7) by (apply pow_lt; lra). assert (P4 : 0 < N ^ 4) by (apply pow_lt; lra).
  assert (D : 0 < N ^ 7 / 2 ^ 86 <= 100 ^ 7 / 2 ^ 86). { split; [apply Rdiv_lt_0_compat; lra|]. apply Rmult_le_compat_r; lra. }
  apply (Rle_trans _ (100 ^ 4 * (100 ^ 7 / 2 ^ 86))); [apply Rmult_le_compat; lra|lra].
Qed.
Lemma stops f f' (l : arr) m N K r x : (2 <= N)%nat -> (forall i, (i + 1 < m)%nat -> PolySpec.get l i < PolySpec.get l (S i)) ->
  ispoly (m + 1) f -> (forall i, (i < m)%nat -> f (PolySpec.get l i) = 0) -> (forall u, derivable_pt_lim f u (f' u)) -> (exists u, f u <> 0) -> 1 <= K <= 4 ->
  (forall a b, a < b -> f a = 0 -> f b = 0 -> 1 <= K * INR N ^ 4 * (b - a)) -> K * (4 * INR m + 1) <= 32 * INR N ->
  (forall u, f u = 0 -> f (- u) = 0) -> f r = 0 -> r < 0 -> Rabs (x - r) <= / (32 * INR N ^ 5) ->
  exists fuel v, newton_poly fuel f f' x = Ok v /\ Rabs (v - r) <= / (32 * INR N ^ 5).
Proof.
  intros HN Inc Hf Z0 Df Nz Kp HK KM Sy Hr Neg B. pose proof (increasing_distinct l m Inc) as Dl.
  destruct (all_roots l m f r Dl Hf Z0 Nz Hr) as (i & Hi & ->). set (r := PolySpec.get l i) in *.
  assert (N2 : 2 <= INR N) by (apply (le_INR 2); lia). set (M := INR N) in *. assert (P4 : 0 < M ^ 4) by (apply pow_lt; lra).
  assert (P5 : 0 < M ^ 5) by (apply pow_lt; lra). assert (E5 : M ^ 5 = M * M ^ 4) by ring.
  set (e0 := / (32 * M ^ 5)) in *. assert (e0p : 0 < e0) by (apply Rinv_0_lt_compat; lra).
  assert (Ee : 32 * M * (M ^ 4 * e0) = 1). { replace (32 * M * (M ^ 4 * e0)) with (32 * M ^ 5 * e0) by (rewrite E5; ring). unfold e0. apply Rinv_r. lra. }
  assert (X0 : 0 < M ^ 4 * e0) by nra. assert (KM4 : 0 < K * M ^ 4) by nra.
  assert (Rneg : e0 < - r). { pose proof (HK r (- r) ltac:(lra) Hr (Sy r Hr)) as G. assert (Y0 : 0 <= M ^ 4 * - r) by (apply Rmult_le_pos; lra). assert (Y : K * (M ^ 4 * - r) <= 4 * (M ^ 4 * - r)) by (apply Rmult_le_compat_r; lra).
    assert (X1 : M ^ 4 * e0 <= / 64) by nra.
    assert (G2 : K * M ^ 4 * (- r - r) = 2 * (K * (M ^ 4 * - r))) by ring. apply (Rmult_lt_reg_l (M ^ 4)); [auto|]. lra. }
  assert (RA : forall j, (j < m)%nat -> j <> i -> / (K * M ^ 4) <= Rabs (r - PolySpec.get l j)).
  { intros j Hj Nj. apply (Rmult_le_reg_l (K * M ^ 4)); [auto|]. rewrite Rinv_r by lra.
    destruct (Rtotal_order r (PolySpec.get l j)) as [L|[L|L]].
    - rewrite Rabs_left by lra. replace (- (r - PolySpec.get l j)) with (PolySpec.get l j - r) by ring. apply HK; auto.
    - exfalso. apply Nj. apply Dl; auto.
    - rewrite Rabs_right by lra. apply HK; auto. }
  apply (local_stops l m i f f' (/ (K * M ^ 4)) e0 Dl Hf Z0 Df Nz Hi RA e0p); auto.
  apply (Rmult_le_reg_l (K * M ^ 4)); [auto|]. rewrite Rinv_r by lra.
  replace (K * M ^ 4 * ((4 * INR m + 1) * e0)) with (K * (4 * INR m + 1) * (M ^ 4 * e0)) by ring. apply (Rle_trans _ (32 * M * (M ^ 4 * e0))); [apply Rmult_le_compat_r; lra|lra].
Qed.
(** It stops near the root it started near. *)
Lemma near_same f N r v : (1 <= N <= 100)%nat -> (forall a b, a < b -> f a = 0 -> f b = 0 -> 1 <= 4 * INR N ^ 4 * (b - a)) ->
  f r = 0 -> Rabs (v - r) <= / (32 * INR N ^ 5) -> near_root f (INR N ^ 7 / 2 ^ 86) v -> Rabs (v - r) <= INR N ^ 7 / 2 ^ 86.
Proof.
  intros HN G Hr B (r' & Hr' & B'). destruct (Req_dec r r') as [->|Nr]; [auto|exfalso].
  assert (RN : 1 <= INR N <= 100). { split; [apply (le_INR 1)|replace 100 with (INR 100) by (rewrite INR_IZR_INZ; reflexivity); apply le_INR]; lia. }
  pose proof (small_delta _ RN) as D. set (M := INR N) in *. set (dl := M ^ 7 / 2 ^ 86) in *. assert (P4 : 0 < M ^ 4) by (apply pow_lt; lra).
  assert (E5 : M ^ 5 = M * M ^ 4) by ring. assert (P5 : 0 < M ^ 5) by (apply pow_lt; lra).
  set (e0 := / (32 * M ^ 5)) in *. assert (Ee : 32 * M * (M ^ 4 * e0) = 1). { replace (32 * M * (M ^ 4 * e0)) with (32 * M ^ 5 * e0) by (rewrite E5; ring). unfold e0. apply Rinv_r. lra. }
  assert (e0p : 0 < e0) by (apply Rinv_0_lt_compat; lra). assert (X0 : 0 < M ^ 4 * e0) by nra. assert (X1 : M ^ 4 * e0 <= / 32) by nra.
  assert (T : Rabs (r - r') <= e0 + dl). { replace (r - r') with ((r - v) + (v - r')) by ring. eapply Rle_trans; [apply Rabs_triang|]. rewrite (Rabs_minus_sym r v). lra. }
  assert (A : 1 <= 4 * M ^ 4 * Rabs (r - r')).
  { destruct (Rtotal_order r r') as [L|[L|L]]; [|lra|].
    - rewrite Rabs_left by lra. replace (- (r - r')) with (r' - r) by ring. apply G; auto.
    - rewrite Rabs_right by lra. apply G; auto. }
  assert (4 * M ^ 4 * Rabs (r - r') <= 4 * M ^ 4 * (e0 + dl)) by (apply Rmult_le_compat_l; lra). nra.
Qed.

Lemma P_root_in n x : P n x = 0 -> -1 < x < 1.
Proof.
  intros Hx. destruct (legendre_roots n) as (l & Ll & In & Inc & Z0 & _).
  destruct (all_roots l n (P n) x (increasing_distinct l n Inc) (ip_P n) Z0 ltac:(exists 1; rewrite P_at_1; lra) Hx) as (i & Hi & ->). auto.
Qed.
Lemma gauss_stops n r x : (2 <= n)%nat -> P n r = 0 -> r < 0 -> Rabs (x - r) <= / (32 * INR n ^ 5) ->
  exists fuel v, newton_poly fuel (legendre n) (legendre_d1 n) x = Ok v /\ Rabs (v - r) <= / (32 * INR n ^ 5) /\ ((n <= 100)%nat -> Rabs (v - r) <= INR n ^ 7 / 2 ^ 86).
Proof.
  intros Hn Hr Neg B. destruct (legendre_roots n) as (l & Ll & In & Inc & Z0 & _).
  assert (G : forall a b, a < b -> P n a = 0 -> P n b = 0 -> 1 <= INR n ^ 4 * (b - a)) by (intros; apply gauss_gap; auto; try lia; eapply P_root_in; eauto).
  assert (N2 : 2 <= INR n) by (apply (le_INR 2); lia).
  destruct (stops (legendre n) (legendre_d1 n) l n n 1 r x Hn Inc) as (fuel & v & E & Bv); auto; try lra.
  - destruct (ip_P n) as (c & Lc & Hc). exists c. split; [auto|]. intros u. rewrite legendre_P. auto.
  - intros i Hi. rewrite legendre_P. auto.
  - intros u. rewrite legendre_d1_P by lia. apply (derivable_pt_lim_ext (P n)); [intros; rewrite legendre_P; auto|apply P_der].
  - exists 1. rewrite legendre_P, P_at_1. lra.
  - intros a b L. rewrite !legendre_P, Rmult_1_l. apply G. auto.
  - intros u. rewrite !legendre_P, (proj1 (P_opp n u)). intros ->. ring.
  - rewrite legendre_P. auto.
  - exists fuel, v. split; [auto|]. split; [auto|]. intros H100. apply (near_same (P n) n r v); auto; [lia| |apply (run_gauss fuel n x); auto].
    intros a b L Pa Pb. pose proof (G a b L Pa Pb). assert (0 <= INR n ^ 4) by (apply pow_le; lra). nra.
Qed.
Lemma lobatto_stops N r x : (2 <= N)%nat -> P1 N r = 0 -> r < 0 -> Rabs (x - r) <= / (32 * INR N ^ 5) ->
  exists fuel v, newton_poly fuel (legendre_d1 N) (legendre_d2 N) x = Ok v /\ Rabs (v - r) <= / (32 * INR N ^ 5) /\ ((N <= 100)%nat -> Rabs (v - r) <= INR N ^ 7 / 2 ^ 86).
Proof.
  intros HN Hr Neg B. destruct (lobatto_roots N) as (l & Ll & In & Inc & Z0).
  assert (G : forall a b, a < b -> P1 N a = 0 -> P1 N b = 0 -> 1 <= 4 * INR N ^ 4 * (b - a)) by (intros; apply lobatto_gap; auto; try lia; apply (P1_root_in N); auto; lia).
  assert (N2 : 2 <= INR N) by (apply (le_INR 2); lia).
  destruct (stops (legendre_d1 N) (legendre_d2 N) l (N - 1) N 4 r x HN Inc) as (fuel & v & E & Bv); auto; try lra.
  - replace (N - 1 + 1)%nat with N by lia. destruct (ip_P1 N) as (c & Lc & Hc). exists c. split; [auto|]. intros u. rewrite legendre_d1_P by lia. auto.
  - intros i Hi. rewrite legendre_d1_P by lia. auto.
  - intros u. rewrite legendre_d2_P by lia. apply (derivable_pt_lim_ext (P1 N)); [intros; rewrite legendre_d1_P by lia; auto|apply P1_der].
  - exists 1. rewrite legendre_d1_P by lia. apply P1_nz. lia.
  - intros a b L. rewrite !legendre_d1_P by lia. apply G. auto.
  - rewrite minus_INR by lia. cbn [INR]. lra.
  - intros u. rewrite !legendre_d1_P, P1_opp by lia. intros ->. ring.
  - rewrite legendre_d1_P by lia. auto.
  - exists fuel, v. split; [auto|]. split; [auto|]. intros H100. apply (near_same (P1 N) N r v); auto; [lia|apply (run_lobatto fuel N x); auto].
Qed.
