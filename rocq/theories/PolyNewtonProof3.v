(** What an Ok result of the Newton iteration of poly.c is near to, and the arrays filled with such results. *)
From Verif Require Import Base BaseLemmas Poly PolySpec PolyProof1 PolyProof2 PolyProof3 PolyGll PolyGllProof PolyQuad PolyQuadSpec PolyQuadProof1 PolyQuadProof2 PolyQuadProof3 PolyNewton PolyGenSpec PolyGenNodesProof PolyNewtonProof2.
From Coq Require Import Reals Lra Lia.
Open Scope R_scope.

Lemma EPS_val : EPS = / 2 ^ 45. Proof. unfold EPS. replace (2 ^ 52) with (128 * 2 ^ 45) by ring. field. Qed.
Lemma EPS_pos : 0 < EPS. Proof. rewrite EPS_val. apply Rinv_0_lt_compat. lra. Qed.

(** The numbers: q is EPS, N^7 / 2^86 is 16 * N^7 * q * q. *)
Lemma numbers N g q : 2 <= N <= 100 -> 1 <= 4 * N ^ 4 * g -> 0 < q -> q * 2 ^ 45 = 1 ->
  (N + 1) * q <= / 100 /\ (4 * N + 1) * ((N + 1) * q * (100 / 99)) <= g.
Proof.
  intros HN Hg Hq E.
  assert (Q : q * 35184372088832 = 1) by lra. clear E.
  assert (N1 : (N + 1) * q <= 101 * q) by (apply Rmult_le_compat_r; lra).
  split; [lra|].
  assert (P4 : N ^ 4 <= 100 ^ 4) by (apply pow_incr; lra).
  assert (G : 1 / 400000000 <= g). { assert (0 < N ^ 4) by (apply pow_lt; lra). assert (0 < g) by nra. assert (4 * N ^ 4 * g <= 4 * 100 ^ 4 * g) by (apply Rmult_le_compat_r; lra). lra. }
  assert ((4 * N + 1) * ((N + 1) * q * (100 / 99)) <= 401 * (101 * q * (100 / 99))).
  { apply Rmult_le_compat; try lra. assert (0 < (N + 1) * q) by nra. lra. }
  lra.
Qed.
Lemma final N g q e D w : 2 <= N -> 1 <= 4 * N ^ 4 * g -> 0 < q -> e = (N + 1) * q * (100 / 99) -> D = g - e -> (4 * N + 1) * e <= g -> 0 <= w ->
  3 * D * w <= 4 * N * (e * e) -> w <= 16 * N ^ 7 * (q * q).
Proof.
  intros HN Hg Hq Ee ED Hd Hw H.
  assert (P4 : 0 < N ^ 4) by (apply pow_lt; lra). assert (e0 : 0 < e) by (rewrite Ee; nra).
  assert (D1 : 8 / 9 * g <= D). { assert (9 * e <= (4 * N + 1) * e) by (apply Rmult_le_compat_r; lra). lra. }
  assert (A : 2 * w <= 9 * (N ^ 4 * (D * w))).
  { assert (8 / 9 * g * w <= D * w) by (apply Rmult_le_compat_r; lra). assert (N ^ 4 * (8 / 9 * g * w) <= N ^ 4 * (D * w)) by (apply Rmult_le_compat_l; lra).
    assert (1 * w <= 4 * N ^ 4 * g * w) by (apply Rmult_le_compat_r; lra). lra. }
  assert (B : N ^ 4 * (3 * D * w) <= N ^ 4 * (4 * N * (e * e))) by (apply Rmult_le_compat_l; lra).
  assert (C : e * e <= 5 / 2 * (N * N * (q * q))).
  { assert (X : e <= 3 / 2 * N * q * (100 / 99)). { rewrite Ee. apply Rmult_le_compat_r; [lra|]. apply Rmult_le_compat_r; lra. }
    assert (0 < N * q) by nra. apply (Rle_trans _ ((3 / 2 * N * q * (100 / 99)) * (3 / 2 * N * q * (100 / 99)))); [apply Rmult_le_compat; lra|].
    replace (3 / 2 * N * q * (100 / 99) * (3 / 2 * N * q * (100 / 99))) with (9 / 4 * (10000 / 9801) * (N * N * (q * q))) by field.
    apply Rmult_le_compat_r; [|lra]. assert (0 < (N * q) * (N * q)) by nra. lra. }
  assert (F : N ^ 4 * (4 * N * (e * e)) <= 10 * (N ^ 7 * (q * q))).
  { replace (10 * (N ^ 7 * (q * q))) with (N ^ 4 * (4 * N * (5 / 2 * (N * N * (q * q))))) by field. apply Rmult_le_compat_l; [lra|]. apply Rmult_le_compat_l; lra. }
  assert (0 < N ^ 7 * (q * q)). { apply Rmult_lt_0_compat; [apply pow_lt; lra|nra]. } nra.
Qed.

(** One run. *)
Lemma run_near fuel f f' x0 v (z : arr) m N : newton_poly fuel f f' x0 = Ok v -> (1 <= m)%nat -> (m <= N)%nat -> (2 <= N <= 100)%nat ->
  distinct z m -> ispoly (m + 1) f -> (forall i, (i < m)%nat -> f (PolySpec.get z i) = 0) -> (forall i, (i < m)%nat -> -1 < PolySpec.get z i < 1) -> (exists u, f u <> 0) ->
  (forall u, derivable_pt_lim f u (f' u)) ->
  (forall i j, (i < m)%nat -> (j < m)%nat -> i <> j -> 1 <= 4 * INR N ^ 4 * Rabs (PolySpec.get z i - PolySpec.get z j)) ->
  near_root f (INR N ^ 7 / 2 ^ 86) v.
Proof.
  intros Ev Hm HmN HN Dz Hf Z0 In Nz Df Gap. destruct (newton_poly_inv _ _ _ _ _ Ev) as (x & y & Nx & Ey & B & Ny & ->).
  destruct (near_root_ok z m f x (f' x) Hm Dz Hf Z0 (Df x) Nx) as (r & Hr & Bx).
  destruct (all_roots z m f r Dz Hf Z0 Nz Hr) as (i & Hi & ->).
  pose proof EPS_pos as Q0. assert (Q1 : EPS * 2 ^ 45 = 1) by (rewrite EPS_val; field; lra). set (q := EPS) in *.
  assert (RN : 2 <= INR N <= 100). { split; [apply (le_INR 2)|replace 100 with (INR 100) by (rewrite INR_IZR_INZ; reflexivity); apply le_INR]; lia. }
  assert (Rm : 1 <= INR m <= INR N) by (split; [apply (le_INR 1)|apply le_INR]; lia). set (M := INR N) in *. set (rt := PolySpec.get z i) in *.
  assert (Es : Rabs (f x / f' x) = Rabs (y - x)) by (rewrite Ey, <- Rabs_Ropp; f_equal; ring). rewrite Es in Bx.
  set (g := / (4 * M ^ 4)). assert (P4 : 0 < M ^ 4) by (apply pow_lt; lra). assert (Hg : 4 * M ^ 4 * g = 1) by (unfold g; field; lra).
  destruct (numbers M g q RN ltac:(lra) Q0 Q1) as (S1 & S2). set (e := (M + 1) * q * (100 / 99)) in *.
  assert (Y : Rabs (y - x) <= Rabs y * q). { eapply Rle_trans; [exact B|]. apply Rmult_le_compat_r; [lra|]. rewrite <- Rabs_Ropp. apply Rle_abs. }
  assert (Byr : Rabs (y - rt) <= (M + 1) * q * Rabs y).
  { replace (y - rt) with ((y - x) + (x - rt)) by ring. eapply Rle_trans; [apply Rabs_triang|]. assert (INR m * Rabs (y - x) <= M * Rabs (y - x)) by (apply Rmult_le_compat_r; [apply Rabs_pos|lra]).
    assert ((M + 1) * Rabs (y - x) <= (M + 1) * (Rabs y * q)) by (apply Rmult_le_compat_l; lra). lra. }
  assert (Ay : Rabs y <= 100 / 99).
  { assert (Rabs rt < 1) by (apply Rabs_def1; apply In in Hi; fold rt in Hi; lra). assert (Rabs y <= Rabs (y - rt) + Rabs rt) by (replace y with ((y - rt) + rt) at 1 by ring; apply Rabs_triang).
    pose proof (Rabs_pos y). assert ((M + 1) * q * Rabs y <= / 100 * Rabs y) by (apply Rmult_le_compat_r; lra). lra. }
  assert (He : Rabs (y - rt) <= e). { eapply Rle_trans; [exact Byr|]. unfold e. apply Rmult_le_compat_l; [nra|lra]. }
  assert (e0 : 0 < e) by (unfold e; nra). assert (eg : 9 * e <= (4 * M + 1) * e) by (apply Rmult_le_compat_r; lra). assert (Dp : 0 < g - e) by lra.
  pose proof (last_step z m f (f' y) y i e (g - e) Dz Hf Z0 (Df y) Ny Hi He Dp) as L. exists rt. split; [auto|].
  assert (G16 : M ^ 7 / 2 ^ 86 = 16 * M ^ 7 * (q * q)). { unfold q. rewrite EPS_val. replace (2 ^ 86) with (2 ^ 45 * 2 ^ 45 / 16) by field. field. }
  rewrite G16. apply (final M g q e (g - e)); try lra; try reflexivity; [apply Rabs_pos|].
  eapply Rle_trans; [apply L|].
  - intros j Hj Nj. assert (g <= Rabs (rt - PolySpec.get z j)).
    { assert (X := Gap i j Hi Hj ltac:(auto)). fold rt in X. apply (Rmult_le_reg_l (4 * M ^ 4)); [lra|]. rewrite Hg. exact X. }
    assert (Rabs (rt - PolySpec.get z j) <= Rabs (rt - y) + Rabs (y - PolySpec.get z j)) by (replace (rt - PolySpec.get z j) with ((rt - y) + (y - PolySpec.get z j)) by ring; apply Rabs_triang).
    rewrite (Rabs_minus_sym rt y) in *. lra.
  - assert (INR m * e <= M * e) by (apply Rmult_le_compat_r; lra). lra.
  - assert (INR m * (e * e) <= M * (e * e)) by (apply Rmult_le_compat_r; [nra|lra]). lra.
Qed.

(** All calls inside a fill that ends have ended. *)
Lemma foldM_run (g : nat -> res R) off l : forall m m', foldM (fun a i => v <- g i ;; wr a (off + i) v) l m = Ok m' -> forall i, In i l -> exists v, g i = Ok v.
Proof.
  induction l as [|a l IH]; intros m m' E i Hi; [destruct Hi|]. cbn [foldM] in E.
  destruct (g a) as [v| | |] eqn:G; cbn [bind] in E; try discriminate. destruct (wr m (off + a) v) as [m1| | |] eqn:W; cbn [bind] in E; try discriminate.
  destruct Hi as [->|Hi]; [exists v; auto|]. eapply IH; eauto.
Qed.
Lemma fill_run m off n g m' : fill m off n (fun _ i => g i) = Ok m' -> exists r : arr, forall i, (i < n)%nat -> g i = Ok (PolySpec.get r i).
Proof.
  intros E. unfold fill in E. assert (H : forall i, (i < n)%nat -> exists v, g i = Ok v). { intros i Hi. eapply foldM_run; [exact E|apply in_seq; lia]. }
  exists (map (fun i => match g i with Ok v => v | _ => 0 end) (seq 0 n)). intros i Hi. unfold PolySpec.get.
  rewrite (nth_indep _ 0 ((fun i => match g i with Ok v => v | _ => 0 end) 0%nat)) by (rewrite map_length, seq_length; auto).
  rewrite (map_nth (fun i => match g i with Ok v => v | _ => 0 end)), seq_nth by auto. cbn. destruct (H i Hi) as (v & ->). auto.
Qed.
Lemma near_whole (r : arr) n (f : R -> R) s d : (forall x, f (- x) = s * f x) -> (Nat.odd n = true -> f 0 = 0) -> 0 <= d -> (forall i, (i < n / 2)%nat -> near_root f d (PolySpec.get r i)) ->
  forall i, (i < n)%nat -> near_root f d (whole r n i).
Proof.
  intros Sf Mid Hd H i Hi. destruct (half_facts n) as (F1 & F2 & F3 & F4). unfold whole. destruct (Nat.ltb_spec i (n / 2)); [auto|]. destruct (Nat.ltb_spec i ((n + 1) / 2)).
  - exists 0. split; [apply Mid; destruct (Nat.odd n); auto; specialize (F4 eq_refl); lia|]. rewrite Rminus_0_r, Rabs_R0. auto.
  - destruct (H (n - 1 - i)%nat ltac:(lia)) as (x & E & B). exists (- x). split; [rewrite Sf, E; ring|]. replace (- PolySpec.get r (n - 1 - i) - - x) with (- (PolySpec.get r (n - 1 - i) - x)) by ring. rewrite Rabs_Ropp. auto.
Qed.
