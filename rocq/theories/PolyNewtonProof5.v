(** lobatto_quad on the nodes found by the iteration of poly.c. *)
From Verif Require Import Base BaseLemmas Poly PolySpec PolyProof1 PolyProof2 PolyProof3 PolyImpSyntax PolyImp PolyGll PolyGllSpec PolyGllProof PolyQuad PolyQuadSpec PolyQuadProof1 PolyQuadProof2 PolyQuadProof3 PolyQuadProof4 PolyQuadProof5 LobBnd LobBndSpec LobBndProof1 LobBndProof3 LobBndSetupProof1 PolyNewton PolyGenSpec PolyGenNodesProof PolyNewtonProof1 PolyNewtonProof2 PolyNewtonProof3 PolyNewtonProof4.
From Verif Require TransferProof2.
From Coq Require Import Reals Lra Lia.
Open Scope R_scope.

(** The weights, for any symmetric nodes. *)
Lemma quad_run nn n (m m1 : arr) w : (2 <= n)%nat -> (n <= w)%nat -> (w + n <= length m)%nat -> lobatto_nodes nn m n = Ok m1 -> length m1 = length m ->
  (forall i, (i < n)%nat -> PolySpec.get m1 (n - 1 - i) = - PolySpec.get m1 i) ->
  exists m', lobatto_quad nn m w n = Ok m' /\ length m' = length m /\ (forall k, (k < w \/ w + n <= k)%nat -> PolySpec.get m' k = PolySpec.get m1 k) /\
    forall i, (i < n)%nat -> PolySpec.get m' (w + i) = lobatto_weight n (PolySpec.get m1 i).
Proof.
  intros Hn Hw Hm E1 L1 Sy. unfold lobatto_quad. rewrite E1. cbn [bind].
  set (c := ((n - 1) / 2 + 1)%nat). assert (Hc : (c <= n /\ n <= 2 * c)%nat).
  { unfold c. pose proof (Nat.div_mod (n - 1) 2 ltac:(lia)). pose proof (Nat.mod_upper_bound (n - 1) 2 ltac:(lia)). lia. }
  assert (Hc2 : c = ((n + 1) / 2)%nat). { unfold c. replace (n + 1)%nat with ((n - 1) + 1 * 2)%nat by lia. rewrite Nat.div_add by lia. auto. }
  lazymatch goal with |- context [fill m1 w c ?f] => destruct (fill_ok m1 w c f (fun i => lobatto_weight n (PolySpec.get m1 i))) as (m2 & E2 & [L2 O2] & R2) end; [lia| |].
  { intros m' i Hi [L O] _. rewrite rd_get by lia. cbn [bind]. rewrite O by lia. rewrite legendre_P. unfold lobatto_weight. rewrite Rmult_assoc. auto. }
  rewrite E2. cbn [bind]. destruct (mirror_ok m2 w n) as (m3 & E3 & L3 & V3); [lia|lia|]. rewrite E3. exists m3. split; [auto|]. split; [congruence|]. split.
  - intros k Hk. rewrite V3. destruct (Nat.leb_spec (w + (n + 1) / 2) k), (Nat.ltb_spec k (w + n)); cbn [andb]; try lia; rewrite O2 by lia; auto.
  - intros i Hi. rewrite V3. rewrite <- Hc2. destruct (Nat.leb_spec (w + c) (w + i)), (Nat.ltb_spec (w + i) (w + n)); cbn [andb]; try lia.
    + replace (w + i - w)%nat with i by lia. rewrite (R2 (n - 1 - i)%nat) by lia. unfold lobatto_weight. rewrite Sy by lia. rewrite P_opp_sq. auto.
    + apply R2. lia.
Qed.

(** The extrema of P_N are at least 1/N^4 from the ends. *)
Lemma end_gap1 N r : (1 <= N)%nat -> P1 N r = 0 -> 1 <= INR N ^ 4 * (1 - r).
Proof.
  intros HN Hr. pose proof (P1_root_in N r HN Hr) as In. destruct (MVT_cor2 (P1 N) (P2 N) r 1) as (c & E & Hc); [lra|intros; apply P1_der|].
  rewrite Hr, P1_at_1 in E. assert (N1 : 1 <= INR N) by (apply (le_INR 1); lia). assert (B : Rabs (P2 N c) <= INR N ^ 4) by (apply P2_bound; lra).
  assert (P2 N c * (1 - r) <= INR N ^ 4 * (1 - r)) by (apply Rmult_le_compat_r; [lra|]; pose proof (Rle_abs (P2 N c)); lra). nra.
Qed.
Lemma end_gap N r : (1 <= N)%nat -> P1 N r = 0 -> 1 <= INR N ^ 4 * (1 - Rabs r).
Proof.
  intros HN Hr. unfold Rabs. destruct (Rcase_abs r); [|apply end_gap1; auto]. apply end_gap1; auto. rewrite P1_opp, Hr. ring.
Qed.

(** The numbers. *)
Lemma quad_numbers N : 1 <= N <= 100 -> N ^ 4 * (N ^ 7 / 2 ^ 86) <= 1 /\ N * (N + 1) * (N * (N + 1)) * (N ^ 7 / 2 ^ 86) <= / 2.
Proof.
  intros HN. assert (B : forall k, N ^ k <= 100 ^ k) by (intros; apply pow_incr; lra). pose proof (B 7%nat) as B7. pose proof (B 4%nat) as B4.
  assert (P7 : 0 < N ^ 7) by (apply pow_lt; lra). assert (P4 : 0 < N ^ 4) by (apply pow_lt; lra).
  assert (D : 0 < N ^ 7 / 2 ^ 86 <= 100 ^ 7 / 2 ^ 86). { split; [apply Rdiv_lt_0_compat; lra|]. apply Rmult_le_compat_r; lra. }
  set (d := N ^ 7 / 2 ^ 86) in *. split.
  - apply (Rle_trans _ (100 ^ 4 * (100 ^ 7 / 2 ^ 86))); [apply Rmult_le_compat; lra|lra].
  - assert (M : 0 <= N * (N + 1) <= 10100) by nra. assert (0 <= N * (N + 1) * (N * (N + 1)) <= 102010000) by nra.
    apply (Rle_trans _ (102010000 * (100 ^ 7 / 2 ^ 86))); [apply Rmult_le_compat; lra|lra].
Qed.

Lemma lobatto_quad_near fuel n (m m' : arr) w : (24 < n <= 101)%nat -> (n <= w)%nat -> (w + n <= length m)%nat ->
  lobatto_quad (lobatto_nodes_n (newton_poly fuel)) m w n = Ok m' ->
  length m' = length m /\ (forall k, (n <= k)%nat -> (k < w \/ w + n <= k)%nat -> PolySpec.get m' k = PolySpec.get m k) /\
  PolySpec.get m' 0 = -1 /\ PolySpec.get m' (n - 1) = 1 /\
  (forall i, (1 <= i < n - 1)%nat -> near_root (P1 (n - 1)) (INR (n - 1) ^ 7 / 2 ^ 86) (PolySpec.get m' i)) /\
  ((forall i j, (i < j)%nat -> (j < n)%nat -> 2 * (INR (n - 1) ^ 7 / 2 ^ 86) < Rabs (PolySpec.get m' i - PolySpec.get m' j)) ->
   (forall i, (i < n)%nat -> 0 < PolySpec.get m' (w + i)) /\
   forall c v, (length c <= 2 * n - 2)%nat -> integral (peval c) v ->
     Rabs (rsum n (fun i => PolySpec.get m' (w + i) * peval c (PolySpec.get m' i)) - v) <=
       4 * (INR (n - 1) * INR n * (INR (n - 1) * INR n) + INR n) * (INR (n - 1) ^ 7 / 2 ^ 86) * norm1 c).
Proof.
  intros Hn Hw Hm E. set (N := (n - 1)%nat) in *. set (dl := INR N ^ 7 / 2 ^ 86) in *.
  assert (G : (GLL_LAG_FIX_MAX <? n)%nat = true) by (apply Nat.ltb_lt; unfold GLL_LAG_FIX_MAX; lia).
  assert (E1 : exists m1, lobatto_nodes_n (newton_poly fuel) m n = Ok m1).
  { unfold lobatto_quad, lobatto_nodes in E. rewrite G in E. destruct (lobatto_nodes_n _ m n) as [m1| | |]; cbn [bind] in E; try discriminate. exists m1. auto. }
  destruct E1 as (m1 & E1). destruct (lobatto_nodes_near fuel n m m1 ltac:(lia) ltac:(lia) E1) as (L1 & O1 & Z0 & Z1 & Sy & NR). fold N in NR, Z1. fold dl in NR.
  assert (E2 : lobatto_nodes (lobatto_nodes_n (newton_poly fuel)) m n = Ok m1) by (unfold lobatto_nodes; rewrite G; auto).
  destruct (quad_run _ n m m1 w ltac:(lia) Hw Hm E2 L1 Sy) as (m2 & E3 & L2 & O2 & W). rewrite E3 in E. injection E as <-.
  assert (GZ : forall i, (i < n)%nat -> PolySpec.get m2 i = PolySpec.get m1 i) by (intros i Hi; apply O2; lia).
  split; [auto|]. split; [intros k Hk1 Hk2; rewrite O2 by auto; apply O1; auto|]. split; [rewrite GZ by lia; auto|]. split; [rewrite GZ by lia; auto|].
  split; [intros i Hi; rewrite GZ by lia; apply NR; auto|]. intros Far.
  assert (RN : 1 <= INR N <= 100). { split; [apply (le_INR 1)|replace 100 with (INR 100) by (rewrite INR_IZR_INZ; reflexivity); apply le_INR]; lia. }
  destruct (quad_numbers (INR N) RN) as (Q1 & Q2). fold dl in Q1, Q2. assert (d0 : 0 <= dl) by apply delta_nonneg.
  assert (NRt : forall i, (i < n)%nat -> exists r, Rabs (PolySpec.get m1 i - r) <= dl /\ (i = 0%nat -> r = -1) /\ (i = N -> r = 1) /\ ((1 <= i < n - 1)%nat -> P1 N r = 0)).
  { intros i Hi. destruct (Nat.eq_dec i 0) as [->|]; [exists (-1); rewrite Z0; replace (-1 - -1) with 0 by ring; rewrite Rabs_R0; repeat split; auto; intros; lia|].
    destruct (Nat.eq_dec i N) as [->|]; [exists 1; rewrite Z1; replace (1 - 1) with 0 by ring; rewrite Rabs_R0; repeat split; auto; intros; lia|].
    destruct (NR i ltac:(lia)) as (r & R0 & B). exists r. repeat split; auto; intros; lia. }
  destruct (TransferProof2.finite_choice _ 0 n NRt) as (f & Hf).
  set (r := map f (seq 0 n) : arr). assert (Gr : forall i, (i < n)%nat -> PolySpec.get r i = f i).
  { intros i Hi. unfold r, PolySpec.get. rewrite (nth_indep _ 0 (f 0%nat)) by (rewrite map_length, seq_length; auto). rewrite map_nth, seq_nth by auto. auto. }
  assert (Rin : forall i, (i < n)%nat -> -1 <= PolySpec.get r i <= 1 /\ -1 <= PolySpec.get m1 i <= 1).
  { intros i Hi. rewrite Gr by auto. destruct (Hf i Hi) as (B & F0 & F1 & F2). destruct (Nat.eq_dec i 0) as [->|]; [rewrite F0, Z0 by auto; lra|].
    destruct (Nat.eq_dec i N) as [->|]; [rewrite F1, Z1 by auto; lra|]. specialize (F2 ltac:(lia)). pose proof (P1_root_in N (f i) ltac:(lia) F2) as In.
    pose proof (end_gap N (f i) ltac:(lia) F2) as EG. assert (N4 : 0 < INR N ^ 4) by (apply pow_lt; lra).
    assert (D : dl <= 1 - Rabs (f i)) by (apply (Rmult_le_reg_l (INR N ^ 4)); lra). split; [lra|].
    assert (Rabs (PolySpec.get m1 i) <= 1); [|revert H; unfold Rabs; destruct (Rcase_abs _); lra].
    replace (PolySpec.get m1 i) with ((PolySpec.get m1 i - f i) + f i) by ring. eapply Rle_trans; [apply Rabs_triang|]. lra. }
  assert (Dr : distinct r n).
  { assert (D : forall i j, (i < j)%nat -> (j < n)%nat -> PolySpec.get r i <> PolySpec.get r j).
    { intros i j L Hj X. rewrite !Gr in X by lia. specialize (Far i j L Hj). rewrite !GZ in Far by lia. destruct (Hf i ltac:(lia)) as (Bi & _). destruct (Hf j Hj) as (Bj & _). rewrite <- X, Rabs_minus_sym in Bj.
      pose proof (Rabs_triang (PolySpec.get m1 i - f i) (f i - PolySpec.get m1 j)) as T. replace (PolySpec.get m1 i - f i + (f i - PolySpec.get m1 j)) with (PolySpec.get m1 i - PolySpec.get m1 j) in T by ring. lra. }
    intros i j Hi Hj X. destruct (lt_eq_lt_dec i j) as [[L|]|L]; [exfalso; eapply D; eauto|auto|exfalso; apply (D j i L Hi); auto]. }
  assert (R0 : PolySpec.get r 0 = -1) by (rewrite Gr by lia; apply (Hf 0%nat ltac:(lia)); auto).
  assert (R1 : PolySpec.get r (n - 1) = 1) by (rewrite Gr by lia; apply (Hf (n - 1)%nat ltac:(lia)); auto).
  assert (RI : forall i, (1 <= i < n - 1)%nat -> P1 (n - 1) (PolySpec.get r i) = 0) by (intros i Hi; rewrite Gr by lia; apply (Hf i ltac:(lia)); auto).
  assert (NB : forall i, (i < n)%nat -> Rabs (PolySpec.get m1 i - PolySpec.get r i) <= dl) by (intros i Hi; rewrite Gr by auto; apply (Hf i Hi)).
  assert (SN : INR n = INR N + 1) by (rewrite <- S_INR; f_equal; lia).
  assert (Sm : INR (n - 1) * INR n * (INR (n - 1) * INR n) * dl <= / 2) by (fold N; rewrite SN; exact Q2).
  assert (X := near_exact n m1 r ltac:(lia) Dr R0 R1 RI dl (fun i Hi => proj1 (Rin i Hi)) (fun i Hi => proj2 (Rin i Hi)) NB Sm). split.
  - intros i Hi. rewrite W by auto. apply (X [] 0); [cbn; lia| |auto]. exists (fun _ => 0). split; [intros u; apply derivable_pt_lim_const|ring].
  - intros c v Lc Iv. rewrite (rsum_ext n _ (fun i => lobatto_weight n (PolySpec.get m1 i) * peval c (PolySpec.get m1 i))) by (intros i Hi; rewrite W, GZ by auto; auto). apply X; auto.
Qed.
