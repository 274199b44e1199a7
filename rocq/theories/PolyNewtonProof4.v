(** The nodes of gauss_nodes and lobatto_nodes_n found by the iteration of poly.c. *)
From Verif Require Import Base BaseLemmas Poly PolySpec PolyProof1 PolyProof2 PolyProof3 PolyGll PolyGllSpec PolyGllProof PolyQuad PolyQuadSpec PolyQuadProof1 PolyQuadProof2 PolyQuadProof3 PolyQuadProof5 LobBndSpec LobBndProof3 LobBndSetupProof1 PolyNewton PolyGenSpec PolyGenNodesProof PolyNewtonProof1 PolyNewtonProof2 PolyNewtonProof3.
From Coq Require Import Reals Lra Lia.
Open Scope R_scope.

Lemma delta_nonneg N : 0 <= INR N ^ 7 / 2 ^ 86.
Proof. apply Rmult_le_pos; [apply pow_le, pos_INR|]. left. apply Rinv_0_lt_compat. apply pow_lt. lra. Qed.
Lemma sorted_gap (l : arr) m K : 0 <= K -> (forall i, (i + 1 < m)%nat -> PolySpec.get l i < PolySpec.get l (S i)) ->
  (forall i j, (i < m)%nat -> (j < m)%nat -> PolySpec.get l i < PolySpec.get l j -> 1 <= K * (PolySpec.get l j - PolySpec.get l i)) ->
  forall i j, (i < m)%nat -> (j < m)%nat -> i <> j -> 1 <= K * Rabs (PolySpec.get l i - PolySpec.get l j).
Proof.
  intros HK Inc G i j Hi Hj Nij. destruct (lt_dec i j) as [L|L].
  - pose proof (increasing_lt l m Inc i j L Hj). rewrite Rabs_left by lra. replace (- (PolySpec.get l i - PolySpec.get l j)) with (PolySpec.get l j - PolySpec.get l i) by ring. apply G; auto.
  - pose proof (increasing_lt l m Inc j i ltac:(lia) Hi). rewrite Rabs_right by lra. apply G; auto.
Qed.
Lemma run_gauss fuel n x0 v : (2 <= n <= 100)%nat -> newton_poly fuel (legendre n) (legendre_d1 n) x0 = Ok v -> near_root (P n) (INR n ^ 7 / 2 ^ 86) v.
Proof.
  intros Hn E. destruct (legendre_roots n) as (l & Ll & In & Inc & Z0 & _). pose proof (increasing_distinct l n Inc) as Dl.
  assert (NR : near_root (legendre n) (INR n ^ 7 / 2 ^ 86) v).
  2: { destruct NR as (r & R0 & B). exists r. rewrite <- legendre_P. auto. }
  apply (run_near fuel (legendre n) (legendre_d1 n) x0 v l n n E); try lia; auto.
  - destruct (ip_P n) as (c & Lc & Hc). exists c. split; [auto|]. intros u. rewrite legendre_P. auto.
  - intros i Hi. rewrite legendre_P. auto.
  - exists 1. rewrite legendre_P, P_at_1. lra.
  - intros u. rewrite legendre_d1_P by lia. apply (derivable_pt_lim_ext (P n)); [intros; rewrite legendre_P; auto|apply P_der].
  - assert (P4 : 0 <= INR n ^ 4) by (apply pow_le, pos_INR). apply sorted_gap; [lra|auto|]. intros i j Hi Hj L.
    pose proof (gauss_gap n _ _ ltac:(lia) (In i Hi) (In j Hj) L (Z0 i Hi) (Z0 j Hj)). lra.
Qed.
Lemma run_lobatto fuel N x0 v : (2 <= N <= 100)%nat -> newton_poly fuel (legendre_d1 N) (legendre_d2 N) x0 = Ok v -> near_root (P1 N) (INR N ^ 7 / 2 ^ 86) v.
Proof.
  intros HN E. destruct (lobatto_roots N) as (l & Ll & In & Inc & Z0). pose proof (increasing_distinct l (N - 1) Inc) as Dl.
  assert (NR : near_root (legendre_d1 N) (INR N ^ 7 / 2 ^ 86) v).
  2: { destruct NR as (r & R0 & B). exists r. rewrite <- legendre_d1_P by lia. auto. }
  apply (run_near fuel (legendre_d1 N) (legendre_d2 N) x0 v l (N - 1) N E); try lia; auto.
  - replace (N - 1 + 1)%nat with N by lia. destruct (ip_P1 N) as (c & Lc & Hc). exists c. split; [auto|]. intros u. rewrite legendre_d1_P by lia. auto.
  - intros i Hi. rewrite legendre_d1_P by lia. auto.
  - exists 1. rewrite legendre_d1_P by lia. apply P1_nz. lia.
  - intros u. rewrite legendre_d2_P by lia. apply (derivable_pt_lim_ext (P1 N)); [intros; rewrite legendre_d1_P by lia; auto|apply P1_der].
  - assert (P4 : 0 <= INR N ^ 4) by (apply pow_le, pos_INR). apply sorted_gap; [lra|auto|]. intros i j Hi Hj L.
    pose proof (lobatto_gap N _ _ ltac:(lia) (In i Hi) (In j Hj) L (Z0 i Hi) (Z0 j Hj)). lra.
Qed.

Lemma gauss_nodes_near fuel n (z z' : arr) : (1 <= n <= 100)%nat -> (n <= length z)%nat -> gauss_nodes (newton_poly fuel) z n = Ok z' ->
  length z' = length z /\ (forall k, (n <= k)%nat -> PolySpec.get z' k = PolySpec.get z k) /\ (forall i, (i < n)%nat -> PolySpec.get z' (n - 1 - i) = - PolySpec.get z' i) /\
  forall i, (i < n)%nat -> near_root (P n) (INR n ^ 7 / 2 ^ 86) (PolySpec.get z' i).
Proof.
  intros Hn L E. assert (E0 := E). unfold gauss_nodes in E. destruct (fill z 0 (n / 2) _) as [z1| | |] eqn:F; cbn [bind] in E; try discriminate.
  destruct (fill_run _ _ _ _ _ F) as (r & Hr).
  destruct (half_ok z 0 n (fun i => newton_poly fuel (legendre n) (legendre_d1 n) (gauss_start n i)) r) as (z2 & E2 & L' & O & V); [lia|exact Hr|].
  assert (E3 : gauss_nodes (newton_poly fuel) z n = Ok z2) by exact E2. rewrite E3 in E0. injection E0 as <-. cbn [Nat.add] in V.
  split; [auto|]. split; [intros; apply O; lia|]. split.
  - intros i Hi. rewrite !V by lia. apply whole_sym. auto.
  - intros i Hi. rewrite V by auto. apply (near_whole r n (P n) ((-1) ^ n)); auto.
    + intros x. apply P_opp.
    + apply P_mid.
    + apply delta_nonneg.
    + intros k Hk. apply (run_gauss fuel n (gauss_start n k)); [|apply Hr; auto]. pose proof (Nat.div_mod n 2 ltac:(lia)). pose proof (Nat.mod_upper_bound n 2 ltac:(lia)). lia.
Qed.
Lemma lobatto_nodes_near fuel n (z z' : arr) : (2 <= n <= 101)%nat -> (n <= length z)%nat -> lobatto_nodes_n (newton_poly fuel) z n = Ok z' ->
  length z' = length z /\ (forall k, (n <= k)%nat -> PolySpec.get z' k = PolySpec.get z k) /\ PolySpec.get z' 0 = -1 /\ PolySpec.get z' (n - 1) = 1 /\
  (forall i, (i < n)%nat -> PolySpec.get z' (n - 1 - i) = - PolySpec.get z' i) /\
  forall i, (1 <= i < n - 1)%nat -> near_root (P1 (n - 1)) (INR (n - 1) ^ 7 / 2 ^ 86) (PolySpec.get z' i).
Proof.
  intros Hn La E. unfold lobatto_nodes_n in E. rewrite wr_get in E by lia. cbn [bind] in E. rewrite wr_get in E by (rewrite upd_length'; lia). cbn [bind] in E.
  set (a1 := upd (upd z 0 (-1)) (n - 1) 1) in *. assert (L1 : length a1 = length z) by (unfold a1; rewrite !upd_length'; auto).
  assert (E0 := E). unfold lobatto_nodes_aux in E. destruct (fill a1 1 _ _) as [z1| | |] eqn:F; cbn [bind] in E; try discriminate.
  destruct (fill_run _ _ _ _ _ F) as (r & Hr).
  destruct (half_ok a1 1 (n - 2) (fun i => newton_poly fuel (legendre_d1 (n - 2 + 1)) (legendre_d2 (n - 2 + 1)) (lobatto_start (n - 2) i)) r) as (z2 & E2 & L' & O & V); [lia|exact Hr|].
  assert (E3 : lobatto_nodes_aux (newton_poly fuel) a1 1 (n - 2) = Ok z2) by exact E2. rewrite E3 in E0. injection E0 as <-. clear E E2 E3.
  assert (A : forall k, PolySpec.get a1 k = if (k =? n - 1)%nat then 1 else if (k =? 0)%nat then -1 else PolySpec.get z k).
  { intros k. unfold a1. rewrite !get_upd by (rewrite ?upd_length'; lia). auto. }
  assert (G0 : PolySpec.get z2 0 = -1). { rewrite O, A by lia. destruct (Nat.eqb_spec 0 (n - 1)); [lia|auto]. }
  assert (G1 : PolySpec.get z2 (n - 1) = 1). { rewrite O, A by lia. rewrite Nat.eqb_refl. auto. }
  assert (GI : forall i, (1 <= i < n - 1)%nat -> PolySpec.get z2 i = whole r (n - 2) (i - 1)). { intros i Hi. replace i with (1 + (i - 1))%nat at 1 by lia. apply V. lia. }
  split; [congruence|]. split; [|split; [auto|split; [auto|split]]].
  - intros k Hk. rewrite O, A by lia. destruct (Nat.eqb_spec k (n - 1)); [lia|]. destruct (Nat.eqb_spec k 0); [lia|auto].
  - intros i Hi. destruct (Nat.eq_dec i 0) as [->|]; [rewrite Nat.sub_0_r, G0, G1; ring|]. destruct (Nat.eq_dec i (n - 1)) as [->|]; [rewrite Nat.sub_diag, G0, G1; ring|].
    rewrite !GI by lia. replace (n - 1 - i - 1)%nat with (n - 2 - 1 - (i - 1))%nat by lia. apply whole_sym. lia.
  - intros i Hi. rewrite GI by auto. apply (near_whole r (n - 2) (P1 (n - 1)) (- (-1) ^ (n - 1))); try lia.
    + intros x. apply P1_opp.
    + intros Od. apply P1_mid. replace n with (n - 2 + 2)%nat by lia. rewrite Nat.odd_add, Od. auto.
    + apply delta_nonneg.
    + intros k Hk. pose proof (Nat.div_mod (n - 2) 2 ltac:(lia)). pose proof (Nat.mod_upper_bound (n - 2) 2 ltac:(lia)).
      specialize (Hr k Hk). cbv beta in Hr. replace (n - 2 + 1)%nat with (n - 1)%nat in Hr by lia. eapply run_lobatto; [lia|exact Hr].
Qed.
