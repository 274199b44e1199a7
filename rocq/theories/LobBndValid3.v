(** The basis functions for 2, 3 and 4 nodes. *)
From Verif Require Import Base BaseLemmas Poly PolySpec PolyProof1 PolyProof2 PolyImpSyntax PolyImp PolyGll PolyGllSpec PolyGllProof LobBnd LobBndSpec LobBndProof1 LobBndProof3 LobBndSetupProof1 LobBndSetupProof2 LobBndSetupProof3 LobBndValid1 LobBndValid2.
From Coq Require Import Reals Lra Psatz.
Open Scope R_scope.

Section Small.
Variable zs : arr.
Variable n : nat.
Hypothesis Sy : forall i, (i < n)%nat -> get zs (n - 1 - i) = - get zs i.
Hypothesis Zf : get zs 0 = -1.

Lemma basis_2 : n = 2%nat -> forall i, (i < n)%nat -> exists a0 a1, forall x, basis zs n i x = cub a0 a1 0 0 x.
Proof.
  intros E. rewrite E in *. pose proof (Sy 0%nat ltac:(lia)) as Z1. cbn [Nat.sub] in Z1. rewrite Zf in Z1. intros i Hi. destruct i as [|[|i]]; [| |lia].
  - exists (1/2), (-1/2). intros x. unfold basis, cub. cbn [rprod Nat.eqb]. rewrite Z1, Zf. field.
  - exists (1/2), (1/2). intros x. unfold basis, cub. cbn [rprod Nat.eqb]. rewrite Z1, Zf. field.
Qed.
Lemma basis_3 C : n = 3%nat -> forall i, (i < n)%nat -> exists a0 a1 a2 a3, (forall x, basis zs n i x = cub a0 a1 a2 a3 x) /\ end_cond a2 a3 C.
Proof.
  intros E. rewrite E in *. pose proof (Sy 0%nat ltac:(lia)) as Z2. pose proof (Sy 1%nat ltac:(lia)) as Z1. cbn [Nat.sub] in Z1, Z2. rewrite Zf in Z2. assert (Z1' : get zs 1 = 0) by lra.
  intros i Hi. destruct i as [|[|[|i]]]; [| | |lia].
  - exists 0, (-1/2), (1/2), 0. split; [|left; auto]. intros x. unfold basis, cub. cbn [rprod Nat.eqb]. rewrite Z1', Z2, Zf. field.
  - exists 1, 0, (-1), 0. split; [|left; auto]. intros x. unfold basis, cub. cbn [rprod Nat.eqb]. rewrite Z1', Z2, Zf. field.
  - exists 0, (1/2), (1/2), 0. split; [|left; auto]. intros x. unfold basis, cub. cbn [rprod Nat.eqb]. rewrite Z1', Z2, Zf. field.
Qed.
Lemma basis_4 C : n = 4%nat -> 433 / 500 <= C -> -1 < get zs 1 < 0 -> forall i, (i < n)%nat -> exists a0 a1 a2 a3, (forall x, basis zs n i x = cub a0 a1 a2 a3 x) /\ end_cond a2 a3 C.
Proof.
  intros E HC Hs. rewrite E in *. pose proof (Sy 0%nat ltac:(lia)) as Z3. pose proof (Sy 1%nat ltac:(lia)) as Z2. cbn [Nat.sub] in Z2, Z3. rewrite Zf in Z3.
  set (s := get zs 1) in *.
  assert (T : forall K e, Rabs e <= 1 -> end_cond (e * K) K C).
  { intros K e He. right. split; [|auto]. rewrite Rabs_mult. pose proof (Rabs_pos K). nra. }
  intros i Hi. destruct i as [|[|[|[|i]]]]; [| | | |lia].
  - exists (- (s * s) * (1 / (2 * (1 - s * s)))), (s * s * (1 / (2 * (1 - s * s)))), (1 / (2 * (1 - s * s))), (- (1 / (2 * (1 - s * s)))). split.
    + intros x. unfold basis, cub. cbn [rprod Nat.eqb]. fold s. rewrite Z2, Z3, Zf. field. split; [nra|]. split; lra.
    + replace (1 / (2 * (1 - s * s))) with (-1 * - (1 / (2 * (1 - s * s)))) at 1 by ring. apply T. rewrite Rabs_left; lra.
  - set (K := 1 / (2 * (s * (s * s - 1)))). exists (- s * K), (- K), (s * K), K. split.
    + intros x. unfold basis, cub, K. cbn [rprod Nat.eqb]. fold s. rewrite Z2, Z3, Zf. field. repeat split; try lra; nra.
    + apply T. rewrite Rabs_left; lra.
  - set (K := - (1 / (2 * (s * (s * s - 1))))). exists (s * K), (- K), (- s * K), K. split.
    + intros x. unfold basis, cub, K. cbn [rprod Nat.eqb]. fold s. rewrite Z2, Z3, Zf. field. repeat split; try lra; nra.
    + apply T. rewrite Rabs_pos_eq; lra.
  - set (K := 1 / (2 * (1 - s * s))). exists (- (s * s) * K), (- (s * s) * K), K, K. split.
    + intros x. unfold basis, cub, K. cbn [rprod Nat.eqb]. fold s. rewrite Z2, Z3, Zf. field. repeat split; try lra; nra.
    + rewrite <- (Rmult_1_l K) at 1. apply T. rewrite Rabs_pos_eq; lra.
Qed.
End Small.

Lemma gll_ends n : (2 <= n <= 24)%nat -> get (gll_list n) 0 = -1 /\ get (gll_list n) (n - 1) = 1.
Proof.
  intros Hn. split; [reflexivity|]. pose proof (lp_symmetric _ _ _ (gll_points (fun a _ => Ok a) n Hn) 0%nat ltac:(lia)) as H. rewrite Nat.sub_0_r in H. rewrite H. unfold gll_list, get. cbn [nth app]. lra.
Qed.

Lemma small_valid nn n m (data : arr) : (n = 2 /\ 2 <= m \/ n = 3 /\ 4 <= m \/ n = 4 /\ 7 <= m)%nat -> (lob_bnd_size n m <= length data)%nat ->
  exists data', lob_bnd_setup nn data n m = Ok data' /\ bound_data data' n m /\ setup_data (gll_list n) data' n m.
Proof.
  intros H HL. assert (Hn : (2 <= n <= 24)%nat) by lia. assert (Hm : (2 <= m)%nat) by lia. pose proof (gll_points nn n Hn) as LP. destruct (gll_ends n Hn) as [Zf Zl].
  destruct (setup_runs nn n m (gll_list n) data ltac:(lia) Hm LP HL) as (d & E & [L _] & SD). exists d. split; [auto|]. split; [|auto].
  apply (setup_bound_data (gll_list n)); auto; try lia; [apply gll_distinct; auto|].
  pose proof (lp_symmetric _ _ _ LP) as Sy. pose proof (lp_distinct _ _ _ LP) as D.
  destruct H as [[H H']|[[H H']|[H H']]].
  - apply (bounds_linear (gll_list n) d n m); auto; try lia. apply basis_2; auto.
  - apply (bounds_cubic (gll_list n) d n m); auto; try lia. apply basis_3; auto.
  - apply (bounds_cubic (gll_list n) d n m); auto; try lia. apply basis_4; auto.
    + apply C_big; lia.
    + destruct (table_parts n Hn) as (_ & _ & _ & I & _). pose proof (I 0%nat ltac:(lia)) as I0. pose proof (I 1%nat ltac:(lia)) as I1. pose proof (Sy 1%nat ltac:(lia)) as S1.
      rewrite H in *. cbn [Nat.sub] in *. lra.
Qed.
