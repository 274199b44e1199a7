(** lagrange_eval with arbitrary operations computes the products it names (after PolyProof1.v). *)
From Verif Require Import Base BaseLemmas Poly PolySpec PolyProof1 PolyRound.
From Coq Require Import Reals Lra.
Open Scope R_scope.

(** The arrays computed, for nodes z. *)
Section Arrays.
Variables add sub mul : R -> R -> R.
Variable z : nat -> R.
Variable n : nat.
Variable x : R.
Definition fdd (i : nat) : R := mul 2 (sub x (z i)).
Fixpoint fU0 (i : nat) : R := match i with O => 1 | S j => mul (fU0 j) (fdd j) end.
Fixpoint fU1 (i : nat) : R := match i with O => 0 | S j => add (mul (fU1 j) (fdd j)) (fU0 j) end.
Fixpoint fU2 (i : nat) : R := match i with O => 0 | S j => add (mul (fU2 j) (fdd j)) (mul 2 (fU1 j)) end.
(** The same from the end: value at n-1-k. *)
Fixpoint fW0 (k : nat) : R := match k with O => 1 | S j => mul (fdd (n - 1 - j)) (fW0 j) end.
Fixpoint fW1 (k : nat) : R := match k with O => 0 | S j => add (mul (fdd (n - 1 - j)) (fW1 j)) (fW0 j) end.
Fixpoint fW2 (k : nat) : R := match k with O => 0 | S j => add (mul (fdd (n - 1 - j)) (fW2 j)) (mul 2 (fW1 j)) end.
Definition fV0 (i : nat) : R := fW0 (n - 1 - i).
Definition fV1 (i : nat) : R := fW1 (n - 1 - i).
Definition fV2 (i : nat) : R := fW2 (n - 1 - i).
Variable w : nat -> R.
Definition fL0 (i : nat) : R := mul (mul (w i) (fU0 i)) (fV0 i).
Definition fL1 (i : nat) : R := mul (mul 2 (w i)) (add (mul (fU1 i) (fV0 i)) (mul (fU0 i) (fV1 i))).
Definition fL2 (i : nat) : R := mul (mul 4 (w i)) (add (add (mul (fU2 i) (fV0 i)) (mul (mul 2 (fU1 i)) (fV1 i))) (mul (fU0 i) (fV2 i))).

Lemma fV0_last : fV0 (n - 1) = 1. Proof. unfold fV0. rewrite Nat.sub_diag. reflexivity. Qed.
Lemma fV1_last : fV1 (n - 1) = 0. Proof. unfold fV1. rewrite Nat.sub_diag. reflexivity. Qed.
Lemma fV2_last : fV2 (n - 1) = 0. Proof. unfold fV2. rewrite Nat.sub_diag. reflexivity. Qed.
Lemma fV0_step i : (1 <= i < n)%nat -> fV0 (i - 1) = mul (fdd i) (fV0 i).
Proof. intros H. unfold fV0. replace (n - 1 - (i - 1))%nat with (S (n - 1 - i)) by lia. cbn [fW0]. do 2 f_equal. lia. Qed.
Lemma fV1_step i : (1 <= i < n)%nat -> fV1 (i - 1) = add (mul (fdd i) (fV1 i)) (fV0 i).
Proof. intros H. unfold fV1, fV0. replace (n - 1 - (i - 1))%nat with (S (n - 1 - i)) by lia. cbn [fW1]. do 3 f_equal. lia. Qed.
Lemma fV2_step i : (1 <= i < n)%nat -> fV2 (i - 1) = add (mul (fdd i) (fV2 i)) (mul 2 (fV1 i)).
Proof. intros H. unfold fV2, fV1. replace (n - 1 - (i - 1))%nat with (S (n - 1 - i)) by lia. cbn [fW2]. do 3 f_equal. lia. Qed.

Lemma feval_ok p data der : (1 <= n)%nat -> (9 * n <= length data)%nat -> (n * (der + 1) <= length p)%nat -> (der <= 2)%nat ->
  reg data 0 n z -> reg data n n w ->
  exists p' data', lagrange_eval_fl add sub mul p data n der x = Ok (p', data') /\
    same_out data data' (2 * n) (7 * n) /\ same_out p p' 0 (n * (der + 1)) /\
    reg p' 0 n fL0 /\
    ((1 <= der)%nat -> reg p' n n fL1) /\ ((2 <= der)%nat -> reg p' (2 * n) n fL2).
Proof.
  intros Hn Hd Hp Hder Rz Rw. unfold lagrange_eval_fl. destruct (Nat.eqb_spec n 0); [lia|].
  (* d *)
  lazymatch goal with |- context [fill ?a ?o ?n0 ?f] => destruct (fill_ok a o n0 f (fdd)) as (m1 & E1 & S1 & R1) end; [lia| |rewrite E1; cbn [bind]; clear E1].
  { intros m' i Hi [L H] _. rewrite rd_get by lia. cbn [bind]. rewrite H by lia. rewrite (Rz i Hi). reflexivity. }
  pose proof (same_out_reg _ _ _ _ _ _ _ S1 Rw ltac:(lia)) as Rw1.
  assert (Lm1 : length m1 = length data) by apply S1.
  (* u0 *)
  lazymatch goal with |- context [sweep_up ?a ?o ?n0 ?i0 ?f] => destruct (sweep_up_ok a o n0 i0 f (fU0)) as (m2 & E2 & S2 & R2) end; [lia|lia|reflexivity| |rewrite E2; cbn [bind]; clear E2].
  { intros m' i Hi [L H] Hu. rewrite rd_get by lia. cbn [bind]. rewrite rd_get by lia. cbn [bind]. rewrite Hu, (H (2 * n + i)%nat), R1 by lia. rewrite Nat.add_1_r. reflexivity. }
  assert (Lm2 : length m2 = length data) by (destruct S2; lia).
  pose proof (same_out_reg _ _ _ _ _ _ _ S2 Rw1 ltac:(lia)) as Rw2. pose proof (same_out_reg _ _ _ _ _ _ _ S2 R1 ltac:(lia)) as Rd2.
  (* v0 *)
  lazymatch goal with |- context [sweep_down ?a ?o ?n0 ?i0 ?f] => destruct (sweep_down_ok a o n0 i0 f (fV0)) as (m3 & E3 & S3 & R3) end; [lia|lia|apply fV0_last| |rewrite E3; cbn [bind]; clear E3].
  { intros m' i Hi [L H] Hu. rewrite rd_get by lia. cbn [bind]. rewrite rd_get by lia. cbn [bind]. rewrite Hu, (H (2 * n + i)%nat), Rd2 by lia. rewrite fV0_step by auto. reflexivity. }
  assert (Lm3 : length m3 = length data) by (destruct S3; lia).
  pose proof (same_out_reg _ _ _ _ _ _ _ S3 Rw2 ltac:(lia)) as Rw3. pose proof (same_out_reg _ _ _ _ _ _ _ S3 Rd2 ltac:(lia)) as Rd3.
  pose proof (same_out_reg _ _ _ _ _ _ _ S3 R2 ltac:(lia)) as Ru3.
  (* p *)
  lazymatch goal with |- context [fill ?a ?o ?n0 ?f] => destruct (fill_ok a o n0 f fL0) as (p1 & F1 & T1 & Q1) end; [nia| |rewrite F1; cbn [bind]; clear F1].
  { intros m' i Hi _ _. rewrite rd_get by lia. cbn [bind]. rewrite rd_get by lia. cbn [bind]. rewrite rd_get by lia. cbn [bind].
    rewrite (Rw3 i Hi), (Ru3 i Hi), (R3 i Hi). reflexivity. }
  assert (A3 : same_out data m3 (2 * n) (7 * n)).
  { pose proof (same_out_trans _ _ _ _ _ _ _ (2 * n) (9 * n) S1 S2 ltac:(lia) ltac:(lia) ltac:(lia) ltac:(lia)) as T.
    pose proof (same_out_trans _ _ _ _ _ _ _ (2 * n) (9 * n) T S3 ltac:(lia) ltac:(lia) ltac:(lia) ltac:(lia)) as T'. eapply same_out_wide; [exact T'|lia|lia]. }
  assert (Lp1 : length p1 = length p) by apply T1.
  destruct (Nat.eqb_spec der 0) as [->|Hd0].
  { eexists; eexists. split; [reflexivity|]. split; [exact A3|]. split; [eapply same_out_wide; [exact T1|lia|lia]|]. split; [exact Q1|]. split; intros; lia. }
  (* u1 *)
  lazymatch goal with |- context [sweep_up ?a ?o ?n0 ?i0 ?f] => destruct (sweep_up_ok a o n0 i0 f (fU1)) as (m4 & E4 & S4 & R4) end; [lia|lia|reflexivity| |rewrite E4; cbn [bind]; clear E4].
  { intros m' i Hi [L H] Hu. rewrite rd_get by lia. cbn [bind]. rewrite rd_get by lia. cbn [bind]. rewrite rd_get by lia. cbn [bind].
    rewrite Hu, (H (2 * n + i)%nat), (H (3 * n + i)%nat), Rd3, Ru3 by lia. rewrite Nat.add_1_r. reflexivity. }
  assert (Lm4 : length m4 = length data) by (destruct S4; lia).
  pose proof (same_out_reg _ _ _ _ _ _ _ S4 Rw3 ltac:(lia)) as Rw4. pose proof (same_out_reg _ _ _ _ _ _ _ S4 Rd3 ltac:(lia)) as Rd4.
  pose proof (same_out_reg _ _ _ _ _ _ _ S4 Ru3 ltac:(lia)) as Ru4. pose proof (same_out_reg _ _ _ _ _ _ _ S4 R3 ltac:(lia)) as Rv4.
  (* v1 *)
  lazymatch goal with |- context [sweep_down ?a ?o ?n0 ?i0 ?f] => destruct (sweep_down_ok a o n0 i0 f (fV1)) as (m5 & E5 & S5 & R5) end; [lia|lia|apply fV1_last| |rewrite E5; cbn [bind]; clear E5].
  { intros m' i Hi [L H] Hu. rewrite rd_get by lia. cbn [bind]. rewrite rd_get by lia. cbn [bind]. rewrite rd_get by lia. cbn [bind].
    rewrite Hu, (H (2 * n + i)%nat), (H (4 * n + i)%nat), Rd4, Rv4 by lia. rewrite fV1_step by auto. reflexivity. }
  assert (Lm5 : length m5 = length data) by (destruct S5; lia).
  pose proof (same_out_reg _ _ _ _ _ _ _ S5 Rw4 ltac:(lia)) as Rw5. pose proof (same_out_reg _ _ _ _ _ _ _ S5 Rd4 ltac:(lia)) as Rd5.
  pose proof (same_out_reg _ _ _ _ _ _ _ S5 Ru4 ltac:(lia)) as Ru5. pose proof (same_out_reg _ _ _ _ _ _ _ S5 Rv4 ltac:(lia)) as Rv5.
  pose proof (same_out_reg _ _ _ _ _ _ _ S5 R4 ltac:(lia)) as Rt5.
  (* p1 *)
  lazymatch goal with |- context [fill ?a ?o ?n0 ?f] => destruct (fill_ok a o n0 f fL1) as (p2 & F2 & T2 & Q2) end; [nia| |rewrite F2; cbn [bind]; clear F2].
  { intros m' i Hi _ _. rewrite rd_get by lia. cbn [bind]. rewrite rd_get by lia. cbn [bind]. rewrite rd_get by lia. cbn [bind].
    rewrite rd_get by lia. cbn [bind]. rewrite rd_get by lia. cbn [bind].
    rewrite (Rw5 i Hi), (Ru5 i Hi), (Rv5 i Hi), (R5 i Hi), (Rt5 i Hi). reflexivity. }
  assert (A5 : same_out data m5 (2 * n) (7 * n)).
  { pose proof (same_out_trans _ _ _ _ _ _ _ (2 * n) (9 * n) A3 S4 ltac:(lia) ltac:(lia) ltac:(lia) ltac:(lia)) as T.
    pose proof (same_out_trans _ _ _ _ _ _ _ (2 * n) (9 * n) T S5 ltac:(lia) ltac:(lia) ltac:(lia) ltac:(lia)) as T'. eapply same_out_wide; [exact T'|lia|lia]. }
  assert (Lp2 : length p2 = length p) by (destruct T2; lia).
  pose proof (same_out_reg _ _ _ _ _ _ _ T2 Q1 ltac:(lia)) as Q1'.
  pose proof (same_out_trans _ _ _ _ _ _ _ 0 (n * (der + 1)) T1 T2 ltac:(lia) ltac:(nia) ltac:(lia) ltac:(nia)) as T12. rewrite Nat.sub_0_r in T12.
  destruct (Nat.eqb_spec der 1) as [->|Hd1].
  { eexists; eexists. split; [reflexivity|]. split; [exact A5|]. split; [exact T12|]. split; [exact Q1'|]. split; intros; [exact Q2|lia]. }
  assert (der = 2%nat) as -> by lia.
  (* u2 *)
  lazymatch goal with |- context [sweep_up ?a ?o ?n0 ?i0 ?f] => destruct (sweep_up_ok a o n0 i0 f (fU2)) as (m6 & E6 & S6 & R6) end; [lia|lia|reflexivity| |rewrite E6; cbn [bind]; clear E6].
  { intros m' i Hi [L H] Hu. rewrite rd_get by lia. cbn [bind]. rewrite rd_get by lia. cbn [bind]. rewrite rd_get by lia. cbn [bind].
    rewrite Hu, (H (2 * n + i)%nat), (H (5 * n + i)%nat), Rd5, Rt5 by lia. rewrite Nat.add_1_r. reflexivity. }
  assert (Lm6 : length m6 = length data) by (destruct S6; lia).
  pose proof (same_out_reg _ _ _ _ _ _ _ S6 Rw5 ltac:(lia)) as Rw6. pose proof (same_out_reg _ _ _ _ _ _ _ S6 Rd5 ltac:(lia)) as Rd6.
  pose proof (same_out_reg _ _ _ _ _ _ _ S6 Ru5 ltac:(lia)) as Ru6. pose proof (same_out_reg _ _ _ _ _ _ _ S6 Rv5 ltac:(lia)) as Rv6.
  pose proof (same_out_reg _ _ _ _ _ _ _ S6 Rt5 ltac:(lia)) as Rt6. pose proof (same_out_reg _ _ _ _ _ _ _ S6 R5 ltac:(lia)) as Rs6.
  (* v2 *)
  lazymatch goal with |- context [sweep_down ?a ?o ?n0 ?i0 ?f] => destruct (sweep_down_ok a o n0 i0 f (fV2)) as (m7 & E7 & S7 & R7) end; [lia|lia|apply fV2_last| |rewrite E7; cbn [bind]; clear E7].
  { intros m' i Hi [L H] Hu. rewrite rd_get by lia. cbn [bind]. rewrite rd_get by lia. cbn [bind]. rewrite rd_get by lia. cbn [bind].
    rewrite Hu, (H (2 * n + i)%nat), (H (6 * n + i)%nat), Rd6, Rs6 by lia. rewrite fV2_step by auto. reflexivity. }
  assert (Lm7 : length m7 = length data) by (destruct S7; lia).
  pose proof (same_out_reg _ _ _ _ _ _ _ S7 Rw6 ltac:(lia)) as Rw7.
  pose proof (same_out_reg _ _ _ _ _ _ _ S7 Ru6 ltac:(lia)) as Ru7. pose proof (same_out_reg _ _ _ _ _ _ _ S7 Rv6 ltac:(lia)) as Rv7.
  pose proof (same_out_reg _ _ _ _ _ _ _ S7 Rt6 ltac:(lia)) as Rt7. pose proof (same_out_reg _ _ _ _ _ _ _ S7 Rs6 ltac:(lia)) as Rs7.
  pose proof (same_out_reg _ _ _ _ _ _ _ S7 R6 ltac:(lia)) as Rq7.
  (* p2 *)
  lazymatch goal with |- context [fill ?a ?o ?n0 ?f] => destruct (fill_ok a o n0 f fL2) as (p3 & F3 & T3 & Q3) end; [nia| |rewrite F3; cbn [bind]; clear F3].
  { intros m' i Hi _ _. do 7 (rewrite rd_get by lia; cbn [bind]).
    rewrite (Rw7 i Hi), (Ru7 i Hi), (Rv7 i Hi), (R7 i Hi), (Rt7 i Hi), (Rs7 i Hi), (Rq7 i Hi). reflexivity. }
  eexists; eexists. split; [reflexivity|]. split; [|split; [|split; [|split; intros]]].
  - pose proof (same_out_trans _ _ _ _ _ _ _ (2 * n) (9 * n) A5 S6 ltac:(lia) ltac:(lia) ltac:(lia) ltac:(lia)) as T.
    pose proof (same_out_trans _ _ _ _ _ _ _ (2 * n) (9 * n) T S7 ltac:(lia) ltac:(lia) ltac:(lia) ltac:(lia)) as T'. eapply same_out_wide; [exact T'|lia|lia].
  - pose proof (same_out_trans _ _ _ _ _ _ _ 0 (n * (2 + 1)) T12 T3 ltac:(lia) ltac:(nia) ltac:(lia) ltac:(nia)) as T. rewrite Nat.sub_0_r in T. exact T.
  - exact (same_out_reg _ _ _ _ _ _ _ T3 Q1' ltac:(lia)).
  - exact (same_out_reg _ _ _ _ _ _ _ T3 Q2 ltac:(lia)).
  - exact Q3.
Qed.
End Arrays.
