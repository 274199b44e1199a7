(** Loops over arrays of reals; lagrange_eval computes the products it names. *)
From Verif Require Import Base BaseLemmas Poly PolySpec.
From Coq Require Import Reals Lra.
Open Scope R_scope.

Lemma rd_get (a : arr) i : (i < length a)%nat -> rd a i = Ok (get a i).
Proof. intros H. unfold rd, get. rewrite (nth_error_nth' a 0 H). reflexivity. Qed.
Lemma upd_length' {A} (l : list A) i v : length (upd l i v) = length l.
Proof. revert i. induction l as [|x l IH]; intros [|i]; cbn; auto. Qed.
Lemma get_upd (a : arr) i (v : R) k : (i < length a)%nat -> get (upd a i v) k = if (k =? i)%nat then v else get a k.
Proof.
  unfold get. revert i k. induction a as [|x a IH]; intros [|i] [|k] H; cbn [upd nth length Nat.eqb] in *; auto; try lia.
  apply IH. lia.
Qed.
Lemma wr_get (a : arr) i v : (i < length a)%nat -> wr a i v = Ok (upd a i v).
Proof. intros H. unfold wr. rewrite (proj2 (Nat.ltb_lt _ _) H). reflexivity. Qed.

(** m' is m except in [off,off+n). *)
Definition same_out (m m' : arr) (off n : nat) : Prop :=
  length m' = length m /\ forall k, (k < off \/ off + n <= k)%nat -> get m' k = get m k.
Definition reg (m : arr) (off n : nat) (f : nat -> R) : Prop := forall i, (i < n)%nat -> get m (off + i) = f i.

Lemma foldM_snoc {A S} (f : S -> A -> res S) l x s : foldM f (l ++ [x]) s = bind (foldM f l s) (fun s => f s x).
Proof.
  revert s. induction l as [|y l IH]; intros s; cbn [app foldM bind]; [destruct (f s x); reflexivity|].
  destruct (f s y); cbn [bind]; auto.
Qed.

Lemma fill_ok m off n f F : (off + n <= length m)%nat ->
  (forall m' i, (i < n)%nat -> same_out m m' off n -> reg m' off i F -> f m' i = Ok (F i)) ->
  exists m', fill m off n f = Ok m' /\ same_out m m' off n /\ reg m' off n F.
Proof.
  intros H Hf. unfold fill.
  assert (G : forall k, (k <= n)%nat -> exists m', foldM (fun a i => v <- f a i ;; wr a (off + i) v) (seq 0 k) m = Ok m' /\ same_out m m' off n /\ reg m' off k F).
  { induction k as [|k IH]; intros Hk.
    - exists m. split; [auto|]. split; [split; auto|]. intros i Hi. lia.
    - destruct IH as (m1 & E1 & [L1 O1] & R1); [lia|]. rewrite seq_S, foldM_snoc, E1. cbn [bind Nat.add].
      rewrite (Hf m1 k) by (auto; split; auto). cbn [bind]. rewrite wr_get by lia. eexists. split; [reflexivity|]. split; [split|].
      + rewrite upd_length'. auto.
      + intros j Hj. rewrite get_upd by lia. destruct (Nat.eqb_spec j (off + k)); [lia|auto].
      + intros i Hi. rewrite get_upd by lia. destruct (Nat.eqb_spec (off + i) (off + k)); [f_equal; lia|apply R1; lia]. }
  destruct (G n ltac:(lia)) as (m' & E & S & R). eauto.
Qed.

Lemma sweep_up_ok m off n init f F : (1 <= n)%nat -> (off + n <= length m)%nat -> F 0%nat = init ->
  (forall m' i, (i + 1 < n)%nat -> same_out m m' off n -> get m' (off + i) = F i -> f m' i = Ok (F (i + 1)%nat)) ->
  exists m', sweep_up m off n init f = Ok m' /\ same_out m m' off n /\ reg m' off n F.
Proof.
  intros Hn H H0 Hf. unfold sweep_up. rewrite wr_get by lia. cbn [bind].
  assert (G : forall k, (k <= n - 1)%nat -> exists m', foldM (fun a i => v <- f a i ;; wr a (off + i + 1) v) (seq 0 k) (upd m off init) = Ok m' /\ same_out m m' off n /\ reg m' off (k + 1) F).
  { induction k as [|k IH]; intros Hk.
    - eexists. split; [reflexivity|]. split; [split|].
      + apply upd_length'.
      + intros j Hj. rewrite get_upd by lia. destruct (Nat.eqb_spec j off); [lia|auto].
      + intros i Hi. replace i with 0%nat by lia. rewrite get_upd by lia. rewrite Nat.add_0_r, Nat.eqb_refl. auto.
    - destruct IH as (m1 & E1 & [L1 O1] & R1); [lia|]. rewrite seq_S, foldM_snoc, E1. cbn [bind Nat.add].
      rewrite (Hf m1 k); [|lia|split; auto|apply R1; lia]. cbn [bind]. rewrite wr_get by lia. eexists. split; [reflexivity|]. split; [split|].
      + rewrite upd_length'. auto.
      + intros j Hj. rewrite get_upd by lia. destruct (Nat.eqb_spec j (off + k + 1)); [lia|auto].
      + intros i Hi. rewrite get_upd by lia. destruct (Nat.eqb_spec (off + i) (off + k + 1)); [f_equal; lia|apply R1; lia]. }
  destruct (G (n - 1)%nat ltac:(lia)) as (m' & E & S & R). exists m'. split; [auto|]. split; [auto|]. intros i Hi. apply R. lia.
Qed.

Lemma sweep_down_ok m off n init f F : (1 <= n)%nat -> (off + n <= length m)%nat -> F (n - 1)%nat = init ->
  (forall m' i, (1 <= i < n)%nat -> same_out m m' off n -> get m' (off + i) = F i -> f m' i = Ok (F (i - 1)%nat)) ->
  exists m', sweep_down m off n init f = Ok m' /\ same_out m m' off n /\ reg m' off n F.
Proof.
  intros Hn H H0 Hf. unfold sweep_down. rewrite wr_get by lia. cbn [bind].
  assert (G : forall k, (k <= n - 1)%nat -> exists m', foldM (fun a i => v <- f a i ;; wr a (off + i - 1) v) (rev (seq (n - k) k)) (upd m (off + n - 1) init) = Ok m' /\
            same_out m m' off n /\ forall i, (n - 1 - k <= i < n)%nat -> get m' (off + i) = F i).
  { induction k as [|k IH]; intros Hk.
    - eexists. split; [reflexivity|]. split; [split|].
      + apply upd_length'.
      + intros j Hj. rewrite get_upd by lia. destruct (Nat.eqb_spec j (off + n - 1)); [lia|auto].
      + intros i Hi. replace i with (n - 1)%nat by lia. rewrite get_upd by lia. replace (off + (n - 1))%nat with (off + n - 1)%nat by lia. rewrite Nat.eqb_refl. auto.
    - destruct IH as (m1 & E1 & [L1 O1] & R1); [lia|]. replace (n - S k)%nat with (n - k - 1)%nat by lia. cbn [seq rev].
      replace (S (n - k - 1)) with (n - k)%nat by lia. rewrite foldM_snoc, E1. cbn [bind].
      rewrite (Hf m1 (n - k - 1)%nat); [|lia|split; auto|apply R1; lia]. cbn [bind]. rewrite wr_get by lia. eexists. split; [reflexivity|]. split; [split|].
      + rewrite upd_length'. auto.
      + intros j Hj. rewrite get_upd by lia. destruct (Nat.eqb_spec j (off + (n - k - 1) - 1)); [lia|auto].
      + intros i Hi. rewrite get_upd by lia. destruct (Nat.eqb_spec (off + i) (off + (n - k - 1) - 1)); [f_equal; lia|apply R1; lia]. }
  destruct (G (n - 1)%nat ltac:(lia)) as (m' & E & S & R). replace (n - (n - 1))%nat with 1%nat in E by lia. exists m'. split; [auto|]. split; [auto|]. intros i Hi. apply R. lia.
Qed.

Lemma same_out_trans m m' m'' off n off' n' lo hi : same_out m m' off n -> same_out m' m'' off' n' ->
  (lo <= off)%nat -> (off + n <= hi)%nat -> (lo <= off')%nat -> (off' + n' <= hi)%nat -> same_out m m'' lo (hi - lo).
Proof.
  intros [L1 H1] [L2 H2] A B C D. split; [congruence|]. intros k Hk. rewrite H2, H1 by lia. auto.
Qed.
Lemma same_out_reg m m' off n o k f : same_out m m' off n -> reg m o k f -> (o + k <= off \/ off + n <= o)%nat -> reg m' o k f.
Proof. intros [_ H] R D i Hi. rewrite H by lia. apply R. auto. Qed.
Lemma same_out_wide m m' off n lo k : same_out m m' off n -> (lo <= off)%nat -> (off + n <= lo + k)%nat -> same_out m m' lo k.
Proof. intros [L H] A B. split; auto. intros j Hj. apply H. lia. Qed.

(** The arrays computed, for nodes z. *)
Section Arrays.
Variable z : nat -> R.
Variable n : nat.
Variable x : R.
Definition dd (i : nat) : R := 2 * (x - z i).
Fixpoint U0 (i : nat) : R := match i with O => 1 | S j => U0 j * dd j end.
Fixpoint U1 (i : nat) : R := match i with O => 0 | S j => U1 j * dd j + U0 j end.
Fixpoint U2 (i : nat) : R := match i with O => 0 | S j => U2 j * dd j + 2 * U1 j end.
(** The same from the end: value at n-1-k. *)
Fixpoint W0 (k : nat) : R := match k with O => 1 | S j => dd (n - 1 - j) * W0 j end.
Fixpoint W1 (k : nat) : R := match k with O => 0 | S j => dd (n - 1 - j) * W1 j + W0 j end.
Fixpoint W2 (k : nat) : R := match k with O => 0 | S j => dd (n - 1 - j) * W2 j + 2 * W1 j end.
Definition V0 (i : nat) : R := W0 (n - 1 - i).
Definition V1 (i : nat) : R := W1 (n - 1 - i).
Definition V2 (i : nat) : R := W2 (n - 1 - i).
Definition L0 (i : nat) : R := U0 i * V0 i.
Definition L1 (i : nat) : R := 2 * (U1 i * V0 i + U0 i * V1 i).
Definition L2 (i : nat) : R := 4 * (U2 i * V0 i + 2 * U1 i * V1 i + U0 i * V2 i).

Lemma V0_last : V0 (n - 1) = 1. Proof. unfold V0. rewrite Nat.sub_diag. reflexivity. Qed.
Lemma V1_last : V1 (n - 1) = 0. Proof. unfold V1. rewrite Nat.sub_diag. reflexivity. Qed.
Lemma V2_last : V2 (n - 1) = 0. Proof. unfold V2. rewrite Nat.sub_diag. reflexivity. Qed.
Lemma V0_step i : (1 <= i < n)%nat -> V0 (i - 1) = dd i * V0 i.
Proof. intros H. unfold V0. replace (n - 1 - (i - 1))%nat with (S (n - 1 - i)) by lia. cbn [W0]. do 2 f_equal. lia. Qed.
Lemma V1_step i : (1 <= i < n)%nat -> V1 (i - 1) = dd i * V1 i + V0 i.
Proof. intros H. unfold V1, V0. replace (n - 1 - (i - 1))%nat with (S (n - 1 - i)) by lia. cbn [W1]. do 3 f_equal. lia. Qed.
Lemma V2_step i : (1 <= i < n)%nat -> V2 (i - 1) = dd i * V2 i + 2 * V1 i.
Proof. intros H. unfold V2, V1. replace (n - 1 - (i - 1))%nat with (S (n - 1 - i)) by lia. cbn [W2]. do 3 f_equal. lia. Qed.

Variable w : nat -> R.
Lemma eval_ok p data der : (1 <= n)%nat -> (9 * n <= length data)%nat -> (n * (der + 1) <= length p)%nat -> (der <= 2)%nat ->
  reg data 0 n z -> reg data n n w ->
  exists p' data', lagrange_eval p data n der x = Ok (p', data') /\
    same_out data data' (2 * n) (7 * n) /\ same_out p p' 0 (n * (der + 1)) /\
    reg p' 0 n (fun i => w i * L0 i) /\
    ((1 <= der)%nat -> reg p' n n (fun i => w i * L1 i)) /\ ((2 <= der)%nat -> reg p' (2 * n) n (fun i => w i * L2 i)).
Proof.
  intros Hn Hd Hp Hder Rz Rw. unfold lagrange_eval. destruct (Nat.eqb_spec n 0); [lia|].
  (* d *)
  lazymatch goal with |- context [fill ?a ?o ?n0 ?f] => destruct (fill_ok a o n0 f (dd)) as (m1 & E1 & S1 & R1) end; [lia| |rewrite E1; cbn [bind]; clear E1].
  { intros m' i Hi [L H] _. rewrite rd_get by lia. cbn [bind]. rewrite H by lia. rewrite (Rz i Hi). reflexivity. }
  pose proof (same_out_reg _ _ _ _ _ _ _ S1 Rw ltac:(lia)) as Rw1.
  assert (Lm1 : length m1 = length data) by apply S1.
  (* u0 *)
  lazymatch goal with |- context [sweep_up ?a ?o ?n0 ?i0 ?f] => destruct (sweep_up_ok a o n0 i0 f (U0)) as (m2 & E2 & S2 & R2) end; [lia|lia|reflexivity| |rewrite E2; cbn [bind]; clear E2].
  { intros m' i Hi [L H] Hu. rewrite rd_get by lia. cbn [bind]. rewrite rd_get by lia. cbn [bind]. rewrite Hu, (H (2 * n + i)%nat), R1 by lia. rewrite Nat.add_1_r. reflexivity. }
  assert (Lm2 : length m2 = length data) by (destruct S2; lia).
  pose proof (same_out_reg _ _ _ _ _ _ _ S2 Rw1 ltac:(lia)) as Rw2. pose proof (same_out_reg _ _ _ _ _ _ _ S2 R1 ltac:(lia)) as Rd2.
  (* v0 *)
  lazymatch goal with |- context [sweep_down ?a ?o ?n0 ?i0 ?f] => destruct (sweep_down_ok a o n0 i0 f (V0)) as (m3 & E3 & S3 & R3) end; [lia|lia|apply V0_last| |rewrite E3; cbn [bind]; clear E3].
  { intros m' i Hi [L H] Hu. rewrite rd_get by lia. cbn [bind]. rewrite rd_get by lia. cbn [bind]. rewrite Hu, (H (2 * n + i)%nat), Rd2 by lia. rewrite V0_step by auto. reflexivity. }
  assert (Lm3 : length m3 = length data) by (destruct S3; lia).
  pose proof (same_out_reg _ _ _ _ _ _ _ S3 Rw2 ltac:(lia)) as Rw3. pose proof (same_out_reg _ _ _ _ _ _ _ S3 Rd2 ltac:(lia)) as Rd3.
  pose proof (same_out_reg _ _ _ _ _ _ _ S3 R2 ltac:(lia)) as Ru3.
  (* p *)
  lazymatch goal with |- context [fill ?a ?o ?n0 ?f] => destruct (fill_ok a o n0 f (fun i => w i * L0 i)) as (p1 & F1 & T1 & Q1) end; [nia| |rewrite F1; cbn [bind]; clear F1].
  { intros m' i Hi _ _. rewrite rd_get by lia. cbn [bind]. rewrite rd_get by lia. cbn [bind]. rewrite rd_get by lia. cbn [bind].
    rewrite (Rw3 i Hi), (Ru3 i Hi), (R3 i Hi). f_equal. unfold L0. ring. }
  assert (A3 : same_out data m3 (2 * n) (7 * n)).
  { pose proof (same_out_trans _ _ _ _ _ _ _ (2 * n) (9 * n) S1 S2 ltac:(lia) ltac:(lia) ltac:(lia) ltac:(lia)) as T.
    pose proof (same_out_trans _ _ _ _ _ _ _ (2 * n) (9 * n) T S3 ltac:(lia) ltac:(lia) ltac:(lia) ltac:(lia)) as T'. eapply same_out_wide; [exact T'|lia|lia]. }
  assert (Lp1 : length p1 = length p) by apply T1.
  destruct (Nat.eqb_spec der 0) as [->|Hd0].
  { eexists; eexists. split; [reflexivity|]. split; [exact A3|]. split; [eapply same_out_wide; [exact T1|lia|lia]|]. split; [exact Q1|]. split; intros; lia. }
  (* u1 *)
  lazymatch goal with |- context [sweep_up ?a ?o ?n0 ?i0 ?f] => destruct (sweep_up_ok a o n0 i0 f (U1)) as (m4 & E4 & S4 & R4) end; [lia|lia|reflexivity| |rewrite E4; cbn [bind]; clear E4].
  { intros m' i Hi [L H] Hu. rewrite rd_get by lia. cbn [bind]. rewrite rd_get by lia. cbn [bind]. rewrite rd_get by lia. cbn [bind].
    rewrite Hu, (H (2 * n + i)%nat), (H (3 * n + i)%nat), Rd3, Ru3 by lia. rewrite Nat.add_1_r. reflexivity. }
  assert (Lm4 : length m4 = length data) by (destruct S4; lia).
  pose proof (same_out_reg _ _ _ _ _ _ _ S4 Rw3 ltac:(lia)) as Rw4. pose proof (same_out_reg _ _ _ _ _ _ _ S4 Rd3 ltac:(lia)) as Rd4.
  pose proof (same_out_reg _ _ _ _ _ _ _ S4 Ru3 ltac:(lia)) as Ru4. pose proof (same_out_reg _ _ _ _ _ _ _ S4 R3 ltac:(lia)) as Rv4.
  (* v1 *)
  lazymatch goal with |- context [sweep_down ?a ?o ?n0 ?i0 ?f] => destruct (sweep_down_ok a o n0 i0 f (V1)) as (m5 & E5 & S5 & R5) end; [lia|lia|apply V1_last| |rewrite E5; cbn [bind]; clear E5].
  { intros m' i Hi [L H] Hu. rewrite rd_get by lia. cbn [bind]. rewrite rd_get by lia. cbn [bind]. rewrite rd_get by lia. cbn [bind].
    rewrite Hu, (H (2 * n + i)%nat), (H (4 * n + i)%nat), Rd4, Rv4 by lia. rewrite V1_step by auto. reflexivity. }
  assert (Lm5 : length m5 = length data) by (destruct S5; lia).
  pose proof (same_out_reg _ _ _ _ _ _ _ S5 Rw4 ltac:(lia)) as Rw5. pose proof (same_out_reg _ _ _ _ _ _ _ S5 Rd4 ltac:(lia)) as Rd5.
  pose proof (same_out_reg _ _ _ _ _ _ _ S5 Ru4 ltac:(lia)) as Ru5. pose proof (same_out_reg _ _ _ _ _ _ _ S5 Rv4 ltac:(lia)) as Rv5.
  pose proof (same_out_reg _ _ _ _ _ _ _ S5 R4 ltac:(lia)) as Rt5.
  (* p1 *)
  lazymatch goal with |- context [fill ?a ?o ?n0 ?f] => destruct (fill_ok a o n0 f (fun i => w i * L1 i)) as (p2 & F2 & T2 & Q2) end; [nia| |rewrite F2; cbn [bind]; clear F2].
  { intros m' i Hi _ _. rewrite rd_get by lia. cbn [bind]. rewrite rd_get by lia. cbn [bind]. rewrite rd_get by lia. cbn [bind].
    rewrite rd_get by lia. cbn [bind]. rewrite rd_get by lia. cbn [bind].
    rewrite (Rw5 i Hi), (Ru5 i Hi), (Rv5 i Hi), (R5 i Hi), (Rt5 i Hi). f_equal. unfold L1. ring. }
  assert (A5 : same_out data m5 (2 * n) (7 * n)).
  { pose proof (same_out_trans _ _ _ _ _ _ _ (2 * n) (9 * n) A3 S4 ltac:(lia) ltac:(lia) ltac:(lia) ltac:(lia)) as T.
    pose proof (same_out_trans _ _ _ _ _ _ _ (2 * n) (9 * n) T S5 ltac:(lia) ltac:(lia) ltac:(lia) ltac:(lia)) as T'. eapply same_out_wide; [exact T'|lia|lia]. }
  assert (Lp2 : length p2 = length p) by (destruct T2; lia).
  pose proof (same_out_reg _ _ _ _ _ _ _ T2 Q1 ltac:(lia)) as Q1'.
  pose proof (same_out_trans _ _ _ _ _ _ _ 0 (n * (der + 1)) T1 T2 ltac:(lia) ltac:(nia) ltac:(lia) ltac:(nia)) as T12. rewrite Nat.sub_0_r in T12.
  destruct (Nat.eqb_spec der 1) as [->|Hd1].
  { eexists; eexists. split; [reflexivity|]. split; [exact A5|]. split; [exact T12|]. split; [exact Q1'|]. split; intros; [exact Q2|lia]. }
  assert (der = 2%nat) as -> by lia.
  (* u2 *)
  lazymatch goal with |- context [sweep_up ?a ?o ?n0 ?i0 ?f] => destruct (sweep_up_ok a o n0 i0 f (U2)) as (m6 & E6 & S6 & R6) end; [lia|lia|reflexivity| |rewrite E6; cbn [bind]; clear E6].
  { intros m' i Hi [L H] Hu. rewrite rd_get by lia. cbn [bind]. rewrite rd_get by lia. cbn [bind]. rewrite rd_get by lia. cbn [bind].
    rewrite Hu, (H (2 * n + i)%nat), (H (5 * n + i)%nat), Rd5, Rt5 by lia. rewrite Nat.add_1_r. reflexivity. }
  assert (Lm6 : length m6 = length data) by (destruct S6; lia).
  pose proof (same_out_reg _ _ _ _ _ _ _ S6 Rw5 ltac:(lia)) as Rw6. pose proof (same_out_reg _ _ _ _ _ _ _ S6 Rd5 ltac:(lia)) as Rd6.
  pose proof (same_out_reg _ _ _ _ _ _ _ S6 Ru5 ltac:(lia)) as Ru6. pose proof (same_out_reg _ _ _ _ _ _ _ S6 Rv5 ltac:(lia)) as Rv6.
  pose proof (same_out_reg _ _ _ _ _ _ _ S6 Rt5 ltac:(lia)) as Rt6. pose proof (same_out_reg _ _ _ _ _ _ _ S6 R5 ltac:(lia)) as Rs6.
  (* v2 *)
  lazymatch goal with |- context [sweep_down ?a ?o ?n0 ?i0 ?f] => destruct (sweep_down_ok a o n0 i0 f (V2)) as (m7 & E7 & S7 & R7) end; [lia|lia|apply V2_last| |rewrite E7; cbn [bind]; clear E7].
  { intros m' i Hi [L H] Hu. rewrite rd_get by lia. cbn [bind]. rewrite rd_get by lia. cbn [bind]. rewrite rd_get by lia. cbn [bind].
    rewrite Hu, (H (2 * n + i)%nat), (H (6 * n + i)%nat), Rd6, Rs6 by lia. rewrite V2_step by auto. reflexivity. }
  assert (Lm7 : length m7 = length data) by (destruct S7; lia).
  pose proof (same_out_reg _ _ _ _ _ _ _ S7 Rw6 ltac:(lia)) as Rw7.
  pose proof (same_out_reg _ _ _ _ _ _ _ S7 Ru6 ltac:(lia)) as Ru7. pose proof (same_out_reg _ _ _ _ _ _ _ S7 Rv6 ltac:(lia)) as Rv7.
  pose proof (same_out_reg _ _ _ _ _ _ _ S7 Rt6 ltac:(lia)) as Rt7. pose proof (same_out_reg _ _ _ _ _ _ _ S7 Rs6 ltac:(lia)) as Rs7.
  pose proof (same_out_reg _ _ _ _ _ _ _ S7 R6 ltac:(lia)) as Rq7.
  (* p2 *)
  lazymatch goal with |- context [fill ?a ?o ?n0 ?f] => destruct (fill_ok a o n0 f (fun i => w i * L2 i)) as (p3 & F3 & T3 & Q3) end; [nia| |rewrite F3; cbn [bind]; clear F3].
  { intros m' i Hi _ _. do 7 (rewrite rd_get by lia; cbn [bind]).
    rewrite (Rw7 i Hi), (Ru7 i Hi), (Rv7 i Hi), (R7 i Hi), (Rt7 i Hi), (Rs7 i Hi), (Rq7 i Hi). f_equal. unfold L2. ring. }
  eexists; eexists. split; [reflexivity|]. split; [|split; [|split; [|split; intros]]].
  - pose proof (same_out_trans _ _ _ _ _ _ _ (2 * n) (9 * n) A5 S6 ltac:(lia) ltac:(lia) ltac:(lia) ltac:(lia)) as T.
    pose proof (same_out_trans _ _ _ _ _ _ _ (2 * n) (9 * n) T S7 ltac:(lia) ltac:(lia) ltac:(lia) ltac:(lia)) as T'. eapply same_out_wide; [exact T'|lia|lia].
  - pose proof (same_out_trans _ _ _ _ _ _ _ 0 (n * (2 + 1)) T12 T3 ltac:(lia) ltac:(nia) ltac:(lia) ltac:(nia)) as T. rewrite Nat.sub_0_r in T. exact T.
  - exact (same_out_reg _ _ _ _ _ _ _ T3 Q1' ltac:(lia)).
  - exact (same_out_reg _ _ _ _ _ _ _ T3 Q2 ltac:(lia)).
  - exact Q3.
Qed.
End Arrays.
