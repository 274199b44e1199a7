(** Positions, ranges and cell indices. *)
From Verif Require Import Base BaseLemmas ListLemmas Findpts FindptsSpec.
From Coq Require Import QArith Qround Lqa.
Open Scope nat_scope.

Section P1.
Variable F : doubles.
Notation dbl := (dbl F).
Notation val := (val F).
Variable rnd : Q -> Q.
Hypothesis R : rounding rnd.
Notation pos := (pos F rnd).

Lemma rnd_nonneg x : (0 <= x -> 0 <= rnd x)%Q.
Proof. intros H. pose proof (rnd_mono _ R _ _ H). rewrite (rnd_zero _ R) in H0. auto. Qed.

Definition wide (c : dbl * dbl) : Prop := (0 < rnd (val (snd c) - val (fst c)))%Q.

Lemma scaled_pos n c x : wide c -> scaled F rnd (fst c) (hash_fac F rnd n c) x = Ok (pos n c x).
Proof.
  intros H. unfold scaled, hash_fac. destruct (Qeq_bool _ 0) eqn:E.
  - apply Qeq_bool_eq in E. unfold wide in H. rewrite E in H. discriminate.
  - reflexivity.
Qed.

Lemma fac_nonneg n c : wide c -> (0 <= rnd (inject_Z (Z.of_nat n) / rnd (val (snd c) - val (fst c))))%Q.
Proof.
  intros H. apply rnd_nonneg. apply Qle_shift_div_l; auto. rewrite Qmult_0_l.
  replace 0%Q with (inject_Z 0) by auto. rewrite <- Zle_Qle. lia.
Qed.
Lemma pos_mono n c x y : wide c -> (val x <= val y -> pos n c x <= pos n c y)%Q.
Proof.
  intros H L. apply (rnd_mono _ R). apply Qmult_le_compat_r; [|apply fac_nonneg; auto].
  apply (rnd_mono _ R). lra.
Qed.
Lemma pos_nonneg n c x : wide c -> (val (fst c) <= val x -> 0 <= pos n c x)%Q.
Proof.
  intros H L. apply rnd_nonneg. apply Qmult_le_0_compat; [|apply fac_nonneg; auto].
  apply rnd_nonneg. lra.
Qed.
Lemma pos_top n c : wide c -> (pos n c (snd c) <= inject_Z (4 * Z.of_nat n))%Q.
Proof.
  intros H. unfold FindptsSpec.pos. unfold wide in H. set (d := rnd (val (snd c) - val (fst c))) in *.
  pose proof (fac_nonneg n c H) as Hf. fold d in Hf. set (f := rnd (inject_Z (Z.of_nat n) / d)) in *.
  assert (Hn : (0 <= inject_Z (Z.of_nat n))%Q) by (replace 0%Q with (inject_Z 0) by auto; rewrite <- Zle_Qle; lia).
  assert (H1 : (f <= 2 * (inject_Z (Z.of_nat n) / d))%Q).
  { apply (rnd_twice _ R). apply Qle_shift_div_l; auto. lra. }
  assert (H2 : (rnd (d * f) <= 2 * (d * f))%Q).
  { apply (rnd_twice _ R). apply Qmult_le_0_compat; lra. }
  assert (H3 : (d * f <= 2 * inject_Z (Z.of_nat n))%Q).
  { apply Qle_trans with (d * (2 * (inject_Z (Z.of_nat n) / d)))%Q.
    - rewrite !(Qmult_comm d). apply Qmult_le_compat_r; lra.
    - apply Qle_lteq. right. field. intros E. rewrite E in H. discriminate. }
  rewrite inject_Z_mult. replace (inject_Z 4) with 4%Q by auto. lra.
Qed.

Lemma Qfloor_bounds q a b : (inject_Z a <= q)%Q -> (q <= inject_Z b)%Q -> (a <= Qfloor q <= b)%Z.
Proof.
  intros H1 H2. split.
  - rewrite <- (Qfloor_Z a). apply Qfloor_resp_le; auto.
  - rewrite <- (Qfloor_Z b). apply Qfloor_resp_le; auto.
Qed.
Lemma Qceiling_bounds q a b : (inject_Z a <= q)%Q -> (q <= inject_Z b)%Q -> (a <= Qceiling q <= b)%Z.
Proof.
  intros H1 H2. split.
  - rewrite <- (Qceiling_Z a). apply Qceiling_resp_le; auto.
  - rewrite <- (Qceiling_Z b). apply Qceiling_resp_le; auto.
Qed.
Lemma Qfloor_lt q a : (q < inject_Z a)%Q -> (Qfloor q < a)%Z.
Proof. intros H. pose proof (Qfloor_le q). rewrite Zlt_Qlt. lra. Qed.

Section W.
Variable w : nat.
Hypothesis w1 : 1 <= w.

Lemma cvt_ok z : (- 2 ^ (8 * Z.of_nat w - 1) <= z < 2 ^ (8 * Z.of_nat w - 1))%Z -> cvt w z = Ok z.
Proof. intros H. unfold cvt. destruct (Z.leb_spec (- 2 ^ (8 * Z.of_nat w - 1)) z); [|lia].
  destruct (Z.ltb_spec z (2 ^ (8 * Z.of_nat w - 1))); [reflexivity|lia]. Qed.

Lemma pow_half : (2 ^ (8 * Z.of_nat w) = 2 * 2 ^ (8 * Z.of_nat w - 1))%Z.
Proof. rewrite <- Z.pow_succ_r by lia. f_equal. lia. Qed.
Lemma pow256 : Z.of_nat (256 ^ w) = (2 ^ (8 * Z.of_nat w))%Z.
Proof. rewrite Nat2Z.inj_pow. change (Z.of_nat 256) with (2 ^ 8)%Z. rewrite <- Z.pow_mul_r by lia. auto. Qed.

(** The number of cells is small enough for the signed type. *)
Definition few (n : nat) : Prop := (4 * Z.of_nat n < 2 ^ (8 * Z.of_nat w - 1))%Z.

Lemma few_lt n : few n -> n < 256 ^ w.
Proof. unfold few. intros H. apply Nat2Z.inj_lt. rewrite pow256, pow_half. lia. Qed.

(** The range of cells of an interval, and the cell of a coordinate. *)
Definition cell_of (n : nat) (c : dbl * dbl) (x : dbl) : nat :=
  Nat.min (n - 1) (Z.to_nat (Qfloor (pos n c x))).
Definition range_of (n : nat) (c : dbl * dbl) (r : dbl * dbl) : nat * nat :=
  let mn := Z.to_nat (Qfloor (pos n c (fst r))) in
  let mx := Nat.min n (Z.to_nat (Qceiling (pos n c (snd r)))) in
  (mn, if mx =? mn then mn + 1 else mx).

Lemma range_ok n c r : 1 <= n -> few n -> wide c ->
  (val (fst c) <= val (fst r))%Q -> (val (fst r) <= val (snd r))%Q -> (val (snd r) <= val (snd c))%Q ->
  (pos n c (fst r) < inject_Z (Z.of_nat n))%Q ->
  hash_range F rnd w n (fst c) (hash_fac F rnd n c) r = Ok (range_of n c r) /\
  fst (range_of n c r) < snd (range_of n c r) <= n.
Proof.
  intros Hn Hf Hw H1 H2 H3 Hc. unfold few in Hf.
  assert (P0 : (0 <= pos n c (fst r))%Q) by (apply pos_nonneg; auto).
  assert (P1 : (pos n c (fst r) <= pos n c (snd r))%Q) by (apply pos_mono; auto).
  assert (P2 : (pos n c (snd r) <= inject_Z (4 * Z.of_nat n))%Q).
  { eapply Qle_trans; [apply pos_mono; eauto|]. apply pos_top; auto. }
  assert (B0 : (0 <= Qfloor (pos n c (fst r)) < Z.of_nat n)%Z).
  { split; [|apply Qfloor_lt; auto]. apply (Qfloor_bounds _ 0 (4 * Z.of_nat n)); auto. lra. }
  assert (B1 : (0 <= Qceiling (pos n c (snd r)) <= 4 * Z.of_nat n)%Z).
  { apply Qceiling_bounds; auto. apply Qle_trans with (pos n c (fst r)); auto. }
  assert (B2 : (Qfloor (pos n c (fst r)) <= Qceiling (pos n c (snd r)))%Z).
  { rewrite Zle_Qle. pose proof (Qfloor_le (pos n c (fst r))). pose proof (Qle_ceiling (pos n c (snd r))). lra. }
  unfold hash_range. rewrite !scaled_pos by auto. cbn [bind].
  rewrite !cvt_ok by lia. cbn [bind].
  destruct (Z.ltb_spec (Qfloor (pos n c (fst r))) 0); [lia|].
  assert (E : to_unsigned w (Qceiling (pos n c (snd r))) = Z.to_nat (Qceiling (pos n c (snd r)))).
  { unfold to_unsigned. rewrite Z.mod_small; auto. rewrite pow_half. lia. }
  rewrite E.
  assert (Em : (if Z.to_nat (Qceiling (pos n c (snd r))) <? n then Z.to_nat (Qceiling (pos n c (snd r))) else n) =
               Nat.min n (Z.to_nat (Qceiling (pos n c (snd r))))).
  { destruct (Nat.ltb_spec (Z.to_nat (Qceiling (pos n c (snd r)))) n); lia. }
  rewrite Em. unfold range_of. cbn [fst snd].
  destruct (Nat.eqb_spec (Nat.min n (Z.to_nat (Qceiling (pos n c (snd r))))) (Z.to_nat (Qfloor (pos n c (fst r))))) as [Ee|Ee].
  - rewrite Ee. unfold wrap. pose proof (few_lt n Hf). rewrite Nat.mod_small by lia. split; auto. lia.
  - split; auto. lia.
Qed.

Lemma aux_ok n c x : wide c ->
  (- 2 ^ (8 * Z.of_nat w - 1) <= Qfloor (pos n c x) < 2 ^ (8 * Z.of_nat w - 1))%Z ->
  hash_index_aux F rnd w (fst c) (hash_fac F rnd n c) n x = Ok (cell_of n c x).
Proof.
  intros Hw H. unfold hash_index_aux. rewrite scaled_pos by auto. cbn [bind]. rewrite cvt_ok by auto. cbn [bind].
  f_equal. unfold cell_of. destruct (Z.ltb_spec (Qfloor (pos n c x)) 0).
  - lia.
  - destruct (Nat.ltb_spec (n - 1) (Z.to_nat (Qfloor (pos n c x)))); lia.
Qed.

Lemma cell_in_range n c r x : 1 <= n -> wide c ->
  (val (fst c) <= val (fst r))%Q -> (val (fst r) <= val x)%Q -> (val x <= val (snd r))%Q ->
  (pos n c (fst r) < inject_Z (Z.of_nat n))%Q ->
  (pos n c x < pos n c (snd r) \/ inject_Z (Z.of_nat n) <= pos n c (snd r))%Q ->
  fst (range_of n c r) <= cell_of n c x < snd (range_of n c r).
Proof.
  intros Hn Hw H1 H2 H3 Hc Ht.
  assert (P0 : (0 <= pos n c (fst r))%Q) by (apply pos_nonneg; auto).
  assert (P1 : (pos n c (fst r) <= pos n c x)%Q) by (apply pos_mono; auto).
  assert (P2 : (pos n c x <= pos n c (snd r))%Q) by (apply pos_mono; auto).
  pose proof (Qfloor_resp_le _ _ P1) as F1. pose proof (Qfloor_lt _ _ Hc) as F2.
  assert (F0 : (0 <= Qfloor (pos n c (fst r)))%Z) by (rewrite <- (Qfloor_Z 0); apply Qfloor_resp_le; auto).
  unfold range_of, cell_of. cbn [fst snd].
  set (fx := Qfloor (pos n c x)) in *. set (fm := Qfloor (pos n c (fst r))) in *.
  set (ce := Qceiling (pos n c (snd r))).
  assert (Hce : (fx <= ce)%Z).
  { rewrite Zle_Qle. pose proof (Qfloor_le (pos n c x)). pose proof (Qle_ceiling (pos n c (snd r))). fold fx in H. fold ce in H0. lra. }
  assert (Hlt : (fx < ce)%Z \/ (Z.of_nat n <= ce)%Z).
  { destruct Ht as [Ht|Ht].
    - left. rewrite Zlt_Qlt. pose proof (Qfloor_le (pos n c x)). pose proof (Qle_ceiling (pos n c (snd r))). fold fx in H. fold ce in H0. lra.
    - right. rewrite Zle_Qle. pose proof (Qle_ceiling (pos n c (snd r))). fold ce in H. lra. }
  split; [lia|]. destruct (Nat.eqb_spec (Nat.min n (Z.to_nat ce)) (Z.to_nat fm)); lia.
Qed.

End W.
End P1.
