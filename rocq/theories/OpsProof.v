(** The gs operations form commutative monoids; bpr is the longest common prefix. *)
From Verif Require Import Base Ops OpsSpec.
From Coq Require Import ZifyBool ZifyNat ZifyN.
Ltac Zify.zify_post_hook ::= idtac.

Lemma shiftr1_lt b : (0 < b)%N -> (N.shiftr b 1 < b)%N.
Proof. intros H. rewrite N.shiftr_div_pow2. change (2 ^ 1)%N with 2%N. apply N.div_lt; lia. Qed.

Lemma size_shiftr1 b : (0 < b)%N -> N.size_nat b = S (N.size_nat (N.shiftr b 1)).
Proof. destruct b as [|[p|p|]]; simpl; auto; lia. Qed.

Lemma shiftr_le x k : (N.shiftr x k <= x)%N.
Proof.
  rewrite N.shiftr_div_pow2. apply N.div_le_upper_bound; [apply N.pow_nonzero; lia|].
  assert (1 <= 2 ^ k)%N. { pose proof (N.pow_nonzero 2 k). lia. }
  nia.
Qed.

Lemma prefix_refl x : bin_prefix x x.
Proof. exists 0%N. apply N.shiftr_0_r. Qed.
Lemma prefix_trans x y z : bin_prefix x y -> bin_prefix y z -> bin_prefix x z.
Proof. intros [j <-] [k <-]. exists (k + j)%N. rewrite N.shiftr_shiftr. auto. Qed.
Lemma prefix_le x y : bin_prefix x y -> (x <= y)%N.
Proof. intros [k <-]. apply shiftr_le. Qed.
Lemma prefix_antisym x y : bin_prefix x y -> bin_prefix y x -> x = y.
Proof. intros H1 H2. apply prefix_le in H1, H2. lia. Qed.
Lemma prefix_shift1 x : bin_prefix (N.shiftr x 1) x.
Proof. exists 1%N; auto. Qed.

(** A prefix of x other than x itself is a prefix of x>>1. *)
Lemma prefix_proper q x : bin_prefix q x -> q <> x -> bin_prefix q (N.shiftr x 1).
Proof.
  intros [k <-] H. destruct (N.eq_dec k 0) as [->|Hk]; [rewrite N.shiftr_0_r in H; congruence|].
  exists (k - 1)%N. rewrite N.shiftr_shiftr. f_equal. lia.
Qed.

Lemma bpr_loop_ok : forall fuel a b, N.size_nat a + N.size_nat b < fuel ->
  exists r, bpr_loop fuel a b = Some r /\ longest_common_prefix r a b.
Proof.
  induction fuel as [|f IH]; intros a b H; [lia|]. cbn [bpr_loop].
  destruct (N.ltb_spec a b) as [Hab|Hab]; [|destruct (N.ltb_spec b a) as [Hba|Hba]].
  - rewrite (size_shiftr1 b) in H by lia.
    destruct (IH a (N.shiftr b 1)) as (r & R & Ha & Hb & Hm); [lia|].
    exists r. split; auto. split; auto. split; [eapply prefix_trans; [exact Hb|apply prefix_shift1]|].
    intros q Hqa Hqb. apply Hm; auto. apply prefix_proper; auto.
    intros ->. apply prefix_le in Hqa. lia.
  - rewrite (size_shiftr1 a) in H by lia.
    destruct (IH (N.shiftr a 1) b) as (r & R & Ha & Hb & Hm); [lia|].
    exists r. split; auto. split; [eapply prefix_trans; [exact Ha|apply prefix_shift1]|]. split; auto.
    intros q Hqa Hqb. apply Hm; auto. apply prefix_proper; auto.
    intros ->. apply prefix_le in Hqb. lia.
  - assert (a = b) by lia. subst b. exists a. split; auto. split; [|split]; auto using prefix_refl.
Qed.

Lemma lcp_unique p q x y : longest_common_prefix p x y -> longest_common_prefix q x y -> p = q.
Proof. intros (A1 & A2 & A3) (B1 & B2 & B3). apply prefix_antisym; auto. Qed.

Lemma lcp_sym p x y : longest_common_prefix p x y -> longest_common_prefix p y x.
Proof. intros (A1 & A2 & A3). split; [|split]; auto. Qed.

Lemma lcp_assoc x y z xy yz p q : longest_common_prefix xy x y -> longest_common_prefix yz y z ->
  longest_common_prefix p xy z -> longest_common_prefix q x yz -> p = q.
Proof.
  intros (A1 & A2 & A3) (B1 & B2 & B3) (C1 & C2 & C3) (D1 & D2 & D3).
  apply prefix_antisym.
  - apply D3; [exact (prefix_trans _ _ _ C1 A1)|]. apply B3; [exact (prefix_trans _ _ _ C1 A2)|auto].
  - apply C3; [apply A3; [auto|exact (prefix_trans _ _ _ D2 B1)]|exact (prefix_trans _ _ _ D2 B2)].
Qed.

Lemma one_prefix x : (0 < x)%N -> bin_prefix 1 x.
Proof.
  intros H. exists (N.log2 x). rewrite N.shiftr_div_pow2.
  apply N.le_antisymm.
  - assert (x < 2 ^ N.succ (N.log2 x))%N by (apply N.log2_spec; auto).
    rewrite N.pow_succ_r' in H0. apply N.lt_succ_r. apply N.div_lt_upper_bound; lia.
  - assert (2 ^ N.log2 x <= x)%N by (apply N.log2_spec; auto).
    apply N.div_le_lower_bound; [apply N.pow_nonzero; lia|]. lia.
Qed.

Lemma lcp_pos p x y : longest_common_prefix p x y -> (0 < x)%N -> (0 < y)%N -> (0 < p)%N.
Proof.
  intros (_ & _ & H) Hx Hy. assert (Q : bin_prefix 1 p) by (apply H; apply one_prefix; auto).
  apply prefix_le in Q. lia.
Qed.

Local Open Scope Z_scope.

Lemma pow2_pos n : 0 <= n -> 0 < 2 ^ n.
Proof. intros; apply Z.pow_pos_nonneg; lia. Qed.

Lemma pow2_half w : 1 <= w -> 2 ^ w = 2 * 2 ^ (w - 1).
Proof. intros H. replace w with (Z.succ (w - 1)) at 1 by lia. rewrite Z.pow_succ_r by lia. auto. Qed.

Lemma swrap_id w z : 1 <= w -> in_range w z -> swrap w z = z.
Proof.
  unfold swrap, in_range. intros Hw H. rewrite (pow2_half w) by auto.
  rewrite Z.mod_small; lia.
Qed.

Lemma swrap_range w z : 1 <= w -> in_range w (swrap w z).
Proof.
  unfold swrap, in_range. intros Hw. pose proof (pow2_half w Hw) as E. rewrite E.
  pose proof (Z.mod_pos_bound (z + 2 ^ (w - 1)) (2 * 2 ^ (w - 1))).
  pose proof (pow2_pos (w - 1)). lia.
Qed.

(** swrap depends only on the residue. *)
Lemma swrap_mod w z z' : 1 <= w -> z mod 2 ^ w = z' mod 2 ^ w -> swrap w z = swrap w z'.
Proof.
  intros Hw H. unfold swrap. f_equal. pose proof (pow2_pos w ltac:(lia)).
  rewrite (Z.add_mod z), (Z.add_mod z'), H by lia. auto.
Qed.

Lemma swrap_residue w z : 1 <= w -> (swrap w z) mod 2 ^ w = z mod 2 ^ w.
Proof.
  intros Hw. unfold swrap. pose proof (pow2_pos w ltac:(lia)).
  rewrite Zminus_mod, Zmod_mod, <- Zminus_mod. f_equal. lia.
Qed.

(** ** bpr *)
Definition uns (lw a : Z) : N := Z.to_N (uwrap lw a).

Lemma uns_bound lw a : 0 <= lw -> Z.of_N (uns lw a) < 2 ^ lw.
Proof.
  intros H. unfold uns, uwrap. pose proof (Z.mod_pos_bound a (2 ^ lw) (pow2_pos lw H)). lia.
Qed.

Lemma uns_swrap w a : 1 <= w -> uns w (swrap w a) = uns w a.
Proof. intros H. unfold uns, uwrap. rewrite swrap_residue; auto. Qed.

Lemma swrap_uns w a : 1 <= w -> in_range w a -> swrap w (Z.of_N (uns w a)) = a.
Proof.
  intros Hw Hr. rewrite <- (swrap_id w a) at 2 by auto. apply swrap_mod; auto.
  unfold uns, uwrap. pose proof (Z.mod_pos_bound a (2 ^ w) (pow2_pos w ltac:(lia))).
  rewrite Z2N.id by lia. apply Zmod_mod.
Qed.

Lemma uns_inj w a b : 1 <= w -> in_range w a -> in_range w b -> uns w a = uns w b -> a = b.
Proof. intros Hw Ha Hb H. rewrite <- (swrap_uns w a), <- (swrap_uns w b), H; auto. Qed.

Lemma uns_of w n : 1 <= w -> (Z.of_N n < 2 ^ w) -> uns w (swrap w (Z.of_N n)) = n.
Proof.
  intros Hw H. rewrite uns_swrap by auto. unfold uns, uwrap. rewrite Z.mod_small; lia.
Qed.

(** bpr on unsigned values, with 0 as "no value yet". *)
Lemma do_bpr_spec w a b : 1 <= w -> in_range w a -> in_range w b ->
  exists r, do_bpr w w a b = Some r /\ in_range w r /\
    (b = 0 -> r = a) /\ (a = 0 -> r = b) /\
    (a <> 0 -> b <> 0 -> longest_common_prefix (uns w r) (uns w a) (uns w b) /\ r <> 0).
Proof.
  intros Hw Ha Hb. unfold do_bpr. fold (uns w a). fold (uns w b).
  destruct (Z.eqb_spec b 0) as [->|Hb0].
  - exists a. split; [auto|]. split; [auto|]. split; [auto|]. split; [auto|]. intros _ X; exfalso; auto.
  - assert (H0 : in_range w 0).
    { unfold in_range. pose proof (pow2_pos (w - 1)). lia. }
    assert (U0 : uns w 0 = 0%N) by (unfold uns, uwrap; rewrite Z.mod_0_l; auto; pose proof (pow2_pos w); lia).
    destruct (N.eqb_spec (uns w a) 0) as [E|E].
    + assert (a = 0) by (apply (uns_inj w); auto; congruence). subst a.
      exists b. rewrite swrap_uns by auto. split; [auto|]. split; [auto|]. split; [congruence|]. split; [auto|]. intros X; exfalso; auto.
    + destruct (bpr_loop_ok (S (N.size_nat (uns w a) + N.size_nat (uns w b))) (uns w a) (uns w b))
        as (r & R & L); [lia|].
      rewrite R. eexists. split; [reflexivity|].
      assert (Hr : Z.of_N r < 2 ^ w).
      { destruct L as (L1 & _). apply prefix_le in L1. pose proof (uns_bound w a). lia. }
      split; [apply swrap_range; auto|]. split; [congruence|].
      split; [intros ->; congruence|]. intros _ _. rewrite uns_of by auto. split; auto.
      assert (Hp : (0 < r)%N).
      { apply (lcp_pos r _ _ L); [lia|]. destruct (N.eq_dec (uns w b) 0) as [Eb|]; [|lia].
        exfalso. apply Hb0. apply (uns_inj w); [auto|auto|auto|congruence]. }
      intros X. apply (f_equal (uns w)) in X. rewrite uns_of, U0 in X by auto. lia.
Qed.

Lemma bpr_comm_monoid w : 1 <= w -> comm_monoid (in_range w) (do_bpr w w) 0.
Proof.
  intros Hw.
  assert (H0 : in_range w 0) by (unfold in_range; pose proof (pow2_pos (w - 1)); lia).
  constructor; auto.
  - intros a b Ha Hb. destruct (do_bpr_spec w a b Hw Ha Hb) as (r & R & Hr & _). eauto.
  - intros a b Ha Hb. destruct (do_bpr_spec w a b Hw Ha Hb) as (r & R & Hr & R1 & R2 & R3).
    destruct (do_bpr_spec w b a Hw Hb Ha) as (r' & R' & Hr' & R1' & R2' & R3').
    rewrite R, R'. f_equal.
    destruct (Z.eq_dec a 0) as [Ea|Ea]; [rewrite R2, R1'; auto|].
    destruct (Z.eq_dec b 0) as [Eb|Eb]; [rewrite R1, R2'; auto|].
    destruct (R3 Ea Eb) as [L _]. destruct (R3' Eb Ea) as [L' _].
    apply (uns_inj w); auto. eapply lcp_unique; eauto. apply lcp_sym; auto.
  - intros a b c ab bc Ha Hb Hc Eab Ebc.
    destruct (do_bpr_spec w a b Hw Ha Hb) as (r1 & R & Hr1 & A1 & A2 & A3).
    destruct (do_bpr_spec w b c Hw Hb Hc) as (r2 & R' & Hr2 & B1 & B2 & B3).
    rewrite R in Eab. injection Eab as ->. rewrite R' in Ebc. injection Ebc as ->.
    destruct (do_bpr_spec w ab c Hw Hr1 Hc) as (p & Rp & Hp & C1 & C2 & C3).
    destruct (do_bpr_spec w a bc Hw Ha Hr2) as (q & Rq & Hq & D1 & D2 & D3).
    rewrite Rp, Rq. f_equal.
    destruct (Z.eq_dec a 0) as [Ea|Ea].
    { specialize (D2 Ea). specialize (A2 Ea). congruence. }
    destruct (Z.eq_dec c 0) as [Ec|Ec].
    { specialize (C1 Ec). specialize (B1 Ec). congruence. }
    destruct (Z.eq_dec b 0) as [Eb|Eb].
    { specialize (A1 Eb). specialize (B2 Eb). congruence. }
    destruct (A3 Ea Eb) as [L1 N1]. destruct (B3 Eb Ec) as [L2 N2].
    destruct (C3 N1 Ec) as [L3 _]. destruct (D3 Ea N2) as [L4 _].
    apply (uns_inj w); auto. exact (lcp_assoc _ _ _ _ _ _ _ L1 L2 L3 L4).
  - intros a Ha. destruct (do_bpr_spec w 0 a Hw H0 Ha) as (r & R & Hr & R1 & R2 & R3). rewrite R, R2; auto.
Qed.

Ltac dlt := repeat match goal with |- context [?a <? ?b] => destruct (Z.ltb_spec a b) end.

Theorem do_op_comm_monoid w op : 2 <= w -> comm_monoid (in_range w) (do_op w w op) (identity w op).
Proof.
  intros Hw. assert (H1w : 1 <= w) by lia.
  assert (P : 1 <= 2 ^ (w - 1) /\ 2 <= 2 ^ (w - 1)).
  { replace (w - 1) with (Z.succ (w - 2)) by lia. rewrite Z.pow_succ_r by lia.
    pose proof (pow2_pos (w - 2)). lia. }
  destruct op; cbn [do_op identity].
  - constructor; intros; unfold do_op in *.
    + unfold in_range; nia.
    + eexists; split; [reflexivity|]. apply swrap_range; auto.
    + rewrite Z.add_comm; reflexivity.
    + injection H2 as <-. injection H3 as <-. f_equal. apply swrap_mod; auto.
      rewrite Z.add_mod, swrap_residue, <- Z.add_mod by (auto; pose proof (pow2_pos w); lia).
      rewrite (Z.add_mod a (swrap w (b + c))), swrap_residue, <- Z.add_mod by (auto; pose proof (pow2_pos w); lia).
      f_equal; lia.
    + rewrite Z.add_0_l, swrap_id; auto.
    + rewrite Z.add_0_r, swrap_id; auto.
  - constructor; intros; unfold do_op in *.
    + unfold in_range; nia.
    + eexists; split; [reflexivity|]. apply swrap_range; auto.
    + rewrite Z.mul_comm; reflexivity.
    + injection H2 as <-. injection H3 as <-. f_equal. apply swrap_mod; auto.
      rewrite Z.mul_mod, swrap_residue, <- Z.mul_mod by (auto; pose proof (pow2_pos w); lia).
      rewrite (Z.mul_mod a (swrap w (b * c))), swrap_residue, <- Z.mul_mod by (auto; pose proof (pow2_pos w); lia).
      f_equal; lia.
    + rewrite Z.mul_1_l, swrap_id; auto.
    + rewrite Z.mul_1_r, swrap_id; auto.
  - unfold in_range. constructor; intros; unfold do_op in *.
    + lia.
    + eexists; split; [reflexivity|]. dlt; lia.
    + f_equal; dlt; lia.
    + injection H2 as <-. injection H3 as <-. f_equal.
      destruct (Z.ltb_spec b a), (Z.ltb_spec a b), (Z.ltb_spec c b), (Z.ltb_spec b c); dlt; lia.
    + f_equal; dlt; lia.
    + f_equal; dlt; lia.
  - unfold in_range. constructor; intros; unfold do_op in *.
    + lia.
    + eexists; split; [reflexivity|]. dlt; lia.
    + f_equal; dlt; lia.
    + injection H2 as <-. injection H3 as <-. f_equal.
      destruct (Z.ltb_spec b a), (Z.ltb_spec a b), (Z.ltb_spec c b), (Z.ltb_spec b c); dlt; lia.
    + f_equal; dlt; lia.
    + f_equal; dlt; lia.
  - apply bpr_comm_monoid; auto.
Qed.

(** bpr on a wider type: a monoid on the values that fit in uint. *)
Lemma do_bpr_wider w lw a b : 1 <= lw < w -> 0 <= a < 2 ^ lw -> 0 <= b < 2 ^ lw ->
  exists r, do_bpr w lw a b = Some r /\ 0 <= r < 2 ^ lw /\
    (b = 0 -> r = a) /\ (a = 0 -> r = b) /\
    (a <> 0 -> b <> 0 -> longest_common_prefix (Z.to_N r) (Z.to_N a) (Z.to_N b) /\ r <> 0).
Proof.
  intros Hw Ha Hb. unfold do_bpr.
  assert (U : forall x, 0 <= x < 2 ^ lw -> uwrap lw x = x) by (intros; apply Z.mod_small; auto).
  assert (I : forall x, 0 <= x < 2 ^ lw -> swrap w x = x).
  { intros x Hx. apply swrap_id; [lia|]. unfold in_range.
    assert (2 ^ lw <= 2 ^ (w - 1)) by (apply Z.pow_le_mono_r; lia). lia. }
  rewrite !U by auto.
  destruct (Z.eqb_spec b 0) as [->|Hb0].
  - exists a. split; [auto|]. split; [auto|]. split; [auto|]. split; [auto|]. intros _ X; exfalso; auto.
  - destruct (N.eqb_spec (Z.to_N a) 0) as [E|E].
    + exists b. rewrite Z2N.id, I by lia. split; [auto|]. split; [auto|]. split; [lia|]. split; [auto|]. intros X; exfalso; lia.
    + destruct (bpr_loop_ok (S (N.size_nat (Z.to_N a) + N.size_nat (Z.to_N b))) (Z.to_N a) (Z.to_N b))
        as (r & R & L); [lia|].
      rewrite R. eexists. split; [reflexivity|].
      assert (Hr : 0 <= Z.of_N r < 2 ^ lw).
      { destruct L as (L1 & _). apply prefix_le in L1. lia. }
      rewrite I by auto. split; auto. split; [congruence|]. split; [lia|]. intros _ _.
      rewrite N2Z.id. split; auto.
      assert (0 < r)%N by (apply (lcp_pos r _ _ L); lia). lia.
Qed.

Theorem bpr_comm_monoid_wider w lw : 1 <= lw < w ->
  comm_monoid (fun z => 0 <= z < 2 ^ lw) (do_op w lw gs_bpr) (identity w gs_bpr).
Proof.
  intros Hw. change (do_op w lw gs_bpr) with (do_bpr w lw). cbn [identity].
  assert (H0 : 0 <= 0 < 2 ^ lw) by (pose proof (pow2_pos lw); lia).
  constructor; auto.
  - intros a b Ha Hb. destruct (do_bpr_wider w lw a b Hw Ha Hb) as (r & R & Hr & _). eauto.
  - intros a b Ha Hb. destruct (do_bpr_wider w lw a b Hw Ha Hb) as (r & R & Hr & R1 & R2 & R3).
    destruct (do_bpr_wider w lw b a Hw Hb Ha) as (r' & R' & Hr' & R1' & R2' & R3').
    rewrite R, R'. f_equal.
    destruct (Z.eq_dec a 0) as [Ea|Ea]; [rewrite R2, R1'; auto|].
    destruct (Z.eq_dec b 0) as [Eb|Eb]; [rewrite R1, R2'; auto|].
    destruct (R3 Ea Eb) as [L _]. destruct (R3' Eb Ea) as [L' _].
    assert (Z.to_N r = Z.to_N r'); [|lia]. eapply lcp_unique; eauto. apply lcp_sym; auto.
  - intros a b c ab bc Ha Hb Hc Eab Ebc.
    destruct (do_bpr_wider w lw a b Hw Ha Hb) as (r1 & R & Hr1 & A1 & A2 & A3).
    destruct (do_bpr_wider w lw b c Hw Hb Hc) as (r2 & R' & Hr2 & B1 & B2 & B3).
    rewrite R in Eab. injection Eab as ->. rewrite R' in Ebc. injection Ebc as ->.
    destruct (do_bpr_wider w lw ab c Hw Hr1 Hc) as (p & Rp & Hp & C1 & C2 & C3).
    destruct (do_bpr_wider w lw a bc Hw Ha Hr2) as (q & Rq & Hq & D1 & D2 & D3).
    rewrite Rp, Rq. f_equal.
    destruct (Z.eq_dec a 0) as [Ea|Ea].
    { specialize (D2 Ea). specialize (A2 Ea). congruence. }
    destruct (Z.eq_dec c 0) as [Ec|Ec].
    { specialize (C1 Ec). specialize (B1 Ec). congruence. }
    destruct (Z.eq_dec b 0) as [Eb|Eb].
    { specialize (A1 Eb). specialize (B2 Eb). congruence. }
    destruct (A3 Ea Eb) as [L1 N1]. destruct (B3 Eb Ec) as [L2 N2].
    destruct (C3 N1 Ec) as [L3 _]. destruct (D3 Ea N2) as [L4 _].
    assert (Z.to_N p = Z.to_N q); [|lia]. exact (lcp_assoc _ _ _ _ _ _ _ L1 L2 L3 L4).
  - intros a Ha. destruct (do_bpr_wider w lw 0 a Hw H0 Ha) as (r & R & Hr & R1 & R2 & R3). rewrite R, R2; auto.
Qed.

Theorem bpr_is_lcp w a b : 1 <= w -> 0 < a < 2 ^ (w - 1) -> 0 < b < 2 ^ (w - 1) ->
  exists r, do_op w w gs_bpr a b = Some r /\ 0 < r /\
    longest_common_prefix (Z.to_N r) (Z.to_N a) (Z.to_N b).
Proof.
  intros Hw Ha Hb. cbn [do_op].
  assert (Ra : in_range w a) by (unfold in_range; lia). assert (Rb : in_range w b) by (unfold in_range; lia).
  destruct (do_bpr_spec w a b Hw Ra Rb) as (r & R & Hr & _ & _ & R3).
  destruct R3 as [L Nz]; [lia|lia|]. exists r. split; auto.
  assert (U : forall x, 0 <= x < 2 ^ (w - 1) -> uns w x = Z.to_N x).
  { intros x Hx. unfold uns, uwrap. rewrite Z.mod_small; auto. rewrite (pow2_half w) by auto. lia. }
  rewrite (U a), (U b) in L by lia.
  assert (Hr0 : 0 < r).
  { destruct (Z_lt_le_dec 0 r) as [|Hle]; auto. exfalso.
    assert (Z.of_N (uns w r) = r + 2 ^ w).
    { unfold uns, uwrap. rewrite <- (Z.mod_unique r (2 ^ w) (-1) (r + 2 ^ w)).
      - pose proof (pow2_half w Hw). unfold in_range in Hr. lia.
      - left. pose proof (pow2_half w Hw). unfold in_range in Hr. pose proof (pow2_pos (w-1)). lia.
      - lia. }
    destruct L as (L1 & _). apply prefix_le in L1. pose proof (pow2_half w Hw).
    unfold in_range in Hr. lia. }
  split; auto. rewrite U in L; auto. unfold in_range in Hr. lia.
Qed.

(** On a 64-bit long with 32-bit uint, 0 is not neutral for bpr. *)
Theorem bpr_long_truncates : exists a, in_range 64 a /\ do_op 64 32 gs_bpr (identity 64 gs_bpr) a <> Some a.
Proof.
  exists (2 ^ 32). split; [unfold in_range; simpl; lia|]. vm_compute. discriminate.
Qed.

(** ** Total operations on the type of w-bit integers *)
Lemma in_rangeb_spec w z : in_rangeb w z = true <-> in_range w z.
Proof. unfold in_rangeb, in_range. rewrite andb_true_iff, Z.leb_le, Z.ltb_lt. tauto. Qed.

Lemma int_w_eq w (a b : int_w w) : proj1_sig a = proj1_sig b -> a = b.
Proof.
  destruct a as [a Ha], b as [b Hb]. simpl. intros ->. f_equal. apply Eqdep_dec.UIP_dec. apply bool_dec.
Qed.

Lemma swrap_rangeb w z : 1 <= w -> in_rangeb w (swrap w z) = true.
Proof. intros H. apply in_rangeb_spec. apply swrap_range; auto. Qed.

Theorem int_domain_monoid w op : 2 <= w ->
  exists (f : int_w w -> int_w w -> int_w w) (e : int_w w),
    cmonoid f e /\ proj1_sig e = identity w op /\
    forall a b, do_op w w op (proj1_sig a) (proj1_sig b) = Some (proj1_sig (f a b)).
Proof.
  intros Hw. pose proof (do_op_comm_monoid w op Hw) as M.
  set (fz := fun a b => match do_op w w op a b with Some c => swrap w c | None => swrap w 0 end).
  exists (fun a b => exist _ (fz (proj1_sig a) (proj1_sig b))
            (match do_op w w op (proj1_sig a) (proj1_sig b) as o
               return in_rangeb w (match o with Some c => swrap w c | None => swrap w 0 end) = true
             with Some c => swrap_rangeb w c ltac:(lia) | None => swrap_rangeb w 0 ltac:(lia) end)).
  exists (exist _ (identity w op) (proj2 (in_rangeb_spec _ _) (cm_e _ _ _ M))).
  assert (Hf : forall a b, in_range w a -> in_range w b -> do_op w w op a b = Some (fz a b) /\ in_range w (fz a b)).
  { intros a b Ha Hb. destruct (cm_closed _ _ _ M a b Ha Hb) as (c & E & Hc). unfold fz. rewrite E.
    rewrite swrap_id by (auto; lia). auto. }
  assert (R : forall a : int_w w, in_range w (proj1_sig a)) by (intros [a Ha]; apply in_rangeb_spec; auto).
  split; [|split; [reflexivity|]].
  - constructor; intros; apply int_w_eq; cbn [proj1_sig].
    + pose proof (proj1 (Hf _ _ (R a) (R b))) as E1. pose proof (proj1 (Hf _ _ (R b) (R a))) as E2.
      rewrite (cm_comm _ _ _ M) in E1 by auto. congruence.
    + destruct (Hf _ _ (R a) (R b)) as [E1 R1]. destruct (Hf _ _ (R b) (R c)) as [E2 R2].
      pose proof (cm_assoc _ _ _ M _ _ _ _ _ (R a) (R b) (R c) E1 E2) as A.
      pose proof (proj1 (Hf _ _ R1 (R c))). pose proof (proj1 (Hf _ _ (R a) R2)). congruence.
    + pose proof (cm_id_l _ _ _ M _ (R a)) as E. unfold fz. rewrite E. apply swrap_id; auto; lia.
  - intros a b. cbn [proj1_sig]. apply Hf; auto.
Qed.
