(** The bounds of lob_bnd_setup are right for at most 4 nodes if there are enough points. *)
From Verif Require Import Base BaseLemmas Poly PolySpec PolyProof1 PolyProof2 PolyImpSyntax PolyImp PolyGll PolyGllSpec PolyGllProof LobBnd LobBndSpec LobBndProof1 LobBndProof3 LobBndSetupProof1 LobBndSetupProof2 LobBndSetupProof3 LobBndValid1.
From Coq Require Import Reals Lra Psatz.
Open Scope R_scope.

(** The outermost points. *)
Section Points.
Variable m : nat.
Hypothesis Hm : (4 <= m)%nat.
Let C := cos (PI / INR (m - 1)).
Let Hm0 : INR (m - 1) <> 0. Proof. apply not_0_INR. lia. Qed.
Lemma cheb_sym k : (k < m)%nat -> cheb m (m - 1 - k) = - cheb m k.
Proof.
  intros Hk. unfold cheb. replace (m - 1 - (m - 1 - k))%nat with k by lia. rewrite (minus_INR (m - 1) k) by lia.
  replace ((INR (m - 1) - INR k) * PI / INR (m - 1)) with (PI - INR k * PI / INR (m - 1)) by (field; auto). rewrite Rtrigo_facts.cos_pi_minus. ring.
Qed.
Lemma cheb_m2 : cheb m (m - 2) = C.
Proof. unfold cheb, C. replace (m - 1 - (m - 2))%nat with 1%nat by lia. cbn [INR]. rewrite Rmult_1_l. auto. Qed.
Lemma cheb_m3 : cheb m (m - 3) = 2 * (C * C) - 1.
Proof.
  unfold cheb, C. replace (m - 1 - (m - 3))%nat with 2%nat by lia. cbn [INR]. replace ((1 + 1) * PI / INR (m - 1)) with (2 * (PI / INR (m - 1))) by (field; auto).
  rewrite cos_2a_cos. ring.
Qed.
Lemma cheb_1 : cheb m 1 = - C.
Proof. pose proof (cheb_sym (m - 2) ltac:(lia)) as H. rewrite cheb_m2 in H. rewrite <- H. f_equal. lia. Qed.
Lemma cheb_2 : cheb m 2 = 1 - 2 * (C * C).
Proof. pose proof (cheb_sym (m - 3) ltac:(lia)) as H. rewrite cheb_m3 in H. replace 2%nat with (m - 1 - (m - 3))%nat at 1 by lia. rewrite H. ring. Qed.
Lemma C_lt : C < 1.
Proof. pose proof (cheb_inc m (m - 2) ltac:(lia)) as H. replace (m - 2 + 1)%nat with (m - 1)%nat in H by lia. rewrite cheb_m2, cheb_last in H by lia. auto. Qed.
Lemma C_ge K th : (2 <= K)%nat -> (K + 1 <= m)%nat -> th = PI / INR K -> cos th <= C.
Proof.
  intros H1 H2 ->. unfold C. pose proof PI_RGT_0 as HP. assert (A : INR K <= INR (m - 1)) by (apply le_INR; lia). assert (B : 0 < INR K) by (apply lt_0_INR; lia).
  assert (2 <= INR K) by (replace 2 with (INR 2) by reflexivity; apply le_INR; lia).
  assert (X : / INR (m - 1) <= / INR K) by (apply Rinv_le_contravar; auto). assert (Y : 0 < / INR (m - 1)) by (apply Rinv_0_lt_compat; lra).
  assert (Z : / INR K <= 1) by (rewrite <- Rinv_1; apply Rinv_le_contravar; lra).
  unfold Rdiv. destruct (Req_dec (/ INR (m - 1)) (/ INR K)) as [E|E]; [rewrite E; lra|]. left. apply cos_decreasing_1; nra.
Qed.
Lemma C_half : 1 / 2 <= C.
Proof. rewrite <- cos_PI3. apply (C_ge 3); [lia|lia|]. f_equal. cbn [INR]. lra. Qed.
Lemma C_big : (7 <= m)%nat -> 433 / 500 <= C.
Proof.
  intros H. apply (Rle_trans _ (cos (PI / 6))).
  - rewrite cos_PI6. apply (Rmult_le_reg_r 2); [lra|]. replace (sqrt 3 / 2 * 2) with (sqrt 3) by field.
    rewrite <- (sqrt_square (433 / 500 * 2)) by lra. apply sqrt_le_1_alt. lra.
  - apply (C_ge 6); [lia|lia|]. f_equal. cbn [INR]. lra.
Qed.
End Points.

(** The condition on the coefficients. *)
Definition end_cond (a2 a3 C : R) : Prop := a3 = 0 \/ Rabs a2 <= Rabs a3 /\ 433 / 500 <= C.

Section LeftEnd.
Variable a0 a1 a2 a3 C : R.
Hypothesis HC : 1 / 2 <= C < 1.
Hypothesis HE : end_cond a2 a3 C.
Let f := cub a0 a1 a2 a3.
Let tg := tanc a0 a1 a2 a3.
Let c := (-1 + - C) / 2.
Let r := (- C - -1) / 2.
Let c' := (- C + (1 - 2 * (C * C))) / 2.
Let A := r * r * (a2 + 3 * a3 * c).
Let B := r * r * r * a3.
Let S_eq : tg c' (- C) - tg c (- C) - (-3 * A + 5 * B) = r * r * (4 * (a2 + 3 * a3 * c) - 4 * (r * a3) - (1 + 2 * C) * (1 + 2 * C) * (a2 + 2 * a3 * c' - a3 * C)).
Proof. unfold tg, tanc, cub, A, B, r, c, c'. field. Qed.
Lemma left_cond : A <= - Rabs B \/ 3 * Rabs B <= A /\ tg c' (- C) - tg c (- C) <= -3 * A + 5 * B.
Proof.
  assert (R2 : 0 < r * r) by (unfold r; nra). assert (R3 : 0 < r * r * r) by (unfold r in *; nra).
  assert (X : Rabs B = r * r * r * Rabs a3) by (unfold B; rewrite Rabs_mult, (Rabs_pos_eq (r * r * r)) by lra; auto).
  destruct HE as [H0|[H1 H2]].
  - destruct (Rle_lt_dec 0 a2) as [Ha|Ha].
    + right. rewrite X. rewrite H0, Rabs_R0. split; [unfold A; rewrite H0; nra|].
      assert (T := S_eq). rewrite H0 in T.
      assert (r * r * (4 * (a2 + 3 * 0 * c) - 4 * (r * 0) - (1 + 2 * C) * (1 + 2 * C) * (a2 + 2 * 0 * c' - 0 * C)) <= 0).
      { replace (r * r * (4 * (a2 + 3 * 0 * c) - 4 * (r * 0) - (1 + 2 * C) * (1 + 2 * C) * (a2 + 2 * 0 * c' - 0 * C))) with (- (r * r * (a2 * ((1 + 2 * C) * (1 + 2 * C) - 4)))) by ring.
        assert (0 <= r * r * (a2 * ((1 + 2 * C) * (1 + 2 * C) - 4))) by (apply Rmult_le_pos; [lra|apply Rmult_le_pos; [auto|nra]]). lra. }
      lra.
    + left. rewrite X, H0, Rabs_R0. unfold A. rewrite H0. nra.
  - pose proof (Rle_abs a2) as P1. pose proof (Rle_abs (- a2)) as P2. rewrite Rabs_Ropp in P2. destruct (Rle_lt_dec 0 a3) as [Ha|Ha].
    + rewrite (Rabs_pos_eq a3 Ha) in *. left. rewrite X. assert (a2 + 3 * a3 * c <= - (r * a3)) by (unfold c, r; nra).
      pose proof (Rmult_le_compat_l (r * r) _ _ ltac:(lra) H). unfold A. lra.
    + rewrite (Rabs_left a3 Ha) in *. right. rewrite X. split.
      * assert (3 * (r * - a3) <= a2 + 3 * a3 * c) by (unfold c, r; nra). pose proof (Rmult_le_compat_l (r * r) _ _ ltac:(lra) H). unfold A. lra.
      * assert (T := S_eq). assert (G : 4 * (a2 + 3 * a3 * c) - 4 * (r * a3) - (1 + 2 * C) * (1 + 2 * C) * (a2 + 2 * a3 * c' - a3 * C) <= 0).
        { replace (4 * (a2 + 3 * a3 * c) - 4 * (r * a3) - (1 + 2 * C) * (1 + 2 * C) * (a2 + 2 * a3 * c' - a3 * C)) with
            (- ((a2 - a3) * ((1 + 2 * C) * (1 + 2 * C) - 4)) + - a3 * ((1 + 2 * C) * (1 + 2 * C) * (2 - 2 * C - 2 * (C * C)) + 4 + 4 * C)) by (unfold c, r, c'; field).
          assert (0 <= (a2 - a3) * ((1 + 2 * C) * (1 + 2 * C) - 4)) by (apply Rmult_le_pos; [lra|nra]).
          assert (K : (1 + 2 * C) * (1 + 2 * C) * (2 - 2 * C - 2 * (C * C)) + 4 + 4 * C <= 0) by nra.
          assert (0 <= - a3 * - ((1 + 2 * C) * (1 + 2 * C) * (2 - 2 * C - 2 * (C * C)) + 4 + 4 * C)) by (apply Rmult_le_pos; lra). lra. }
        pose proof (Rmult_le_compat_l (r * r) _ _ ltac:(lra) G) as G'. lra.
Qed.
End LeftEnd.

Lemma cub_opp a0 a1 a2 a3 x : cub a0 (- a1) a2 (- a3) (- x) = cub a0 a1 a2 a3 x.
Proof. unfold cub. ring. Qed.
Lemma tanc_opp a0 a1 a2 a3 c x : tanc a0 (- a1) a2 (- a3) (- c) (- x) = tanc a0 a1 a2 a3 c x.
Proof. unfold tanc, cub. ring. Qed.
Lemma line_opp p q Lp Lq x : p < q -> line (- q) (- p) Lq Lp (- x) = line p q Lp Lq x.
Proof. intros H. unfold line. field. lra. Qed.

Section Valid.
Variable m : nat.
Hypothesis Hm : (4 <= m)%nat.
Let C := cos (PI / INR (m - 1)).
Variable a0 a1 a2 a3 : R.
Hypothesis HE : end_cond a2 a3 C.
Let f := cub a0 a1 a2 a3.
Let tg := tanc a0 a1 a2 a3.

Lemma cubic_valid lo : lo 0%nat = f (-1) -> lo (m - 1)%nat = f 1 ->
  (forall k, (0 < k < m - 1)%nat -> lo k <= tg (middle m (k - 1)) (cheb m k) /\ lo k <= tg (middle m k) (cheb m k) /\ lo k <= f (cheb m k)) ->
  forall k x, in_cell (cheb m) m k x -> lerp (cheb m) k lo x <= f x.
Proof.
  intros L0 L1 LI k x [Hk Hx]. change (line (cheb m k) (cheb m (k + 1)) (lo k) (lo (k + 1)%nat) x <= f x).
  pose proof (C_half m Hm) as C1. pose proof (C_lt m Hm) as C2. fold C in C1, C2.
  destruct (Nat.eq_dec k 0) as [->|Hk0]; [|destruct (Nat.eq_dec k (m - 2)) as [->|Hk2]].
  - cbn [Nat.add] in *. destruct (LI 1%nat) as (A & B & D); [lia|]. cbn [Nat.sub] in A. rewrite L0. unfold middle in *. cbn [Nat.add] in *.
    rewrite (cheb_1 m Hm), (cheb_2 m Hm), cheb_first in * by lia. fold C in A, B, D, Hx |- *.
    apply (left_cell a0 a1 a2 a3 (-1) (- C) ltac:(lra) (lo 1%nat) ((- C + (1 - 2 * (C * C))) / 2)); auto. apply (left_cond a0 a1); [lra|auto].
  - destruct (LI (m - 2)%nat) as (A & B & D); [lia|]. replace (m - 2 + 1)%nat with (m - 1)%nat in * by lia. rewrite L1. unfold middle in *.
    replace (m - 2 - 1 + 1)%nat with (m - 2)%nat in * by lia. replace (m - 2 - 1)%nat with (m - 3)%nat in * by lia. rewrite (cheb_m2 m Hm), (cheb_m3 m Hm), cheb_last in * by lia. fold C in A, B, D, Hx |- *.
    rewrite <- line_opp by lra. unfold f. rewrite <- !(cub_opp a0 a1 a2 a3).
    apply (left_cell a0 (- a1) a2 (- a3) (- (1)) (- C) ltac:(lra) (lo (m - 2)%nat) ((- C + (1 - 2 * (C * C))) / 2)).
    + lra.
    + rewrite cub_opp. auto.
    + replace ((- C + (1 - 2 * (C * C))) / 2) with (- ((2 * (C * C) - 1 + C) / 2)) by field. rewrite tanc_opp. exact A.
    + replace (- (1)) with (-1) by ring. apply (left_cond a0 (- a1)); [lra|]. destruct HE as [H|[H H']]; [left; lra|right]. rewrite Rabs_Ropp. auto.
  - destruct (LI k) as (_ & B & D); [lia|]. destruct (LI (k + 1)%nat) as (A' & _ & D'); [lia|]. replace (k + 1 - 1)%nat with k in A' by lia. unfold middle in *.
    apply inner_cell; auto. apply cheb_inc. auto.
Qed.
End Valid.

Lemma linear_valid m a0 a1 lo : (2 <= m)%nat -> (forall k, (k < m)%nat -> lo k <= cub a0 a1 0 0 (cheb m k)) -> forall k x, in_cell (cheb m) m k x -> lerp (cheb m) k lo x <= cub a0 a1 0 0 x.
Proof.
  intros Hm H k x [Hk Hx]. pose proof (cheb_inc m k Hk) as I. change (line (cheb m k) (cheb m (k + 1)) (lo k) (lo (k + 1)%nat) x <= cub a0 a1 0 0 x).
  eapply Rle_trans; [apply (line_mono _ _ _ _ (cub a0 a1 0 0 (cheb m k)) (cub a0 a1 0 0 (cheb m (k + 1)))); auto; apply H; lia|]. right. unfold line, cub. field. lra.
Qed.

(** From the data of lob_bnd_setup. *)
Section FromSetup.
Variable zs d : arr.
Variable n m : nat.
Hypothesis Hn : (2 <= n)%nat.
Hypothesis Hm : (2 <= m)%nat.
Hypothesis SD : setup_data zs d n m.
Hypothesis D : distinct zs n.
Hypothesis Zf : get zs 0 = -1.
Hypothesis Zl : get zs (n - 1) = 1.

Lemma basis_same i x : (i < n)%nat -> basis d n i x = basis zs n i x.
Proof. intros Hi. apply basis_ext; auto. intros j Hj. apply (sd_node _ _ _ _ SD). auto. Qed.
Lemma basis_first i : (i < n)%nat -> basis zs n i (-1) = if (i =? 0)%nat then 1 else 0.
Proof. intros Hi. rewrite <- Zf. rewrite basis_node_ by (auto; lia). rewrite Nat.eqb_sym. auto. Qed.
Lemma basis_last i : (i < n)%nat -> basis zs n i 1 = if (i =? n - 1)%nat then 1 else 0.
Proof. intros Hi. rewrite <- Zl at 1. rewrite basis_node_ by (auto; lia). rewrite Nat.eqb_sym. auto. Qed.

Lemma lerp_ext h h' k v x : (h k = h' k) -> h (k + 1)%nat = h' (k + 1)%nat -> lerp h k v x = lerp h' k v x.
Proof. unfold lerp. intros -> ->. auto. Qed.
Lemma lerp_neg h k v x : lerp h k (fun i => - v i) x = - lerp h k v x.
Proof. unfold lerp, Rdiv. ring. Qed.

Lemma tangent_cub a0 a1 a2 a3 i c x v : (forall x, basis zs n i x = cub a0 a1 a2 a3 x) -> tangent_value (basis zs n i) c x v -> v = tanc a0 a1 a2 a3 c x.
Proof.
  intros H (e & He & ->). unfold tanc. rewrite H. f_equal. f_equal. apply (uniqueness_limite (basis zs n i) c); [auto|].
  intros eps Heps. destruct (cub_der a0 a1 a2 a3 c eps Heps) as [dl Hd]. exists dl. intros. rewrite !H. auto.
Qed.

(** The facts about the bounds in terms of the cubic. *)
Lemma facts a0 a1 a2 a3 i : (i < n)%nat -> (forall x, basis zs n i x = cub a0 a1 a2 a3 x) ->
  (lower d n m i 0 = cub a0 a1 a2 a3 (-1) /\ upper d n m i 0 = cub a0 a1 a2 a3 (-1)) /\
  (lower d n m i (m - 1) = cub a0 a1 a2 a3 1 /\ upper d n m i (m - 1) = cub a0 a1 a2 a3 1) /\
  forall k, (0 < k < m - 1)%nat ->
    (lower d n m i k <= tanc a0 a1 a2 a3 (middle m (k - 1)) (cheb m k) /\ lower d n m i k <= tanc a0 a1 a2 a3 (middle m k) (cheb m k) /\ lower d n m i k <= cub a0 a1 a2 a3 (cheb m k)) /\
    (tanc a0 a1 a2 a3 (middle m (k - 1)) (cheb m k) <= upper d n m i k /\ tanc a0 a1 a2 a3 (middle m k) (cheb m k) <= upper d n m i k /\ cub a0 a1 a2 a3 (cheb m k) <= upper d n m i k).
Proof.
  intros Hi H. destruct (sd_first _ _ _ _ SD i Hi) as [-> ->]. destruct (sd_last _ _ _ _ SD i Hi) as [-> ->]. rewrite <- !H, basis_first, basis_last by auto.
  split; [auto|]. split; [auto|]. intros k Hk. destruct (sd_inner _ _ _ _ SD i k Hi Hk) as (cl & cr & Tl & Tr & -> & ->). rewrite <- (tangent_cub _ _ _ _ _ _ _ _ H Tl), <- (tangent_cub _ _ _ _ _ _ _ _ H Tr), H.
  pose proof (Rmin_l cl cr). pose proof (Rmin_r cl cr). pose proof (Rmax_l cl cr). pose proof (Rmax_r cl cr).
  pose proof (Rmin_l (Rmin cl cr) (cub a0 a1 a2 a3 (cheb m k))). pose proof (Rmin_r (Rmin cl cr) (cub a0 a1 a2 a3 (cheb m k))).
  pose proof (Rmax_l (Rmax cl cr) (cub a0 a1 a2 a3 (cheb m k))). pose proof (Rmax_r (Rmax cl cr) (cub a0 a1 a2 a3 (cheb m k))). lra.
Qed.

Lemma cell_cheb k x : in_cell (point d n) m k x -> in_cell (cheb m) m k x.
Proof. intros [Hk Hx]. split; [auto|]. rewrite !(sd_point _ _ _ _ SD) in Hx by lia. auto. Qed.

Lemma bounds_cubic : (4 <= m)%nat -> (forall i, (i < n)%nat -> exists a0 a1 a2 a3, (forall x, basis zs n i x = cub a0 a1 a2 a3 x) /\ end_cond a2 a3 (cos (PI / INR (m - 1)))) -> bounds_basis d n m.
Proof.
  intros Hm4 H i k x Hi Cx. destruct (H i Hi) as (a0 & a1 & a2 & a3 & E & HE). destruct (facts a0 a1 a2 a3 i Hi E) as ([F1 F2] & [F3 F4] & F5).
  pose proof (cell_cheb k x Cx) as Cx'. assert (Hk : (k + 1 < m)%nat) by apply Cx. rewrite !(lerp_ext (point d n) (cheb m)) by (apply (sd_point _ _ _ _ SD); lia).
  rewrite basis_same, E by auto. split.
  - apply cubic_valid; auto. intros k' Hk'. destruct (F5 k' Hk') as [Q _]. auto.
  - apply Ropp_le_cancel. rewrite <- lerp_neg. replace (- cub a0 a1 a2 a3 x) with (cub (- a0) (- a1) (- a2) (- a3) x) by (unfold cub; ring).
    apply cubic_valid; auto.
    + destruct HE as [G|[G G']]; [left; lra|right; rewrite !Rabs_Ropp; auto].
    + rewrite F2. unfold cub. ring.
    + rewrite F4. unfold cub. ring.
    + intros k' Hk'. destruct (F5 k' Hk') as [_ (Q1 & Q2 & Q3)].
      assert (TN : forall c y, tanc (- a0) (- a1) (- a2) (- a3) c y = - tanc a0 a1 a2 a3 c y) by (intros; unfold tanc, cub; ring). rewrite !TN.
      assert (CN : forall y, cub (- a0) (- a1) (- a2) (- a3) y = - cub a0 a1 a2 a3 y) by (intros; unfold cub; ring). rewrite CN. lra.
Qed.
Lemma bounds_linear : (forall i, (i < n)%nat -> exists a0 a1, forall x, basis zs n i x = cub a0 a1 0 0 x) -> bounds_basis d n m.
Proof.
  intros H i k x Hi Cx. destruct (H i Hi) as (a0 & a1 & E). destruct (facts a0 a1 0 0 i Hi E) as ([F1 F2] & [F3 F4] & F5).
  pose proof (cell_cheb k x Cx) as Cx'. assert (Hk : (k + 1 < m)%nat) by apply Cx. rewrite !(lerp_ext (point d n) (cheb m)) by (apply (sd_point _ _ _ _ SD); lia).
  assert (G : forall j, (j < m)%nat -> lower d n m i j <= cub a0 a1 0 0 (cheb m j) <= upper d n m i j).
  { intros j Hj. destruct (Nat.eq_dec j 0) as [->|]; [|destruct (Nat.eq_dec j (m - 1)) as [->|]].
    - rewrite F1, F2, cheb_first by auto. lra.
    - rewrite F3, F4, cheb_last by auto. lra.
    - destruct (F5 j ltac:(lia)) as [(_ & _ & A) (_ & _ & B)]. lra. }
  rewrite basis_same, E by auto. split.
  - apply linear_valid; auto. intros j Hj. apply G. auto.
  - apply Ropp_le_cancel. rewrite <- lerp_neg. replace (- cub a0 a1 0 0 x) with (cub (- a0) (- a1) 0 0 x) by (unfold cub; ring).
    apply linear_valid; auto. intros j Hj. specialize (G j Hj). replace (cub (- a0) (- a1) 0 0 (cheb m j)) with (- cub a0 a1 0 0 (cheb m j)) by (unfold cub; ring). lra.
Qed.
End FromSetup.
