(** obbox_calc_2. *)
From Verif Require Import Base BaseLemmas Tensor TensorSpec TensorProof Poly PolySpec PolyProof1 PolyProof2 PolyProof3 PolyImpSyntax PolyImp PolyGll LobBnd LobBndSpec LobBndProof1 LobBndProof3 LobBndSetupProof2 Obbox ObboxSpec ObboxMax ObboxProof1 ObboxProof2 ObboxProof3 ObboxProof4.
From Coq Require Import Reals Lra Psatz.
Open Scope R_scope.

Lemma T0_pv1 d n x0 Ji u v r : distinct d n -> (2 <= n)%nat -> pv1 d n (fun i => T0_2 x0 Ji (u i) (v i)) r = T0_2 x0 Ji (pv1 d n u r) (pv1 d n v r).
Proof.
  intros D Hn. unfold T0_2. transitivity (pv1 d n (fun i => ent Ji 0 * u i + ent Ji 1 * v i + - (ent Ji 0 * ent x0 0 + ent Ji 1 * ent x0 1)) r); [apply pv1_ext; intros; ring|].
  rewrite pv1_aff by auto. ring.
Qed.
Lemma T1_pv1 d n x0 Ji u v r : distinct d n -> (2 <= n)%nat -> pv1 d n (fun i => T1_2 x0 Ji (u i) (v i)) r = T1_2 x0 Ji (pv1 d n u r) (pv1 d n v r).
Proof.
  intros D Hn. unfold T1_2. transitivity (pv1 d n (fun i => ent Ji 2 * u i + ent Ji 3 * v i + - (ent Ji 2 * ent x0 0 + ent Ji 3 * ent x0 1)) r); [apply pv1_ext; intros; ring|].
  rewrite pv1_aff by auto. ring.
Qed.
Lemma safe_less x n wo wo' : (wo <= wo')%nat -> safe x n wo -> safe x n wo'.
Proof. destruct x; cbn [safe]; lia. Qed.

Lemma far_ext d n m u v : (forall i, (i < n)%nat -> u i = v i) -> far d n m u = far d n m v.
Proof.
  intros H. assert (A : rsum n (fun i => func0 d n i * u i) = rsum n (fun i => func0 d n i * v i)) by (apply rsum_ext; intros; rewrite H by auto; auto).
  assert (B : rsum n (fun i => func1 d n i * u i) = rsum n (fun i => func1 d n i * v i)) by (apply rsum_ext; intros; rewrite H by auto; auto).
  unfold far. apply rsum_ext. intros j _. unfold grid_lo, grid_up. cbv zeta. rewrite A, B. do 2 f_equal; f_equal; apply rsum_ext; intros i Hi; rewrite H by auto; auto.
Qed.

Section Edge.
Variable x0 Ji : list R.
Lemma edge_ok ab0 ab1 tb0 tb1 w merge d n m x y wo : bound_data d n m ->
  (merge = true -> ab0 <> None) -> (merge = true -> ab1 <> None) -> (merge = true -> tb0 <> None) -> (merge = true -> tb1 <> None) ->
  safe x n wo -> safe y n wo -> (wo + 2 * n + 2 * m <= length w)%nat ->
  exists a0 a1 t0 t1 w', do_edge (ab0, ab1, tb0, tb1, w) merge d n m x0 Ji x y wo = Ok (Some a0, Some a1, Some t0, Some t1, w') /\ after wo w w' /\
    joined merge ab0 a0 /\ joined merge ab1 a1 /\ joined merge tb0 t0 /\ joined merge tb1 t1 /\
    (forall r, I1 r -> covers_2 x0 Ji a0 a1 t0 t1 (pv1 d n (sv w x) r) (pv1 d n (sv w y) r)) /\
    forall K, (merge = true -> exists a, ab0 = Some a /\ within K a) -> far d n m (sv w x) <= K -> within K a0.
Proof.
  intros B N0 N1 N2 N3 Sx Sy Hw. pose proof (bd_nodes _ _ _ B) as D. pose proof (bd_n _ _ _ B) as Hn. unfold do_edge.
  destruct (bound_2_ok ab0 merge d n m x w wo B N0 Sx) as (a0 & w1 & E & A1 & J0 & C0 & W0); [lia|]. rewrite E. cbn [bind]. clear E. pose proof A1 as [L1 _].
  destruct (bound_2_ok ab1 merge d n m y w1 wo B N1 Sy) as (a1 & w2 & E & A2 & J1 & C1 & _); [lia|]. rewrite E. cbn [bind]. clear E. pose proof A2 as [L2 _].
  assert (A12 : after wo w w2) by (apply (after_trans wo wo w w1); auto).
  destruct (tfm_2_ok w2 wo x0 Ji x y n Sx Sy) as (w3 & E & A3 & V); [lia|]. rewrite E. cbn [bind]. clear E. pose proof A3 as [L3 _].
  destruct (bound_2_ok tb0 merge d n m (Work wo) w3 (wo + 2 * n) B N2) as (t0 & w4 & E & A4 & J2 & C2 & _); [cbn [safe]; lia|lia|]. rewrite E. cbn [bind]. clear E. pose proof A4 as [L4 _].
  destruct (bound_2_ok tb1 merge d n m (Work (wo + n)) w4 (wo + 2 * n) B N3) as (t1 & w5 & E & A5 & J3 & C3 & _); [cbn [safe]; lia|lia|]. rewrite E. cbn [bind]. clear E.
  exists a0, a1, t0, t1, w5. split; [reflexivity|]. split.
  { apply (after_trans wo wo w w2); auto. apply (after_trans wo wo w2 w3); auto. apply (after_less wo (wo + 2 * n)); [lia|]. apply (after_trans _ (wo + 2 * n) w3 w4); auto. }
  do 4 (split; [assumption|]). split; [|exact W0]. intros r Hr. unfold covers_2.
  assert (Vx : forall i, (i < n)%nat -> sv w2 x i = sv w x i) by (intros i Hi; apply (sv_after wo _ _ _ n); auto).
  assert (Vy : forall i, (i < n)%nat -> sv w2 y i = sv w y i) by (intros i Hi; apply (sv_after wo _ _ _ n); auto).
  split; [apply C0; auto|]. split; [|split].
  - replace (pv1 d n (sv w y) r) with (pv1 d n (sv w1 y) r); [apply C1; auto|]. apply pv1_ext. intros i Hi. apply (sv_after wo _ _ _ n); auto.
  - rewrite <- T0_pv1 by auto. replace (pv1 d n (fun i => T0_2 x0 Ji (sv w x i) (sv w y i)) r) with (pv1 d n (sv w3 (Work wo)) r); [apply C2; auto|].
    apply pv1_ext. intros i Hi. rewrite <- Vx, <- Vy by auto. apply V. auto.
  - rewrite <- T1_pv1 by auto. replace (pv1 d n (fun i => T1_2 x0 Ji (sv w x i) (sv w y i)) r) with (pv1 d n (sv w4 (Work (wo + n))) r); [apply C3; auto|].
    apply pv1_ext. intros i Hi. rewrite <- Vx, <- Vy by auto. rewrite (sv_after (wo + 2 * n) w3 w4 _ n) by (auto; cbn [safe]; lia).
    unfold sv. cbn [src_arr src_off]. rewrite <- Nat.add_assoc. apply V. auto.
Qed.

Lemma covers_mono a0 a1 t0 t1 b0 b1 u0 u1 p q : sub_range a0 b0 -> sub_range a1 b1 -> sub_range t0 u0 -> sub_range t1 u1 ->
  covers_2 x0 Ji a0 a1 t0 t1 p q -> covers_2 x0 Ji b0 b1 u0 u1 p q.
Proof. intros S0 S1 S2 S3 (A & B & C & D). repeat split; eapply sub_in; eauto. Qed.
Lemma joined_some a b : joined true (Some a) b -> sub_range a b.
Proof. intros H. destruct (H eq_refl) as (c & E & S). injection E as <-. auto. Qed.
Lemma joined_4 a0 a1 t0 t1 b0 b1 u0 u1 : joined true (Some a0) b0 -> joined true (Some a1) b1 -> joined true (Some t0) u0 -> joined true (Some t1) u1 ->
  forall p q, covers_2 x0 Ji a0 a1 t0 t1 p q -> covers_2 x0 Ji b0 b1 u0 u1 p q.
Proof. intros. eapply covers_mono; eauto using joined_some. Qed.

Lemma get_edge_ok a0 a1 t0 t1 w ds nr ns ms x xo y off : bound_data ds ns ms -> (4 * ns + 2 * ms <= length w)%nat ->
  (forall k, (k < ns)%nat -> (xo + off + k * nr < length x)%nat) -> (forall k, (k < ns)%nat -> (xo + off + k * nr < length y)%nat) ->
  exists b0 b1 u0 u1 w', get_edge (Some a0, Some a1, Some t0, Some t1, w) ds nr ns ms x0 Ji x xo y xo off = Ok (Some b0, Some b1, Some u0, Some u1, w') /\ length w' = length w /\
    (forall p q, covers_2 x0 Ji a0 a1 t0 t1 p q -> covers_2 x0 Ji b0 b1 u0 u1 p q) /\
    (forall s, I1 s -> covers_2 x0 Ji b0 b1 u0 u1 (pv1 ds ns (fun k => get x (xo + off + k * nr)) s) (pv1 ds ns (fun k => get y (xo + off + k * nr)) s)) /\
    forall K, within K a0 -> far ds ns ms (fun k => get x (xo + off + k * nr)) <= K -> within K b0.
Proof.
  intros B Hw Hx Hy. unfold get_edge.
  destruct (copy_ok w 0 x (xo + off) 1 nr ns) as (w1 & E & [L1 K1] & V1); [lia|lia|intros k l Hk Hl; specialize (Hx k Hk); rewrite Nat.mul_1_r; lia|]. rewrite E. cbn [bind]. clear E.
  destruct (copy_ok w1 ns y (xo + off) 1 nr ns) as (w2 & E & [L2 K2] & V2); [lia|lia|intros k l Hk Hl; specialize (Hy k Hk); rewrite Nat.mul_1_r; lia|]. rewrite E. cbn [bind]. clear E.
  destruct (edge_ok (Some a0) (Some a1) (Some t0) (Some t1) w2 true ds ns ms (Work 0) (Work ns) (2 * ns) B) as (b0 & b1 & u0 & u1 & w3 & E & [L3 _] & J0 & J1 & J2 & J3 & C & W); try discriminate; [cbn [safe]; lia|cbn [safe]; lia|lia|].
  exists b0, b1, u0, u1, w3. split; [exact E|]. split; [congruence|]. split; [apply joined_4; auto|].
  assert (Ux : forall k, (k < ns)%nat -> get x (xo + off + k * nr) = sv w2 (Work 0) k).
  { intros k Hk. unfold sv. cbn [src_arr src_off]. rewrite K2 by (unfold rng; lia). specialize (V1 k 0%nat Hk ltac:(lia)). rewrite !Nat.mul_1_r, !Nat.add_0_r in V1. auto. }
  split; [|intros K HK Hf; apply W; [eauto|rewrite <- (far_ext ds ns ms _ _ Ux); auto]].
  intros s Hs. rewrite (pv1_ext ds ns (fun k => get x (xo + off + k * nr)) (sv w2 (Work 0))), (pv1_ext ds ns (fun k => get y (xo + off + k * nr)) (sv w2 (Work ns))); [apply C; auto| |auto].
  intros k Hk. unfold sv. cbn [src_arr src_off]. specialize (V2 k 0%nat Hk ltac:(lia)). rewrite !Nat.mul_1_r, !Nat.add_0_r in V2. auto.
Qed.
End Edge.

(** Polynomials on the edges. *)
Lemma pv1_nodes d z n v r : (forall i, (i < n)%nat -> get d i = get z i) -> pv1 d n v r = pv1 z n v r.
Proof. intros H. unfold pv1. apply rsum_ext. intros i Hi. f_equal. apply basis_ext; auto. Qed.
Lemma rsum_pick n k (f : nat -> R) (g : nat -> R) : (k < n)%nat -> (forall i, (i < n)%nat -> g i = if (k =? i)%nat then 1 else 0) -> rsum n (fun i => f i * g i) = f k.
Proof.
  intros Hk. induction n as [|n IH]; intros H; [lia|]. cbn [rsum]. rewrite H by lia. destruct (Nat.eqb_spec k n) as [->|N].
  - replace (rsum n (fun i => f i * g i)) with 0; [ring|]. symmetry. clear IH. assert (Q : forall m, (m <= n)%nat -> rsum m (fun i => f i * g i) = 0); [|apply Q; lia].
    induction m as [|m IHm]; intros Hm; cbn [rsum]; [auto|]. rewrite IHm by lia. rewrite H by lia. destruct (Nat.eqb_spec n m); [lia|]. ring.
  - rewrite IH by (auto; lia). ring.
Qed.
Lemma pv1_node z n v k : distinct z n -> (k < n)%nat -> pv1 z n v (get z k) = v k.
Proof. intros D Hk. unfold pv1. apply rsum_pick; auto. intros i Hi. apply basis_node_; auto. Qed.
Lemma pv2_s_node zr nr zs ns v r k : distinct zs ns -> (k < ns)%nat -> pv2 zr nr zs ns v r (get zs k) = pv1 zr nr (fun i => v (k * nr + i)%nat) r.
Proof. intros D Hk. unfold pv2. apply (rsum_pick ns k (fun j => pv1 zr nr (fun i => v (j * nr + i)%nat) r) (fun j => basis zs ns j (get zs k))); auto. intros i Hi. apply basis_node_; auto. Qed.
Lemma pv2_r_node zr nr zs ns v k s : distinct zr nr -> (k < nr)%nat -> pv2 zr nr zs ns v (get zr k) s = pv1 zs ns (fun j => v (j * nr + k)%nat) s.
Proof. intros D Hk. unfold pv2, pv1 at 2. apply rsum_ext. intros j Hj. f_equal. apply (pv1_node zr nr (fun i => v (j * nr + i)%nat)); auto. Qed.

(** The derivatives. *)
Lemma sum_rsum n f : sum R 0 Rplus n f = rsum n f. Proof. induction n as [|n IH]; cbn [sum rsum]; [auto|]. rewrite IH. auto. Qed.
Lemma get_skip (a : arr) o i : TensorSpec.get R 0 (skipn o a) i = get a (o + i).
Proof. unfold TensorSpec.get, get. revert a. induction o as [|o IH]; intros [|b a]; cbn [skipn Nat.add nth]; auto; destruct i; auto. Qed.
Definition D2 (X : nat -> R) nr (Y : nat -> R) ns (v : nat -> R) : R := rsum ns (fun j => rsum nr (fun i => v (j * nr + i)%nat * X i) * Y j).
Lemma apply2_D2 X nr Y ns x xo : apply2 R 0 Rplus Rmult X nr Y ns (skipn xo x) = D2 X nr Y ns (fun i => get x (xo + i)).
Proof.
  unfold apply2, D2. rewrite sum_rsum. apply rsum_ext. intros j Hj. rewrite sum_rsum. rewrite Rmult_comm, <- rsum_scal. apply rsum_ext. intros i Hi. rewrite get_skip.
  replace (i + nr * j)%nat with (j * nr + i)%nat by lia. ring.
Qed.
Lemma D2_r fr nr Y ns v zr zs s : (forall i, (i < nr)%nat -> derivable_pt_lim (basis zr nr i) 0 (fr i)) -> (forall j, (j < ns)%nat -> Y j = basis zs ns j s) ->
  derivable_pt_lim (fun r => pv2 zr nr zs ns v r s) 0 (D2 fr nr Y ns v).
Proof.
  intros H1 H2. unfold pv2, D2. apply (rsum_der ns (fun j r => pv1 zr nr (fun i => v (j * nr + i)%nat) r * basis zs ns j s)). intros j Hj.
  apply derivable_pt_lim_ext with (f := fun r => basis zs ns j s * pv1 zr nr (fun i => v (j * nr + i)%nat) r); [intros; ring|]. rewrite H2, Rmult_comm by auto.
  apply der_scal. unfold pv1. apply (rsum_der nr (fun i r => v (j * nr + i)%nat * basis zr nr i r)). intros i Hi. apply der_scal. auto.
Qed.
Lemma D2_s X nr fs ns v zr zs r : (forall i, (i < nr)%nat -> X i = basis zr nr i r) -> (forall j, (j < ns)%nat -> derivable_pt_lim (basis zs ns j) 0 (fs j)) ->
  derivable_pt_lim (fun s => pv2 zr nr zs ns v r s) 0 (D2 X nr fs ns v).
Proof.
  intros H1 H2. unfold pv2, D2. apply (rsum_der ns (fun j s => pv1 zr nr (fun i => v (j * nr + i)%nat) r * basis zs ns j s)). intros j Hj.
  replace (rsum nr (fun i => v (j * nr + i)%nat * X i)) with (pv1 zr nr (fun i => v (j * nr + i)%nat) r); [apply der_scal; auto|]. unfold pv1. apply rsum_ext. intros i Hi. rewrite H1 by auto. auto.
Qed.

(** The four edges. *)
Lemma edge_pair nr ns zr zs (x y : nat -> R) r s (Q : R -> R -> Prop) : distinct zr nr -> distinct zs ns -> get zr 0 = -1 -> get zr (nr - 1) = 1 -> get zs 0 = -1 -> get zs (ns - 1) = 1 -> (2 <= nr)%nat -> (2 <= ns)%nat -> edge_2 r s ->
  (forall r, I1 r -> Q (pv1 zr nr x r) (pv1 zr nr y r)) ->
  (forall r, I1 r -> Q (pv1 zr nr (fun i => x (nr * ns - nr + i)%nat) r) (pv1 zr nr (fun i => y (nr * ns - nr + i)%nat) r)) ->
  (forall s, I1 s -> Q (pv1 zs ns (fun j => x (0 + j * nr)%nat) s) (pv1 zs ns (fun j => y (0 + j * nr)%nat) s)) ->
  (forall s, I1 s -> Q (pv1 zs ns (fun j => x (nr - 1 + j * nr)%nat) s) (pv1 zs ns (fun j => y (nr - 1 + j * nr)%nat) s)) ->
  Q (pv2 zr nr zs ns x r s) (pv2 zr nr zs ns y r s).
Proof.
  intros Dr Ds Fr Lr Fs Ls Nr Ns (Ir & Is & H) Q1 Q2 Q3 Q4.
  assert (A : forall v k s, (k < nr)%nat -> pv2 zr nr zs ns v (get zr k) s = pv1 zs ns (fun j => v (k + j * nr)%nat) s).
  { intros v k s' Hk. rewrite pv2_r_node by auto. apply pv1_ext. intros. f_equal. lia. }
  assert (B : forall v k r, (k < ns)%nat -> pv2 zr nr zs ns v r (get zs k) = pv1 zr nr (fun i => v (k * nr + i)%nat) r).
  { intros v k r' Hk. rewrite pv2_s_node by auto. auto. }
  destruct H as [->|[->|[->| ->]]].
  - rewrite <- Fr, !A by lia. apply Q3. auto.
  - rewrite <- Lr, !A by lia. apply Q4. auto.
  - rewrite <- Fs, !B by lia. apply Q1. auto.
  - rewrite <- Ls, !B by lia. replace ((ns - 1) * nr)%nat with (nr * ns - nr)%nat by nia. apply Q2. auto.
Qed.

Section Element.
Variable nodes_n : arr -> nat -> res arr.
Variable P : products R.
Hypothesis G : good R 0 Rplus Rmult P.
Variables (nr ns mr ms : nat) (zr zs I0r I0s dr ds : arr).
Hypothesis (Gr : good_dir nodes_n nr mr zr) (Gs : good_dir nodes_n ns ms zs).
Hypothesis (Or : dir_ok I0r dr nr mr zr) (Os : dir_ok I0s ds ns ms zs).
Lemma el_2_ok x y xo tol w : 0 <= tol -> (xo + nr * ns <= length x)%nat -> (xo + nr * ns <= length y)%nat ->
  (4 * ns + 2 * ms <= length w)%nat -> (2 * nr + 2 * mr <= length w)%nat ->
  exists b w', obbox_el_2 P I0r I0s dr ds nr ns mr ms x y xo tol w = Ok (b, w') /\ length w' = length w /\
    let X := pv2 zr nr zs ns (fun i => get x (xo + i)) in let Y := pv2 zr nr zs ns (fun i => get y (xo + i)) in
    (forall r s, edge_2 r s -> in_axes_2 b (X r s) (Y r s)) /\
    (regular_2 X Y -> forall r s, I1 r -> I1 s -> in_axes_2 b (X r s) (Y r s) /\ in_oriented_2 b (X r s) (Y r s)) /\ (proper b 0 /\ proper b 1) /\
    forall K, 0 <= K -> far dr nr mr (fun i => get x (xo + i)) <= K -> far dr nr mr (fun i => get x (xo + (nr * ns - nr + i))) <= K ->
      far ds ns ms (fun i => get x (xo + i * nr)) <= K -> far ds ns ms (fun i => get x (xo + (nr - 1 + i * nr))) <= K -> rmax (axis b 0) <= K * (2 + tol).
Proof.
  intros Ht Hx Hy W1 W2. destruct Gr as [Nr Mr Pr Fr Lr _]. destruct Gs as [Ns Ms Ps Fs Ls _].
  pose proof (lp_distinct _ _ _ Pr) as Dr. pose proof (lp_distinct _ _ _ Ps) as Ds.
  unfold obbox_el_2. cbv zeta.
  rewrite !(ig2_ok R 0 1 Rplus Rmult Rminus Ropp RTheory P G) by (rewrite ?skipn_length, ?(do_len _ _ _ _ _ Or), ?(do_len _ _ _ _ _ Os); lia). cbn [bind].
  rewrite !apply2_D2.
  set (x0 := [_; _]). set (J := _ ++ _). set (Ji := mat_inv_2 J).
  destruct (edge_ok x0 Ji None None None None w false dr nr mr (Fixed x xo) (Fixed y xo) 0 (do_bd _ _ _ _ _ Or)) as (a0 & a1 & t0 & t1 & w1 & E & [L1 _] & _ & _ & _ & _ & C1 & F1); try discriminate; try (cbn [safe]; nia); try lia.
  rewrite E. cbn [bind]. clear E.
  destruct (edge_ok x0 Ji (Some a0) (Some a1) (Some t0) (Some t1) w1 true dr nr mr (Fixed x (xo + (nr * ns - nr))) (Fixed y (xo + (nr * ns - nr))) 0 (do_bd _ _ _ _ _ Or)) as (b0 & b1 & u0 & u1 & w2 & E & [L2 _] & J0 & J1 & J2 & J3 & C2 & F2); try discriminate; try (cbn [safe]; nia); try lia.
  rewrite E. cbn [bind]. clear E. pose proof (joined_4 x0 Ji _ _ _ _ _ _ _ _ J0 J1 J2 J3) as M2. clear J0 J1 J2 J3.
  destruct (get_edge_ok x0 Ji b0 b1 u0 u1 w2 ds nr ns ms x xo y 0 (do_bd _ _ _ _ _ Os)) as (c0 & c1 & v0 & v1 & w3 & E & L3 & M3 & C3 & F3); [lia|intros; nia|intros; nia|].
  rewrite E. cbn [bind]. clear E.
  destruct (get_edge_ok x0 Ji c0 c1 v0 v1 w3 ds nr ns ms x xo y (nr - 1) (do_bd _ _ _ _ _ Os)) as (e0 & e1 & q0 & q1 & w4 & E & L4 & M4 & C4 & F4); [lia|intros; nia|intros; nia|].
  rewrite E. cbn [bind]. clear E.
  eexists. exists w4. split; [reflexivity|]. split; [congruence|].
  set (X := pv2 zr nr zs ns (fun i => get x (xo + i))). set (Y := pv2 zr nr zs ns (fun i => get y (xo + i))).
  assert (C : forall r s, edge_2 r s -> covers_2 x0 Ji e0 e1 q0 q1 (X r s) (Y r s)).
  { intros r s Ed. unfold X, Y. apply (edge_pair nr ns zr zs _ _ r s (covers_2 x0 Ji e0 e1 q0 q1)); auto.
    - intros r' Hr'. apply M4, M3, M2. specialize (C1 r' Hr'). rewrite !(pv1_nodes dr zr) in C1 by apply Or. exact C1.
    - intros r' Hr'. apply M4, M3. specialize (C2 r' Hr'). rewrite !(pv1_nodes dr zr) in C2 by apply Or. rewrite (pv1_ext zr nr _ (sv w1 (Fixed x (xo + (nr * ns - nr))))), (pv1_ext zr nr (fun i => get y _) (sv w1 (Fixed y (xo + (nr * ns - nr))))); [exact C2| |]; intros i Hi; unfold sv; cbn [src_arr src_off]; f_equal; lia.
    - intros s' Hs'. apply M4. specialize (C3 s' Hs'). rewrite !(pv1_nodes ds zs) in C3 by apply Os. rewrite (pv1_ext zs ns _ (fun k => get x (xo + 0 + k * nr))), (pv1_ext zs ns (fun j => get y _) (fun k => get y (xo + 0 + k * nr))); [exact C3| |]; intros i Hi; f_equal; lia.
    - intros s' Hs'. specialize (C4 s' Hs'). rewrite !(pv1_nodes ds zs) in C4 by apply Os. rewrite (pv1_ext zs ns _ (fun k => get x (xo + (nr - 1) + k * nr))), (pv1_ext zs ns (fun j => get y _) (fun k => get y (xo + (nr - 1) + k * nr))); [exact C4| |]; intros i Hi; f_equal; lia. }
  assert (Q : edge_2 (-1) (-1)) by (unfold edge_2, I1; lra).
  assert (S0 : sub_range e0 (dbl_range_expand e0 tol)) by (apply expand_in; auto; destruct (C _ _ Q) as ([? ?] & _); lra).
  assert (S1 : sub_range e1 (dbl_range_expand e1 tol)) by (apply expand_in; auto; destruct (C _ _ Q) as (_ & [? ?] & _); lra).
  change (Box _ _ _) with (box_2 x0 J Ji e0 e1 q0 q1 tol).
  assert (A : forall r s, edge_2 r s -> in_axes_2 (box_2 x0 J Ji e0 e1 q0 q1 tol) (X r s) (Y r s)).
  { intros r s Ed. destruct (C r s Ed) as (A0 & A1 & _). split; [apply (sub_in _ _ _ S0 A0)|apply (sub_in _ _ _ S1 A1)]. }
  split; [exact A|]. split; [|split; [destruct (A _ _ Q) as [[A1 A2] [A3 A4]]; unfold proper; lra|]].
  2:{ intros K HK K1 K2 K3 K4. assert (We : within K e0).
    { apply F4; [apply F3; [apply F2; [intros _; exists a0; split; [auto|apply F1; [discriminate|exact K1]]|]|]|].
      - eapply Rle_trans; [|exact K2]. right. apply far_ext. intros i Hi. unfold sv. cbn [src_arr src_off]. f_equal. lia.
      - eapply Rle_trans; [|exact K3]. right. apply far_ext. intros i Hi. f_equal. lia.
      - eapply Rle_trans; [|exact K4]. right. apply far_ext. intros i Hi. f_equal. lia. }
    unfold axis, box_2. cbn [axes nth]. unfold dbl_range_expand. cbn [rmax]. destruct We as [We1 We2]. nra. }
  intros Reg r s Hr Hs. apply (box_2_ok zr zs nr ns _ _ Reg); auto.
  - cbn [J app ent nth]. apply D2_r; [intros i Hi; unfold row; rewrite Nat.mul_1_l; apply Or; auto|intros j Hj; apply Os; auto].
  - cbn [J app ent nth]. apply D2_s; [intros j Hj; apply Or; auto|intros i Hi; unfold row; rewrite Nat.mul_1_l; apply Os; auto].
  - cbn [J app ent nth]. apply D2_r; [intros i Hi; unfold row; rewrite Nat.mul_1_l; apply Or; auto|intros j Hj; apply Os; auto].
  - cbn [J app ent nth]. apply D2_s; [intros j Hj; apply Or; auto|intros i Hi; unfold row; rewrite Nat.mul_1_l; apply Os; auto].
Qed.
End Element.

Lemma poly_pv2 zr nr zs ns x xo r s : poly_2 zr nr zs ns x xo r s = pv2 zr nr zs ns (fun i => get x (xo + i)) r s.
Proof. unfold poly_2, pv2, pv1. apply rsum_ext. intros j _. rewrite Rmult_comm, <- rsum_scal. apply rsum_ext. intros i _. ring. Qed.
(** What obbox_calc_2 guarantees for one element. *)
Definition box_good_2 (zr : arr) nr (zs : arr) ns (x y : arr) xo (b : obbox) : Prop :=
  let X := poly_2 zr nr zs ns x xo in let Y := poly_2 zr nr zs ns y xo in
  (forall r s, edge_2 r s -> in_axes_2 b (X r s) (Y r s)) /\
  (regular_2 X Y -> forall r s, I1 r -> I1 s -> in_axes_2 b (X r s) (Y r s) /\ in_oriented_2 b (X r s) (Y r s)) /\ proper b 0 /\ proper b 1.
Lemma regular_2_ext X Y X' Y' : (forall r s, X r s = X' r s) -> (forall r s, Y r s = Y' r s) -> regular_2 X Y -> regular_2 X' Y'.
Proof.
  intros HX HY H r s xr xs yr ys Hr Hs A B C D. apply (H r s); auto; (eapply derivable_pt_lim_ext; [|eassumption]); intros; cbv beta; auto.
Qed.
Lemma loop_ok (Q : nat -> obbox -> Prop) (f : nat -> arr -> res (obbox * arr)) N len w : length w = len ->
  (forall e w, (e < N)%nat -> length w = len -> exists b w', f e w = Ok (b, w') /\ length w' = length w /\ Q e b) ->
  exists out w', foldM (fun '(out, w) e => '(b, w) <- f e w ;; Ok (out ++ [b], w)) (seq 0 N) ([], w) = Ok (out, w') /\ length out = N /\ forall e b, nth_error out e = Some b -> Q e b.
Proof.
  intros L H. destruct (foldM_inv (fun k '(out, w) => length out = k /\ length w = len /\ forall e b, nth_error out e = Some b -> Q e b) (fun '(out, w) e => '(b, w) <- f e w ;; Ok (out ++ [b], w)) N (@nil obbox, w)) as ([out w'] & E & A & _ & B).
  - split; [auto|]. split; [auto|]. intros [|e] b K; discriminate.
  - intros k [out w1] Hk (A & B & C). destruct (H k w1 Hk B) as (b & w2 & E & L2 & Qb). rewrite E. cbn [bind]. eexists. split; [reflexivity|]. split; [rewrite app_length; cbn [length]; lia|]. split; [congruence|].
    intros e b' K. destruct (Nat.lt_trichotomy e (length out)) as [?|[->|?]].
    + rewrite nth_error_app1 in K by auto. auto.
    + rewrite nth_error_app2, Nat.sub_diag in K by auto. cbn in K. injection K as <-. rewrite A. auto.
    + apply nth_error_Some_lt in K. rewrite app_length in K. cbn [length] in K. lia.
  - exists out, w'. auto.
Qed.

Lemma calc_2_ok nodes_n P x y nr ns nel mr ms zr zs tol : good R 0 Rplus Rmult P -> good_dir nodes_n nr mr zr -> good_dir nodes_n ns ms zs -> 0 <= tol ->
  (nel * (nr * ns) <= length x)%nat -> (nel * (nr * ns) <= length y)%nat ->
  exists out, obbox_calc_2 nodes_n P x y nr ns nel mr ms tol = Ok out /\ length out = nel /\
    forall e b, nth_error out e = Some b -> box_good_2 zr nr zs ns x y (e * (nr * ns)) b.
Proof.
  intros G Gr Gs Ht Hx Hy. unfold obbox_calc_2. cbv zeta. set (wsize := Nat.max _ _).
  destruct (setup_dir_ok nodes_n nr mr zr (repeat 0 wsize) Gr) as (I0r & dr & w1 & E & L1 & Or); [rewrite repeat_length; lia|]. rewrite E. cbn [bind]. clear E. rewrite repeat_length in L1.
  destruct (setup_dir_ok nodes_n ns ms zs w1 Gs) as (I0s & ds & w2 & E & L2 & Os); [lia|]. rewrite E. cbn [bind]. clear E.
  destruct (loop_ok (fun e b => box_good_2 zr nr zs ns x y (e * (nr * ns)) b) (fun e w => obbox_el_2 P I0r I0s dr ds nr ns mr ms x y (e * (nr * ns)) tol w) nel wsize w2) as (out & w3 & E & Lo & F); [congruence| |].
  - intros e w He Lw. destruct (el_2_ok nodes_n P G nr ns mr ms zr zs I0r I0s dr ds Gr Gs Or Os x y (e * (nr * ns)) tol w Ht) as (b & w' & E & Lw' & A & B & Pr & _); [nia|nia|lia|lia|].
    exists b, w'. split; [auto|]. split; [auto|]. unfold box_good_2. split; [|split; [|auto]].
    + intros r s Ed. rewrite !poly_pv2. auto.
    + intros Reg r s Hr Hs. rewrite !poly_pv2. apply B; auto. revert Reg. apply regular_2_ext; intros; apply poly_pv2.
  - rewrite E. cbn [bind]. exists out. auto.
Qed.
