(** From the internal description of the 3-D search to the specification. *)
From Verif Require Import Base BaseLemmas Tensor TensorSpec TensorProof Poly PolySpec PolyProof1 PolyProof2 PolyProof3 LobBndSpec LobBndProof1 LobBndProof3 FindptsEl2 FindptsEl2Spec FindptsEl2Proof1 FindptsEl2Proof2 FindptsEl2Proof3 FindptsEl2Proof9 FindptsEl3 FindptsEl3Spec FindptsEl3Proof1 FindptsEl3Proof2 FindptsEl3Proof3 FindptsEl3Proof4 FindptsEl3Proof5 FindptsEl3Proof6 FindptsEl3Proof7.
From Coq Require Import Reals Lra Psatz NArith.
Open Scope R_scope.

Lemma der_line (f : R -> R) a b h l : derivable_pt_lim f (a + h * b) l -> derivable_pt_lim (fun h => f (a + h * b)) h (b * l).
Proof.
  intros H. assert (D : derivable_pt_lim (fun h => a + h * b) h b).
  { pose proof (der_add _ _ _ _ _ (derivable_pt_lim_const a h) (der_mul _ _ _ _ _ (der_id h) (derivable_pt_lim_const b h))) as Q. apply (der_eq _ _ _ _ Q). unfold fct_cte. ring. }
  pose proof (derivable_pt_lim_comp (fun h => a + h * b) f h b l D H) as Q. unfold comp in Q. apply (der_eq _ _ _ _ Q). ring.
Qed.
Lemma sq_der3 (X Y Z : R -> R) X1 Y1 Z1 c0 c1 c2 t : derivable_pt_lim X t X1 -> derivable_pt_lim Y t Y1 -> derivable_pt_lim Z t Z1 ->
  derivable_pt_lim (fun t => (c0 - X t) ^ 2 + (c1 - Y t) ^ 2 + (c2 - Z t) ^ 2) t (-2 * ((c0 - X t) * X1 + (c1 - Y t) * Y1 + (c2 - Z t) * Z1)).
Proof.
  intros HX HY HZ. apply derivable_pt_lim_ext with (f := fun t => (c0 - X t) * (c0 - X t) + (c1 - Y t) * (c1 - Y t) + (c2 - Z t) * (c2 - Z t)); [intros; ring|].
  assert (S : forall (F : R -> R) F1 c, derivable_pt_lim F t F1 -> derivable_pt_lim (fun t => c - F t) t (0 - F1)) by (intros F F1 c HF; apply der_sub; [apply derivable_pt_lim_const|auto]).
  pose proof (der_add _ _ _ _ _ (der_add _ _ _ _ _ (der_mul _ _ _ _ _ (S X X1 c0 HX) (S X X1 c0 HX)) (der_mul _ _ _ _ _ (S Y Y1 c1 HY) (S Y Y1 c1 HY))) (der_mul _ _ _ _ _ (S Z Z1 c2 HZ) (S Z Z1 c2 HZ))) as H.
  apply (der_eq _ _ _ _ H). ring.
Qed.
Lemma sq_der23 (X Y Z X1 Y1 Z1 : R -> R) X2 Y2 Z2 c0 c1 c2 t : (forall y, derivable_pt_lim X y (X1 y)) -> (forall y, derivable_pt_lim Y y (Y1 y)) -> (forall y, derivable_pt_lim Z y (Z1 y)) -> derivable_pt_lim X1 t X2 -> derivable_pt_lim Y1 t Y2 -> derivable_pt_lim Z1 t Z2 ->
  derivative2 (fun t => (c0 - X t) ^ 2 + (c1 - Y t) ^ 2 + (c2 - Z t) ^ 2) t (2 * (X1 t * X1 t + Y1 t * Y1 t + Z1 t * Z1 t - ((c0 - X t) * X2 + (c1 - Y t) * Y2 + (c2 - Z t) * Z2))).
Proof.
  intros HX HY HZ HX1 HY1 HZ1. exists (fun t => -2 * ((c0 - X t) * X1 t + (c1 - Y t) * Y1 t + (c2 - Z t) * Z1 t)). split; [intros y; apply sq_der3; auto|].
  assert (S : forall (F : R -> R) F1 c, derivable_pt_lim F t F1 -> derivable_pt_lim (fun t => c - F t) t (0 - F1)) by (intros F F1 c HF; apply der_sub; [apply derivable_pt_lim_const|auto]).
  pose proof (der_scal (-2) _ _ _ (der_add _ _ _ _ _ (der_add _ _ _ _ _ (der_mul _ _ _ _ _ (S X _ c0 (HX t)) HX1) (der_mul _ _ _ _ _ (S Y _ c1 (HY t)) HY1)) (der_mul _ _ _ _ _ (S Z _ c2 (HZ t)) HZ1))) as H.
  apply (der_eq _ _ _ _ H). ring.
Qed.
Lemma derivative2_unique f x u v : derivative2 f x u -> derivative2 f x v -> u = v.
Proof.
  intros (f1 & A & B) (g1 & C & D). assert (E : forall y, f1 y = g1 y) by (intros y; exact (uniqueness_limite _ _ _ _ (A y) (C y))).
  apply (uniqueness_limite g1 x); [|auto]. apply derivable_pt_lim_ext with (f := f1); auto.
Qed.

Section Link.
Variable fd : el.
Variable zd : nat -> arr.
Variable Qd : nat -> arr -> Prop.
Hypothesis Hel : forall d, (d < 3)%nat -> elem_dir fd zd Qd d.
Hypothesis Hux : length (ux fd) = 3%nat.
Notation nr := (nn fd 0).
Notation ns := (nn fd 1).
Notation nt := (nn fd 2).
Notation T := (T fd zd).
Notation D := (D3 fd zd).
Notation jacobian := (jacobian fd zd).
Definition sh3 : shape3 := Shape3 nr ns nt (zd 0%nat) (zd 1%nat) (zd 2%nat) (ux fd).

Lemma inter_value3 u r : inter3 fd zd u r = value3 sh3 u r.
Proof.
  unfold inter3, value3, poly_3. cbn [sh3 q_zr q_zs q_zt q_nr q_ns q_nt]. rewrite triple. symmetry. rewrite rsum_swap.
  transitivity (rsum ns (fun j => rsum nr (fun i => rsum nt (fun k => get u (0 + ((k * ns + j) * nr + i)) * basis (zd 0%nat) nr i (nth 0 r 0) * basis (zd 1%nat) ns j (nth 1 r 0) * basis (zd 2%nat) nt k (nth 2 r 0))))).
  { apply rsum_ext. intros j _. apply rsum_swap. }
  rewrite rsum_swap. apply rsum_ext. intros i _. apply rsum_ext. intros j _. apply rsum_ext. intros k _. unfold bs. cbn [bas]. replace (0 + ((k * ns + j) * nr + i))%nat with (i + nr * (j + ns * k))%nat by ring. unfold ent. ring.
Qed.
Lemma T_value3 d r : T [0; 0; 0]%nat d r = image3 sh3 d r.
Proof. unfold image3. rewrite <- inter_value3. reflexivity. Qed.
Lemma D_sqdist3 x r : D x r = sqdist3 sh3 x r.
Proof. unfold FindptsEl3Proof5.D3, norm2, res3, sqdist3, dims. cbn [map ent nth]. rewrite !T_value3. unfold ent. ring. Qed.
Lemma T_ext ks d r q : (forall e, (e < 3)%nat -> ent r e = ent q e) -> T ks d r = T ks d q.
Proof. intros H. unfold FindptsEl3Proof4.T. rewrite !H by lia. auto. Qed.
Lemma segment_ent r q h e : (e < 3)%nat -> ent (segment r q h) e = ent r e + h * (ent q e - ent r e).
Proof. intros H. dim3 e H; reflexivity. Qed.
Lemma T_at_0 ks d r q : T ks d (segment r q 0) = T ks d r.
Proof. apply T_ext. intros e He. rewrite segment_ent by auto. ring. Qed.
Lemma T_flat ks d r : T ks d r = rsum nr (fun i => rsum ns (fun j => rsum nt (fun k => bs fd zd 0 (nth 0 ks 0%nat) i (ent r 0) * bs fd zd 1 (nth 1 ks 0%nat) j (ent r 1) * bs fd zd 2 (nth 2 ks 0%nat) k (ent r 2) * node fd 2 d k i j))).
Proof. unfold FindptsEl3Proof4.T, EE, FF. cyc. rewrite triple. apply rsum_ext. intros i _. apply rsum_ext. intros j _. apply rsum_ext. intros k _. ring. Qed.
Definition up (e : nat) (ks : list nat) : list nat := upd ks e (S (nth e ks 0%nat)).
Definition delta (q r : list R) (e : nat) : R := ent q e - ent r e.
Lemma rsum_plus n f g : rsum n (fun i => f i + g i) = rsum n f + rsum n g.
Proof. induction n as [|n IH]; cbn [rsum]; [ring|]. rewrite IH. ring. Qed.
Lemma T_line ks d r q h : length ks = 3%nat -> (forall e, (e < 3)%nat -> (nth e ks 0 <= 1)%nat) ->
  derivable_pt_lim (fun h => T ks d (segment r q h)) h (delta q r 0 * T (up 0 ks) d (segment r q h) + delta q r 1 * T (up 1 ks) d (segment r q h) + delta q r 2 * T (up 2 ks) d (segment r q h)).
Proof.
  intros Lk Hk. destruct ks as [|k0 [|k1 [|k2 [|? ?]]]]; try discriminate. pose proof (Hk 0%nat ltac:(lia)) as H0. pose proof (Hk 1%nat ltac:(lia)) as H1. pose proof (Hk 2%nat ltac:(lia)) as H2. cbn [nth] in H0, H1, H2.
  unfold up. cbn [upd nth]. set (b := fun e k i h => bs fd zd e k i (ent r e + h * (ent q e - ent r e))).
  assert (Bd : forall e k i y, (e < 3)%nat -> (k <= 1)%nat -> (i < nn fd e)%nat -> derivable_pt_lim (fun h => b e k i h) y (delta q r e * b e (S k) i y)).
  { intros e k i y He Hke Hi. unfold b. apply der_line. apply bas_der; auto. apply (el_dist _ _ _ e (Hel e He)). }
  assert (Fl : forall k0 k1 k2 h, T [k0; k1; k2] d (segment r q h) = rsum nr (fun i => rsum ns (fun j => rsum nt (fun k => b 0%nat k0 i h * b 1%nat k1 j h * b 2%nat k2 k h * node fd 2 d k i j)))).
  { intros j0 j1 j2 y. rewrite T_flat. cbn [nth]. unfold b. rewrite !segment_ent by lia. auto. }
  apply derivable_pt_lim_ext with (f := fun h => rsum nr (fun i => rsum ns (fun j => rsum nt (fun k => b 0%nat k0 i h * b 1%nat k1 j h * b 2%nat k2 k h * node fd 2 d k i j)))); [intros y; rewrite Fl; auto|].
  rewrite !Fl.
  set (g := fun i j k h => delta q r 0 * (b 0%nat (S k0) i h * b 1%nat k1 j h * b 2%nat k2 k h * node fd 2 d k i j) + delta q r 1 * (b 0%nat k0 i h * b 1%nat (S k1) j h * b 2%nat k2 k h * node fd 2 d k i j) + delta q r 2 * (b 0%nat k0 i h * b 1%nat k1 j h * b 2%nat (S k2) k h * node fd 2 d k i j)).
  match goal with |- derivable_pt_lim _ _ ?v => assert (Ev : rsum nr (fun i => rsum ns (fun j => rsum nt (fun k => g i j k h))) = v) end.
  { rewrite !rsum_scale, <- !rsum_plus. apply rsum_ext. intros i _. rewrite !rsum_scale, <- !rsum_plus. apply rsum_ext. intros j _. rewrite !rsum_scale, <- !rsum_plus. apply rsum_ext. intros k _. reflexivity. }
  rewrite <- Ev. apply (rsum_der3 nr _ (fun i h => rsum ns (fun j => rsum nt (fun k => g i j k h)))). intros i Hi. apply (rsum_der3 ns _ (fun j h => rsum nt (fun k => g i j k h))). intros j Hj. apply (rsum_der3 nt _ (fun k h => g i j k h)). intros k Hkk.
  pose proof (der_mul _ _ _ _ _ (der_mul _ _ _ _ _ (der_mul _ _ _ _ _ (Bd 0%nat k0 i h ltac:(lia) H0 Hi) (Bd 1%nat k1 j h ltac:(lia) H1 Hj)) (Bd 2%nat k2 k h ltac:(lia) H2 Hkk)) (derivable_pt_lim_const (node fd 2 d k i j) h)) as Q.
  apply (der_eq _ _ _ _ Q). unfold g, fct_cte. ring.
Qed.
(** The directional derivative of the map. *)
Definition lin (c : nat) (r q s : list R) : R := delta q r 0 * T (ord 0) c s + delta q r 1 * T (ord 1) c s + delta q r 2 * T (ord 2) c s.
Lemma image_line c r q h : derivable_pt_lim (fun h => image3 sh3 c (segment r q h)) h (lin c r q (segment r q h)).
Proof.
  apply derivable_pt_lim_ext with (f := fun h => T [0; 0; 0]%nat c (segment r q h)); [intros; apply T_value3|]. apply (T_line [0; 0; 0]%nat c r q h); [auto|]. intros e He. dim3 e He; cbn; lia.
Qed.
Lemma lin_at c r q : lin c r q (segment r q 0) = lin c r q r.
Proof. unfold lin. rewrite !T_at_0. auto. Qed.
Lemma directional_is c r q : directional sh3 c r q (lin c r q r).
Proof. unfold directional. rewrite <- lin_at. apply image_line. Qed.
Lemma directional_unique c r q v : directional sh3 c r q v -> v = lin c r q r.
Proof. intros H. exact (uniqueness_limite _ _ _ _ H (directional_is c r q)). Qed.
Lemma jac_ent c e r : (c < 3)%nat -> (e < 3)%nat -> ent (jacobian r) (3 * c + e) = T (ord e) c r.
Proof. intros Hc He. dim3 c Hc; dim3 e He; reflexivity. Qed.
Lemma obj_linear x r q : linear_sqdist3 sh3 x r q (obj3 (jacobian r) (res3 fd zd x r) (sub3 q r)).
Proof.
  exists (lin 0 r q r), (lin 1 r q r), (lin 2 r q r). repeat (split; [apply directional_is|]). rewrite <- !T_value3. unfold obj3, norm2, lin_res3, dims. cbn [map ent nth].
  change (nth (3 * 0) (jacobian r) 0) with (T (ord 0) 0 r). unfold lin, delta, sub3, res3, dims. cbn [map ent nth]. unfold ent. cbn. ring.
Qed.
Lemma linear_obj x r q v : linear_sqdist3 sh3 x r q v -> v = obj3 (jacobian r) (res3 fd zd x r) (sub3 q r).
Proof.
  intros (m0 & m1 & m2 & A & B & C & ->). destruct (obj_linear x r q) as (n0 & n1 & n2 & A' & B' & C' & ->).
  rewrite (directional_unique _ _ _ _ A), (directional_unique _ _ _ _ B), (directional_unique _ _ _ _ C), (directional_unique _ _ _ _ A'), (directional_unique _ _ _ _ B'), (directional_unique _ _ _ _ C'). auto.
Qed.
(** The Taylor polynomial. *)
Definition lin2 (c : nat) (r q s : list R) : R :=
  delta q r 0 * (delta q r 0 * T [2; 0; 0]%nat c s + delta q r 1 * T [1; 1; 0]%nat c s + delta q r 2 * T [1; 0; 1]%nat c s)
  + delta q r 1 * (delta q r 0 * T [1; 1; 0]%nat c s + delta q r 1 * T [0; 2; 0]%nat c s + delta q r 2 * T [0; 1; 1]%nat c s)
  + delta q r 2 * (delta q r 0 * T [1; 0; 1]%nat c s + delta q r 1 * T [0; 1; 1]%nat c s + delta q r 2 * T [0; 0; 2]%nat c s).
Lemma lin_line c r q h : derivable_pt_lim (fun h => lin c r q (segment r q h)) h (lin2 c r q (segment r q h)).
Proof.
  unfold lin, lin2, ord. cbn [upd]. apply der_add; [apply der_add|]; apply der_scal; (eapply der_eq; [apply T_line; [auto|intros e He; dim3 e He; cbn; lia]|unfold up; cbn [upd nth]; ring]).
Qed.
Lemma taylor_quadratic x r q : quadratic_decrease sh3 x r q (taylor fd zd x r (sub3 q r)).
Proof.
  exists (-2 * ((nth 0 x 0 - image3 sh3 0 r) * lin 0 r q r + (nth 1 x 0 - image3 sh3 1 r) * lin 1 r q r + (nth 2 x 0 - image3 sh3 2 r) * lin 2 r q r)),
    (2 * (lin 0 r q r * lin 0 r q r + lin 1 r q r * lin 1 r q r + lin 2 r q r * lin 2 r q r - ((nth 0 x 0 - image3 sh3 0 r) * lin2 0 r q r + (nth 1 x 0 - image3 sh3 1 r) * lin2 1 r q r + (nth 2 x 0 - image3 sh3 2 r) * lin2 2 r q r))).
  assert (At : forall c, image3 sh3 c (segment r q 0) = image3 sh3 c r) by (intros c; rewrite <- !T_value3; apply T_at_0).
  assert (A2 : forall c, lin2 c r q (segment r q 0) = lin2 c r q r) by (intros c; unfold lin2; rewrite !T_at_0; auto).
  split; [|split].
  - rewrite <- !At, <- !lin_at. apply (sq_der3 (fun h => image3 sh3 0 (segment r q h)) (fun h => image3 sh3 1 (segment r q h)) (fun h => image3 sh3 2 (segment r q h))); apply image_line.
  - rewrite <- !At, <- !lin_at, <- !A2.
    apply (sq_der23 (fun h => image3 sh3 0 (segment r q h)) (fun h => image3 sh3 1 (segment r q h)) (fun h => image3 sh3 2 (segment r q h)) (fun h => lin 0 r q (segment r q h)) (fun h => lin 1 r q (segment r q h)) (fun h => lin 2 r q (segment r q h))); intros; try apply image_line; apply lin_line.
  - rewrite <- !T_value3. unfold taylor, hs, col, colcol, res3, dims. cbn [map ent nth Nat.add].
    unfold ent. change (nth 0 (jacobian r) 0) with (T (ord 0) 0 r). change (nth 1 (jacobian r) 0) with (T (ord 1) 0 r). change (nth 2 (jacobian r) 0) with (T (ord 2) 0 r).
    change (nth 3 (jacobian r) 0) with (T (ord 0) 1 r). change (nth 4 (jacobian r) 0) with (T (ord 1) 1 r). change (nth 5 (jacobian r) 0) with (T (ord 2) 1 r).
    change (nth 6 (jacobian r) 0) with (T (ord 0) 2 r). change (nth 7 (jacobian r) 0) with (T (ord 1) 2 r). change (nth 8 (jacobian r) 0) with (T (ord 2) 2 r).
    unfold lin, lin2, delta, sub3, dims, ord2, ord. cbn [map ent nth upd Nat.add]. unfold ent. field.
Qed.
Lemma quadratic_taylor x r q v : quadratic_decrease sh3 x r q v -> v = taylor fd zd x r (sub3 q r).
Proof.
  intros (f1 & f2 & A & B & ->). destruct (taylor_quadratic x r q) as (g1 & g2 & A' & B' & ->). rewrite (uniqueness_limite _ _ _ _ A A'), (derivative2_unique _ _ _ _ B B'). auto.
Qed.
Lemma box_cube r : in_box3 r <-> cube r. Proof. reflexivity. Qed.
Lemma predicted_ok3 x r r' v : in_box3 r' -> predicted3 fd zd x r r' v -> prediction3 sh3 x r r' v.
Proof.
  intros B (rho & Hr & N & H). exists rho. split; [auto|]. split; [split; [exact B|exact N]|]. destruct H as [[H1 H2]|(H1 & F & F0 & F1 & F2)].
  - left. exists (obj3 (jacobian r) (res3 fd zd x r) (sub3 r' r)). split; [apply obj_linear|]. split; [rewrite <- D_sqdist3; auto|].
    intros q [Bq Nq] Hq. apply linear_obj in Hq. apply H2; [exact Bq|exact Nq|auto].
  - right. split; [rewrite H1; apply taylor_quadratic|]. exists F. split; [auto|]. split; [auto|]. intros q w [Bq Nq] Hq Hw. rewrite (quadratic_taylor _ _ _ _ Hw). apply F2; [exact Bq|exact Nq|exact Hq].
Qed.
Lemma has_partials3 r : length r = 3%nat -> partials3 sh3 r (fun c d => T (ord d) c r).
Proof.
  intros L c d Hc Hd. apply derivable_pt_lim_ext with (f := fun t => T [0; 0; 0]%nat c (upd r d t)); [intros; apply T_value3|].
  pose proof (T_der fd zd Qd Hel Hux d [0; 0; 0]%nat c r (ent r d) Hd eq_refl) as Q. dim3 d Hd; apply Q; cbn; auto.
Qed.
Lemma regular_reg3 : regular3 sh3 -> forall r, in_box3 r -> det3 (jacobian r) <> 0.
Proof.
  intros H r B. pose proof (H r _ B (has_partials3 r (proj1 B))) as Q. intros E. apply Q. rewrite <- E. unfold det3.
  change (ent (jacobian r) 0) with (T (ord 0) 0 r). change (ent (jacobian r) 1) with (T (ord 1) 0 r). change (ent (jacobian r) 2) with (T (ord 2) 0 r).
  change (ent (jacobian r) 3) with (T (ord 0) 1 r). change (ent (jacobian r) 4) with (T (ord 1) 1 r). change (ent (jacobian r) 5) with (T (ord 2) 1 r).
  change (ent (jacobian r) 6) with (T (ord 0) 2 r). change (ent (jacobian r) 7) with (T (ord 1) 2 r). change (ent (jacobian r) 8) with (T (ord 2) 2 r). ring.
Qed.
Lemma upd_self (r : list R) d : (d < length r)%nat -> upd r d (nth d r 0) = r.
Proof. revert d. induction r as [|a r IH]; intros d H; cbn in H; [lia|]. destruct d as [|d]; cbn [upd nth]; [auto|]. f_equal. apply IH. lia. Qed.
Lemma corner_ok3 x r : length r = 3%nat -> corner_stop3 fd zd x r -> corner_min3 sh3 x r.
Proof.
  intros L H d Hd. destruct (H d Hd) as [A B]. split; [exact A|]. intros f Hf. pose proof (has_partials3 r L) as Pp.
  assert (Q : derivable_pt_lim (fun t => sqdist3 sh3 x (upd r d t)) (nth d r 0) (-2 * ((nth 0 x 0 - image3 sh3 0 (upd r d (nth d r 0))) * T (ord d) 0 r + (nth 1 x 0 - image3 sh3 1 (upd r d (nth d r 0))) * T (ord d) 1 r + (nth 2 x 0 - image3 sh3 2 (upd r d (nth d r 0))) * T (ord d) 2 r))).
  { apply (sq_der3 (fun t => image3 sh3 0 (upd r d t)) (fun t => image3 sh3 1 (upd r d t)) (fun t => image3 sh3 2 (upd r d t))); apply Pp; lia. }
  rewrite (uniqueness_limite _ _ _ _ Hf Q), upd_self by lia. rewrite <- !T_value3. unfold col, res3, dims in B. cbn [map ent nth] in B.
  assert (J : forall c, (c < 3)%nat -> ent (jacobian r) (3 * c + d) = T (ord d) c r) by (intros c Hc; apply jac_ent; auto).
  pose proof (J 0%nat ltac:(lia)) as J0. pose proof (J 1%nat ltac:(lia)) as J1. pose proof (J 2%nat ltac:(lia)) as J2. cbn [Nat.mul Nat.add] in J0, J1, J2. cbn [Nat.add] in B. rewrite J0, J1, J2 in B. unfold ent in B.
  rewrite Rmult_assoc. apply Rmult_le_0_l; [lra|]. eapply Rle_trans; [exact B|]. right. ring.
Qed.
End Link.
