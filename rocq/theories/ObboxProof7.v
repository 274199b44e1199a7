(** obbox_calc_3: elements. *)
From Verif Require Import Base BaseLemmas Tensor TensorSpec TensorProof Poly PolySpec PolyProof1 PolyProof2 PolyProof3 PolyImpSyntax PolyImp PolyGll LobBnd LobBndSpec LobBndProof1 LobBndProof3 LobBndSetupProof2 Obbox ObboxSpec ObboxMax ObboxProof1 ObboxProof2 ObboxProof3 ObboxProof4 ObboxProof5 ObboxProof6.
From Coq Require Import Reals Lra Psatz.
Open Scope R_scope.

(** The six faces. *)
Lemma face_triple nr ns nt zr zs zt (x y z : nat -> R) r s t (Q : R -> R -> R -> Prop) : distinct zr nr -> distinct zs ns -> distinct zt nt ->
  get zr 0 = -1 -> get zr (nr - 1) = 1 -> get zs 0 = -1 -> get zs (ns - 1) = 1 -> get zt 0 = -1 -> get zt (nt - 1) = 1 -> (2 <= nr)%nat -> (2 <= ns)%nat -> (2 <= nt)%nat -> face_3 r s t ->
  (forall r s, I1 r -> I1 s -> Q (pv2 zr nr zs ns x r s) (pv2 zr nr zs ns y r s) (pv2 zr nr zs ns z r s)) ->
  (let sh v := fun i => v (nr * ns * nt - nr * ns + i)%nat in forall r s, I1 r -> I1 s -> Q (pv2 zr nr zs ns (sh x) r s) (pv2 zr nr zs ns (sh y) r s) (pv2 zr nr zs ns (sh z) r s)) ->
  (let sh v := fun i => v (0 + (i / nr * (ns * nr) + i mod nr))%nat in forall r t, I1 r -> I1 t -> Q (pv2 zr nr zt nt (sh x) r t) (pv2 zr nr zt nt (sh y) r t) (pv2 zr nr zt nt (sh z) r t)) ->
  (let sh v := fun i => v (nr * ns - nr + (i / nr * (ns * nr) + i mod nr))%nat in forall r t, I1 r -> I1 t -> Q (pv2 zr nr zt nt (sh x) r t) (pv2 zr nr zt nt (sh y) r t) (pv2 zr nr zt nt (sh z) r t)) ->
  (let sh v := fun i => v (0 + (i / 1 * (nr * 1) + i mod 1))%nat in forall s t, I1 s -> I1 t -> Q (pv2 zs ns zt nt (sh x) s t) (pv2 zs ns zt nt (sh y) s t) (pv2 zs ns zt nt (sh z) s t)) ->
  (let sh v := fun i => v (nr - 1 + (i / 1 * (nr * 1) + i mod 1))%nat in forall s t, I1 s -> I1 t -> Q (pv2 zs ns zt nt (sh x) s t) (pv2 zs ns zt nt (sh y) s t) (pv2 zs ns zt nt (sh z) s t)) ->
  Q (pv3 zr nr zs ns zt nt x r s t) (pv3 zr nr zs ns zt nt y r s t) (pv3 zr nr zs ns zt nt z r s t).
Proof.
  intros Dr Ds Dt Fr Lr Fs Ls Ft Lt Nr Ns Nt (Ir & Is & It & H) Q1 Q2 Q3 Q4 Q5 Q6. cbv zeta in *.
  assert (A : forall v k s t, (k < nr)%nat -> pv3 zr nr zs ns zt nt v (get zr k) s t = pv2 zs ns zt nt (fun i => v (k + (i / 1 * (nr * 1) + i mod 1)))%nat s t).
  { intros v k s' t' Hk. apply pv3_r_node; auto. intros j i Hj Hi. rewrite Nat.div_1_r, Nat.mod_1_r. f_equal. nia. }
  assert (B : forall v k r t, (k < ns)%nat -> pv3 zr nr zs ns zt nt v r (get zs k) t = pv2 zr nr zt nt (fun i => v (k * nr + (i / nr * (ns * nr) + i mod nr)))%nat r t).
  { intros v k r' t' Hk. apply pv3_s_node; auto. intros j i Hj Hi. replace ((j * nr + i) / nr)%nat with j by (rewrite Nat.div_add_l, Nat.div_small by lia; lia). replace ((j * nr + i) mod nr)%nat with i by (rewrite Nat.add_comm, Nat.mod_add, Nat.mod_small by lia; lia). f_equal. nia. }
  assert (C : forall v k r s, (k < nt)%nat -> pv3 zr nr zs ns zt nt v r s (get zt k) = pv2 zr nr zs ns (fun i => v (k * (nr * ns) + i)%nat) r s).
  { intros v k r' s' Hk. apply pv3_t_node; auto. }
  destruct H as [->|[->|[->|[->|[->| ->]]]]].
  - rewrite <- Fr, !A by lia. apply Q5; auto.
  - rewrite <- Lr, !A by lia. apply Q6; auto.
  - rewrite <- Fs, !B by lia. apply Q3; auto.
  - rewrite <- Ls, !B by lia. replace ((ns - 1) * nr)%nat with (nr * ns - nr)%nat by nia. apply Q4; auto.
  - rewrite <- Ft, !C by lia. apply Q1; auto.
  - rewrite <- Lt, !C by lia. replace ((nt - 1) * (nr * ns))%nat with (nr * ns * nt - nr * ns)%nat by nia. apply Q2; auto.
Qed.

Lemma idx1 nr ns nt xo off k l len : (xo + nr * ns * nt <= len)%nat -> (2 <= ns)%nat -> (off <= nr * ns - nr)%nat -> (k < nt)%nat -> (l < nr)%nat -> (xo + off + k * (ns * nr) + l < len)%nat.
Proof. intros H Hs Ho Hk Hl. assert (k * (ns * nr) + nr * ns <= nr * ns * nt)%nat by nia. assert (nr <= nr * ns)%nat by nia. lia. Qed.
Lemma idx2 nr ns nt xo off k l len : (xo + nr * ns * nt <= len)%nat -> (2 <= nr)%nat -> (off <= nr - 1)%nat -> (k < ns * nt)%nat -> (l < 1)%nat -> (xo + off + k * (nr * 1) + l < len)%nat.
Proof. intros H Hr Ho Hk Hl. assert (k * (nr * 1) + nr <= nr * ns * nt)%nat by nia. lia. Qed.

Section Element.
Variable nodes_n : arr -> nat -> res arr.
Variable P : products R.
Hypothesis G : good R 0 Rplus Rmult P.
Variables (nr ns nt mr ms mt : nat) (zr zs zt I0r I0s I0t dr ds dt : arr).
Hypothesis (Gr : good_dir nodes_n nr mr zr) (Gs : good_dir nodes_n ns ms zs) (Gt : good_dir nodes_n nt mt zt).
Hypothesis (Or : dir_ok I0r dr nr mr zr) (Os : dir_ok I0s ds ns ms zs) (Ot : dir_ok I0t dt nt mt zt).
Lemma el_3_ok x y z xo tol w : 0 <= tol -> (xo + nr * ns * nt <= length x)%nat -> (xo + nr * ns * nt <= length y)%nat -> (xo + nr * ns * nt <= length z)%nat ->
  (3 * nr * ns + 2 * mr * (ns + ms + 1) <= length w)%nat -> (6 * nr * nt + 2 * mr * (nt + mt + 1) <= length w)%nat -> (6 * ns * nt + 2 * ms * (nt + mt + 1) <= length w)%nat ->
  (2 * nr * ns + 3 * nr <= length w)%nat ->
  exists b w', obbox_el_3 P I0r I0s I0t dr ds dt nr ns nt mr ms mt x y z xo tol w = Ok (b, w') /\ length w' = length w /\
    let X := pv3 zr nr zs ns zt nt (fun i => get x (xo + i)) in let Y := pv3 zr nr zs ns zt nt (fun i => get y (xo + i)) in let Z := pv3 zr nr zs ns zt nt (fun i => get z (xo + i)) in
    (forall r s t, face_3 r s t -> in_axes_3 b (X r s t) (Y r s t) (Z r s t)) /\
    (regular_3 X Y Z -> forall r s t, I1 r -> I1 s -> I1 t -> in_axes_3 b (X r s t) (Y r s t) (Z r s t) /\ in_oriented_3 b (X r s t) (Y r s t) (Z r s t)) /\ proper b 0 /\ proper b 1 /\ proper b 2.
Proof.
  intros Ht Hx Hy Hz W1 W2 W3 W4. destruct Gr as [Nr Mr Pr Fr Lr _]. destruct Gs as [Ns Ms Ps Fs Ls _]. destruct Gt as [Nt Mt Pt Ft Lt _].
  pose proof (lp_distinct _ _ _ Pr) as Dr. pose proof (lp_distinct _ _ _ Ps) as Ds. pose proof (lp_distinct _ _ _ Pt) as Dt.
  unfold obbox_el_3. cbv zeta.
  rewrite !(ig3_ok R 0 1 Rplus Rmult Rminus Ropp RTheory P G) by (rewrite ?skipn_length, ?(do_len _ _ _ _ _ Or), ?(do_len _ _ _ _ _ Os), ?(do_len _ _ _ _ _ Ot); lia). cbn [bind].
  rewrite !apply3_D3.
  set (x0 := [_; _; _]). set (J := _ ++ _). set (Ji := mat_inv_3 J).
  set (top := (xo + (nr * ns * nt - nr * ns))%nat).
  assert (Rn : (nr * ns <= nr * ns * nt)%nat) by nia. assert (Sn : (nr <= nr * ns)%nat) by nia.
  destruct (face_ok x0 Ji None None None None None None w false dr nr mr ds ns ms (Fixed x xo) (Fixed y xo) (Fixed z xo) 0 (do_bd _ _ _ _ _ Or) (do_bd _ _ _ _ _ Os)) as (a0 & a1 & a2 & p0 & p1 & p2 & w1 & E & [L1 _] & _ & C1); try discriminate; try (cbn [safe]; lia).
  rewrite E. cbn [bind]. clear E.
  destruct (face_ok x0 Ji (Some a0) (Some a1) (Some a2) (Some p0) (Some p1) (Some p2) w1 true dr nr mr ds ns ms (Fixed x top) (Fixed y top) (Fixed z top) 0 (do_bd _ _ _ _ _ Or) (do_bd _ _ _ _ _ Os)) as (b0 & b1 & b2 & q0 & q1 & q2 & w2 & E & [L2 _] & JJ & C2); try discriminate; try (cbn [safe]; lia).
  rewrite E. cbn [bind]. clear E. pose proof (joined_6 x0 Ji _ _ _ _ _ _ _ _ _ _ _ _ JJ) as M2. clear JJ.
  destruct (get_face_ok x0 Ji b0 b1 b2 q0 q1 q2 w2 dr nr mr dt nt mt x y z xo 0 nr ns nt (do_bd _ _ _ _ _ Or) (do_bd _ _ _ _ _ Ot)) as (c0 & c1 & c2 & h0 & h1 & h2 & w3 & E & L3 & M3 & C3); [lia|lia|lia|intros k l Hk Hl; apply (idx1 nr ns nt); auto; lia|intros k l Hk Hl; apply (idx1 nr ns nt); auto; lia|intros k l Hk Hl; apply (idx1 nr ns nt); auto; lia|].
  rewrite E. cbn [bind]. clear E.
  destruct (get_face_ok x0 Ji c0 c1 c2 h0 h1 h2 w3 dr nr mr dt nt mt x y z xo (nr * ns - nr) nr ns nt (do_bd _ _ _ _ _ Or) (do_bd _ _ _ _ _ Ot)) as (d0 & d1 & d2 & i0 & i1 & i2 & w4 & E & L4 & M4 & C4); [lia|lia|lia|intros k l Hk Hl; apply (idx1 nr ns nt); auto; lia|intros k l Hk Hl; apply (idx1 nr ns nt); auto; lia|intros k l Hk Hl; apply (idx1 nr ns nt); auto; lia|].
  rewrite E. cbn [bind]. clear E.
  destruct (get_face_ok x0 Ji d0 d1 d2 i0 i1 i2 w4 ds ns ms dt nt mt x y z xo 0 1 nr (ns * nt) (do_bd _ _ _ _ _ Os) (do_bd _ _ _ _ _ Ot)) as (e0 & e1 & e2 & j0 & j1 & j2 & w5 & E & L5 & M5 & C5); [lia|lia|lia|intros k l Hk Hl; apply (idx2 nr ns nt); auto; lia|intros k l Hk Hl; apply (idx2 nr ns nt); auto; lia|intros k l Hk Hl; apply (idx2 nr ns nt); auto; lia|].
  rewrite E. cbn [bind]. clear E.
  destruct (get_face_ok x0 Ji e0 e1 e2 j0 j1 j2 w5 ds ns ms dt nt mt x y z xo (nr - 1) 1 nr (ns * nt) (do_bd _ _ _ _ _ Os) (do_bd _ _ _ _ _ Ot)) as (f0 & f1 & f2 & k0 & k1 & k2 & w6 & E & L6 & M6 & C6); [lia|lia|lia|intros k l Hk Hl; apply (idx2 nr ns nt); auto; lia|intros k l Hk Hl; apply (idx2 nr ns nt); auto; lia|intros k l Hk Hl; apply (idx2 nr ns nt); auto; lia|].
  rewrite E. cbn [bind]. clear E.
  eexists. exists w6. split; [reflexivity|]. split; [congruence|].
  set (X := pv3 zr nr zs ns zt nt (fun i => get x (xo + i))). set (Y := pv3 zr nr zs ns zt nt (fun i => get y (xo + i))). set (Z := pv3 zr nr zs ns zt nt (fun i => get z (xo + i))).
  assert (C : forall r s t, face_3 r s t -> covers_3 x0 Ji f0 f1 f2 k0 k1 k2 (X r s t) (Y r s t) (Z r s t)).
  { intros r s t Fa. unfold X, Y, Z. apply (face_triple nr ns nt zr zs zt _ _ _ r s t (covers_3 x0 Ji f0 f1 f2 k0 k1 k2)); auto; cbv beta zeta in *.
    - intros r' s' Hr' Hs'. apply M6, M5, M4, M3, M2. specialize (C1 r' s' Hr' Hs'). rewrite !(pv2_nodes dr zr nr ds zs ns) in C1 by first [apply Or|apply Os]. exact C1.
    - intros r' s' Hr' Hs'. apply M6, M5, M4, M3. specialize (C2 r' s' Hr' Hs'). rewrite !(pv2_nodes dr zr nr ds zs ns) in C2 by first [apply Or|apply Os].
      assert (V : forall v : arr, pv2 zr nr zs ns (fun i => get v (xo + (nr * ns * nt - nr * ns + i))) r' s' = pv2 zr nr zs ns (sv w1 (Fixed v top)) r' s').
      { intros v. apply pv2_ext. intros i Hi. unfold sv. cbn [src_arr src_off]. f_equal. unfold top. lia. }
      cbv beta. rewrite !V. exact C2.
    - intros r' s' Hr' Hs'. apply M6, M5, M4. specialize (C3 r' s' Hr' Hs'). rewrite !(pv2_nodes dr zr nr dt zt nt) in C3 by first [apply Or|apply Ot].
      assert (V : forall v : arr, pv2 zr nr zt nt (fun i => get v (xo + (0 + (i / nr * (ns * nr) + i mod nr)))) r' s' = pv2 zr nr zt nt (fun i => get v (xo + 0 + (i / nr * (ns * nr) + i mod nr))) r' s').
      { intros v. apply pv2_ext. intros i Hi. f_equal. lia. }
      cbv beta. rewrite !V. exact C3.
    - intros r' s' Hr' Hs'. apply M6, M5. specialize (C4 r' s' Hr' Hs'). rewrite !(pv2_nodes dr zr nr dt zt nt) in C4 by first [apply Or|apply Ot].
      assert (V : forall v : arr, pv2 zr nr zt nt (fun i => get v (xo + (nr * ns - nr + (i / nr * (ns * nr) + i mod nr)))) r' s' = pv2 zr nr zt nt (fun i => get v (xo + (nr * ns - nr) + (i / nr * (ns * nr) + i mod nr))) r' s').
      { intros v. apply pv2_ext. intros i Hi. f_equal. lia. }
      cbv beta. rewrite !V. exact C4.
    - intros r' s' Hr' Hs'. apply M6. specialize (C5 r' s' Hr' Hs'). rewrite !(pv2_nodes ds zs ns dt zt nt) in C5 by first [apply Os|apply Ot].
      assert (V : forall v : arr, pv2 zs ns zt nt (fun i => get v (xo + (0 + (i / 1 * (nr * 1) + i mod 1)))) r' s' = pv2 zs ns zt nt (fun i => get v (xo + 0 + (i / 1 * (nr * 1) + i mod 1))) r' s').
      { intros v. apply pv2_ext. intros i Hi. f_equal. lia. }
      cbv beta. rewrite !V. exact C5.
    - intros r' s' Hr' Hs'. specialize (C6 r' s' Hr' Hs'). rewrite !(pv2_nodes ds zs ns dt zt nt) in C6 by first [apply Os|apply Ot].
      assert (V : forall v : arr, pv2 zs ns zt nt (fun i => get v (xo + (nr - 1 + (i / 1 * (nr * 1) + i mod 1)))) r' s' = pv2 zs ns zt nt (fun i => get v (xo + (nr - 1) + (i / 1 * (nr * 1) + i mod 1))) r' s').
      { intros v. apply pv2_ext. intros i Hi. f_equal. lia. }
      cbv beta. rewrite !V. exact C6. }
  clear C1 C2 C3 C4 C5 C6 M2 M3 M4 M5 M6.
  assert (Q : face_3 (-1) (-1) (-1)) by (unfold face_3, I1; lra).
  assert (S0 : sub_range f0 (dbl_range_expand f0 tol)) by (apply expand_in; auto; destruct (C _ _ _ Q) as ([? ?] & _); lra).
  assert (S1 : sub_range f1 (dbl_range_expand f1 tol)) by (apply expand_in; auto; destruct (C _ _ _ Q) as (_ & [? ?] & _); lra).
  assert (S2 : sub_range f2 (dbl_range_expand f2 tol)) by (apply expand_in; auto; destruct (C _ _ _ Q) as (_ & _ & [? ?] & _); lra).
  change (Box _ _ _) with (box_3 x0 J Ji f0 f1 f2 k0 k1 k2 tol).
  assert (A : forall r s t, face_3 r s t -> in_axes_3 (box_3 x0 J Ji f0 f1 f2 k0 k1 k2 tol) (X r s t) (Y r s t) (Z r s t)).
  { intros r s t Fa. destruct (C r s t Fa) as (A0 & A1 & A2 & _). split; [apply (sub_in _ _ _ S0 A0)|]. split; [apply (sub_in _ _ _ S1 A1)|apply (sub_in _ _ _ S2 A2)]. }
  split; [exact A|]. split; [|destruct (A _ _ _ Q) as [[A1 A2] [[A3 A4] [A5 A6]]]; unfold proper; lra].
  intros Reg r s t Hr Hs Hht. apply (box_3_ok zr zs zt nr ns nt _ _ _ Reg); auto; cbn [J app ent nth].
  all: [> apply D3_r | apply D3_s | apply D3_t | apply D3_r | apply D3_s | apply D3_t | apply D3_r | apply D3_s | apply D3_t ].
  all: intros i Hi; unfold row; rewrite ?Nat.mul_1_l; first [apply Or; auto|apply Os; auto|apply Ot; auto].
Qed.
End Element.

Lemma poly_pv3 zr nr zs ns zt nt x xo r s t : poly_3 zr nr zs ns zt nt x xo r s t = pv3 zr nr zs ns zt nt (fun i => get x (xo + i)) r s t.
Proof.
  unfold poly_3, pv3, pv2, pv1. apply rsum_ext. intros k _. rewrite Rmult_comm, <- rsum_scal. apply rsum_ext. intros j _. rewrite (Rmult_comm (rsum nr _) (basis zs ns j s)), <- Rmult_assoc, <- rsum_scal. apply rsum_ext. intros i _.
  replace (xo + ((k * ns + j) * nr + i))%nat with (xo + (k * (nr * ns) + (j * nr + i)))%nat by lia. ring.
Qed.
(** What obbox_calc_3 guarantees for one element. *)
Definition box_good_3 (zr : arr) nr (zs : arr) ns (zt : arr) nt (x y z : arr) xo (b : obbox) : Prop :=
  let X := poly_3 zr nr zs ns zt nt x xo in let Y := poly_3 zr nr zs ns zt nt y xo in let Z := poly_3 zr nr zs ns zt nt z xo in
  (forall r s t, face_3 r s t -> in_axes_3 b (X r s t) (Y r s t) (Z r s t)) /\
  (regular_3 X Y Z -> forall r s t, I1 r -> I1 s -> I1 t -> in_axes_3 b (X r s t) (Y r s t) (Z r s t) /\ in_oriented_3 b (X r s t) (Y r s t) (Z r s t)) /\ proper b 0 /\ proper b 1 /\ proper b 2.
Lemma regular_3_ext X Y Z X' Y' Z' : (forall r s t, X r s t = X' r s t) -> (forall r s t, Y r s t = Y' r s t) -> (forall r s t, Z r s t = Z' r s t) -> regular_3 X Y Z -> regular_3 X' Y' Z'.
Proof.
  intros HX HY HZ H r s t xr xs xt yr ys yt zr zs zt Hr Hs Ht A B C D E F K L M. apply (H r s t); auto; (eapply derivable_pt_lim_ext; [|eassumption]); intros; cbv beta; auto.
Qed.
Lemma calc_3_ok nodes_n P x y z nr ns nt nel mr ms mt zr zs zt tol : good R 0 Rplus Rmult P -> good_dir nodes_n nr mr zr -> good_dir nodes_n ns ms zs -> good_dir nodes_n nt mt zt -> 0 <= tol ->
  (nel * (nr * ns * nt) <= length x)%nat -> (nel * (nr * ns * nt) <= length y)%nat -> (nel * (nr * ns * nt) <= length z)%nat ->
  exists out, obbox_calc_3 nodes_n P x y z nr ns nt nel mr ms mt tol = Ok out /\ length out = nel /\
    forall e b, nth_error out e = Some b -> box_good_3 zr nr zs ns zt nt x y z (e * (nr * ns * nt)) b.
Proof.
  intros G Gr Gs Gt Ht Hx Hy Hz. unfold obbox_calc_3. cbv zeta. set (wsize := Nat.max _ _).
  destruct (setup_dir_ok nodes_n nr mr zr (repeat 0 wsize) Gr) as (I0r & dr & w1 & E & L1 & Or); [rewrite repeat_length; lia|]. rewrite E. cbn [bind]. clear E. rewrite repeat_length in L1.
  destruct (setup_dir_ok nodes_n ns ms zs w1 Gs) as (I0s & ds & w2 & E & L2 & Os); [lia|]. rewrite E. cbn [bind]. clear E.
  destruct (setup_dir_ok nodes_n nt mt zt w2 Gt) as (I0t & dt & w3 & E & L3 & Ot); [lia|]. rewrite E. cbn [bind]. clear E.
  destruct (loop_ok (fun e b => box_good_3 zr nr zs ns zt nt x y z (e * (nr * ns * nt)) b) (fun e w => obbox_el_3 P I0r I0s I0t dr ds dt nr ns nt mr ms mt x y z (e * (nr * ns * nt)) tol w) nel wsize w3) as (out & w4 & E & Lo & F); [congruence| |].
  - intros e w He Lw. assert (He' : (e * (nr * ns * nt) + nr * ns * nt <= nel * (nr * ns * nt))%nat) by (clear - He; replace (e * (nr * ns * nt) + nr * ns * nt)%nat with (S e * (nr * ns * nt))%nat by lia; apply Nat.mul_le_mono_r; lia).
    destruct (el_3_ok nodes_n P G nr ns nt mr ms mt zr zs zt I0r I0s I0t dr ds dt Gr Gs Gt Or Os Ot x y z (e * (nr * ns * nt)) tol w Ht) as (b & w' & E & Lw' & A & B & Pr); [lia|lia|lia|lia|lia|lia|lia|].
    exists b, w'. split; [auto|]. split; [auto|]. unfold box_good_3. split; [|split; [|auto]].
    + intros r s t Fa. rewrite !poly_pv3. auto.
    + intros Reg r s t Hr Hs Ht'. rewrite !poly_pv3. apply B; auto. revert Reg. apply regular_3_ext; intros; apply poly_pv3.
  - rewrite E. cbn [bind]. exists out. auto.
Qed.
