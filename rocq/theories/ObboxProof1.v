(** The tests; the geometry of the boxes. *)
From Verif Require Import Base BaseLemmas Poly PolySpec PolyProof1 PolyProof2 PolyProof3 LobBnd LobBndSpec LobBndProof3 Obbox ObboxSpec ObboxMax.
From Coq Require Import Reals Lra Psatz.
Open Scope R_scope.

Lemma prod_in a b x : a <= b -> (0 <= (x - a) * (b - x) <-> a <= x <= b).
Proof. intros H. split; [|nra]. intros G. split; apply Rnot_lt_le; intros N; nra. Qed.
Lemma unit_in x : 0 <= (x + 1) * (1 - x) <-> -1 <= x <= 1.
Proof. replace (x + 1) with (x - -1) by ring. apply prod_in. lra. Qed.
Lemma axis_test_2 b x y : proper b 0 -> proper b 1 -> 0 <= obbox_axis_test_2 b [x; y] <-> in_axes_2 b x y.
Proof.
  intros P0 P1. unfold obbox_axis_test_2, in_axes_2, in_range, proper in *. cbn [ent nth].
  pose proof (prod_in _ _ x P0) as A. pose proof (prod_in _ _ y P1) as B. destruct (Rlt_dec _ 0) as [L|L].
  - split; [lra|]. intros [Q _]. apply A in Q. lra.
  - rewrite <- A, <- B. split; [intros; split; lra|tauto].
Qed.
Lemma axis_test_3 b x y z : proper b 0 -> proper b 1 -> proper b 2 -> 0 <= obbox_axis_test_3 b [x; y; z] <-> in_axes_3 b x y z.
Proof.
  intros P0 P1 P2. unfold obbox_axis_test_3, in_axes_3, in_range, proper in *. cbn [ent nth].
  pose proof (prod_in _ _ x P0) as A. pose proof (prod_in _ _ y P1) as B. pose proof (prod_in _ _ z P2) as C. destruct (Rlt_dec _ 0) as [L|L].
  - split; [lra|]. intros [Q _]. apply A in Q. lra.
  - destruct (Rlt_dec _ 0) as [L'|L'].
    + split; [lra|]. intros (_ & Q & _). apply B in Q. lra.
    + rewrite <- A, <- B, <- C. split; [intros; repeat split; lra|tauto].
Qed.
Lemma test_2 b x y : proper b 0 -> proper b 1 -> 0 <= obbox_test_2 b [x; y] <-> in_axes_2 b x y /\ in_oriented_2 b x y.
Proof.
  intros P0 P1. rewrite <- (axis_test_2 b x y P0 P1). unfold obbox_test_2, in_oriented_2. destruct (Rlt_dec (obbox_axis_test_2 _ _) 0) as [L|L]; [split; [lra|tauto]|].
  change (ent [x; y] 0) with x. change (ent [x; y] 1) with y.
  match goal with |- context [Rlt_dec ((?r + 1) * (1 - ?r)) 0] => set (r1 := r) end.
  match goal with |- context [(?r + 1) * (1 - ?r)] => lazymatch r with r1 => fail | _ => set (r2 := r) end end.
  rewrite <- (unit_in r1), <- (unit_in r2).
  destruct (Rlt_dec _ 0) as [M|M]; [split; [lra|]; intros (_ & Q & _); lra|]. split; [intros; repeat split; lra|tauto].
Qed.
Lemma test_3 b x y z : proper b 0 -> proper b 1 -> proper b 2 -> 0 <= obbox_test_3 b [x; y; z] <-> in_axes_3 b x y z /\ in_oriented_3 b x y z.
Proof.
  intros P0 P1 P2. rewrite <- (axis_test_3 b x y z P0 P1 P2). unfold obbox_test_3, in_oriented_3. destruct (Rlt_dec (obbox_axis_test_3 _ _) 0) as [L|L]; [split; [lra|tauto]|].
  change (ent [x; y; z] 0) with x. change (ent [x; y; z] 1) with y. change (ent [x; y; z] 2) with z.
  match goal with |- context [Rlt_dec ((?r + 1) * (1 - ?r)) 0] => set (r1 := r) end.
  match goal with |- context [Rlt_dec ((?r + 1) * (1 - ?r)) 0] => lazymatch r with r1 => fail | _ => set (r2 := r) end end.
  match goal with |- context [(?r + 1) * (1 - ?r)] => lazymatch r with r1 => fail | r2 => fail | _ => set (r3 := r) end end.
  rewrite <- (unit_in r1), <- (unit_in r2), <- (unit_in r3).
  destruct (Rlt_dec _ 0) as [M|M]; [split; [lra|]; intros (_ & Q & _); lra|]. destruct (Rlt_dec _ 0) as [N|N]; [split; [lra|]; intros (_ & _ & Q & _); lra|]. split; [intros; repeat split; lra|tauto].
Qed.

Definition sub_range (a b : range) : Prop := rmin b <= rmin a /\ rmax a <= rmax b.
Lemma sub_in a b x : sub_range a b -> in_range x a -> in_range x b.
Proof. unfold sub_range, in_range. lra. Qed.
Lemma merge_l a b : sub_range a (dbl_range_merge a b).
Proof. unfold sub_range, dbl_range_merge. cbn [rmin rmax]. destruct (Rlt_dec _ _), (Rgt_dec _ _); lra. Qed.
Lemma merge_r a b : sub_range b (dbl_range_merge a b).
Proof. unfold sub_range, dbl_range_merge. cbn [rmin rmax]. destruct (Rlt_dec _ _), (Rgt_dec _ _); lra. Qed.
Lemma expand_in b tol : 0 <= tol -> rmin b <= rmax b -> sub_range b (dbl_range_expand b tol).
Proof. intros T H. unfold sub_range, dbl_range_expand. cbn [rmin rmax]. split; nra. Qed.

(** Linear combinations of polynomials. *)
Lemma pv1_lin z n u v a b r : pv1 z n (fun i => a * u i + b * v i) r = a * pv1 z n u r + b * pv1 z n v r.
Proof. unfold pv1. rewrite <- !rsum_scal, <- rsum_plus. apply rsum_ext. intros. ring. Qed.
Lemma pv2_lin zr nr zs ns u v a b r s : pv2 zr nr zs ns (fun i => a * u i + b * v i) r s = a * pv2 zr nr zs ns u r s + b * pv2 zr nr zs ns v r s.
Proof. unfold pv2. rewrite <- !rsum_scal, <- rsum_plus. apply rsum_ext. intros. rewrite pv1_lin. ring. Qed.
Lemma pv3_lin zr nr zs ns zt nt u v a b r s t : pv3 zr nr zs ns zt nt (fun i => a * u i + b * v i) r s t = a * pv3 zr nr zs ns zt nt u r s t + b * pv3 zr nr zs ns zt nt v r s t.
Proof. unfold pv3. rewrite <- !rsum_scal, <- rsum_plus. apply rsum_ext. intros. rewrite pv2_lin. ring. Qed.
Lemma pv1_const z n c r : distinct z n -> (2 <= n)%nat -> pv1 z n (fun _ => c) r = c.
Proof. intros D Hn. unfold pv1. rewrite rsum_scal. destruct (basis_sum z n r D Hn) as [-> _]. ring. Qed.

Lemma coord_2 ji0 ji1 j0 j1 j2 j3 di a b x0 y0 av0 av1 : ji0 * j0 + ji1 * j2 = 1 -> ji0 * j1 + ji1 * j3 = 0 ->
  -1 <= di * (ji0 * (a - x0) + ji1 * (b - y0) - av0) <= 1 ->
  -1 <= di * ji0 * (a - (x0 + j0 * av0 + j1 * av1)) + di * ji1 * (b - (y0 + j2 * av0 + j3 * av1)) <= 1.
Proof.
  intros E F H. replace (di * ji0 * (a - (x0 + j0 * av0 + j1 * av1)) + di * ji1 * (b - (y0 + j2 * av0 + j3 * av1))) with
    (di * (ji0 * (a - x0) + ji1 * (b - y0) - av0 * (ji0 * j0 + ji1 * j2) - av1 * (ji0 * j1 + ji1 * j3))) by ring. rewrite E, F. rewrite Rmult_1_r, Rmult_0_r, Rminus_0_r. auto.
Qed.
Lemma coord_2' ji0 ji1 j0 j1 j2 j3 di a b x0 y0 av0 av1 : ji0 * j0 + ji1 * j2 = 0 -> ji0 * j1 + ji1 * j3 = 1 ->
  -1 <= di * (ji0 * (a - x0) + ji1 * (b - y0) - av1) <= 1 ->
  -1 <= di * ji0 * (a - (x0 + j0 * av0 + j1 * av1)) + di * ji1 * (b - (y0 + j2 * av0 + j3 * av1)) <= 1.
Proof.
  intros E F H. replace (di * ji0 * (a - (x0 + j0 * av0 + j1 * av1)) + di * ji1 * (b - (y0 + j2 * av0 + j3 * av1))) with
    (di * (ji0 * (a - x0) + ji1 * (b - y0) - av0 * (ji0 * j0 + ji1 * j2) - av1 * (ji0 * j1 + ji1 * j3))) by ring. rewrite E, F. rewrite Rmult_1_r, Rmult_0_r, Rminus_0_r. auto.
Qed.

Lemma scaled rg tol v : 0 <= tol -> rmin rg < rmax rg -> in_range v rg -> -1 <= 2 / ((1 + tol) * (rmax rg - rmin rg)) * (v - (rmin rg + rmax rg) / 2) <= 1.
Proof.
  unfold in_range. intros T W H. set (l := rmax rg - rmin rg). assert (0 < l) by (unfold l; lra). assert (P : 0 < (1 + tol) * l) by nra.
  set (d := v - (rmin rg + rmax rg) / 2). assert (- l <= 2 * d <= l) by (unfold d, l; lra). replace (2 / ((1 + tol) * l) * d) with (2 * d / ((1 + tol) * l)) by (field; lra).
  assert (Q : - ((1 + tol) * l) <= 2 * d <= (1 + tol) * l) by nra. split.
  - apply (Rmult_le_reg_r ((1 + tol) * l)); [auto|]. replace (2 * d / ((1 + tol) * l) * ((1 + tol) * l)) with (2 * d) by (field; lra). lra.
  - apply (Rmult_le_reg_r ((1 + tol) * l)); [auto|]. replace (2 * d / ((1 + tol) * l) * ((1 + tol) * l)) with (2 * d) by (field; lra). lra.
Qed.
Section Two.
Variable zr zs : arr.
Variable nr ns : nat.
Variable x y : nat -> R.
Let X := pv2 zr nr zs ns x.
Let Y := pv2 zr nr zs ns y.
Hypothesis Reg : regular_2 X Y.

Lemma comb_der a b r s da db : derivable_pt_lim (fun r => X r s) r da -> derivable_pt_lim (fun r => Y r s) r db -> derivable_pt_lim (fun r => pv2 zr nr zs ns (fun i => a * x i + b * y i) r s) r (a * da + b * db).
Proof.
  intros A B. eapply derivable_pt_lim_ext; [intros; symmetry; apply pv2_lin|]. apply (der_add (fun r => a * X r s) (fun r => b * Y r s)); apply der_scal; auto.
Qed.
Lemma comb_der' a b r s da db : derivable_pt_lim (fun s => X r s) s da -> derivable_pt_lim (fun s => Y r s) s db -> derivable_pt_lim (fun s => pv2 zr nr zs ns (fun i => a * x i + b * y i) r s) s (a * da + b * db).
Proof.
  intros A B. eapply derivable_pt_lim_ext; [intros; symmetry; apply pv2_lin|]. apply (der_add (fun s => a * X r s) (fun s => b * Y r s)); apply der_scal; auto.
Qed.
(** A linear function is greatest on an edge. *)
Lemma edge_comb a b r s : ~ (a = 0 /\ b = 0) -> I1 r -> I1 s -> exists r' s', edge_2 r' s' /\ a * X r s + b * Y r s <= a * X r' s' + b * Y r' s'.
Proof.
  intros Nz Hr Hs. destruct (edge_max zr nr zs ns (fun i => a * x i + b * y i)) as (r' & s' & E & M).
  - intros p q da db Hp Hq Da Db [-> ->]. destruct (pv2_der_r zr nr zs ns x p q) as [xr Xr]. destruct (pv2_der_s zr nr zs ns x p q) as [xs Xs].
    destruct (pv2_der_r zr nr zs ns y p q) as [yr Yr]. destruct (pv2_der_s zr nr zs ns y p q) as [ys Ys].
    apply (Reg p q xr xs yr ys Hp Hq Xr Xs Yr Ys). pose proof (uniqueness_limite _ _ _ _ (comb_der a b p q xr yr Xr Yr) Da) as E1. pose proof (uniqueness_limite _ _ _ _ (comb_der' a b p q xs ys Xs Ys) Db) as E2.
    destruct (Req_dec a 0) as [A0|A0].
    + assert (B0 : b <> 0) by tauto. subst a. assert (yr = 0) by (apply (Rmult_eq_reg_l b); lra). assert (ys = 0) by (apply (Rmult_eq_reg_l b); lra). subst. ring.
    + apply (Rmult_eq_reg_l a); [|auto]. rewrite Rmult_0_r. replace (a * (xr * ys - xs * yr)) with ((a * xr + b * yr) * ys - (a * xs + b * ys) * yr) by ring. rewrite E1, E2. ring.
  - exists r', s'. split; [auto|]. pose proof (M r s Hr Hs) as G. rewrite !pv2_lin in G. exact G.
Qed.
(** What holds for a linear function on the edges holds inside. *)
Lemma edge_in a b k rg r s : ~ (a = 0 /\ b = 0) -> (forall r s, edge_2 r s -> in_range (a * X r s + b * Y r s + k) rg) -> I1 r -> I1 s -> in_range (a * X r s + b * Y r s + k) rg.
Proof.
  intros Nz E Hr Hs. destruct (edge_comb a b r s Nz Hr Hs) as (r1 & s1 & E1 & M1). destruct (edge_comb (- a) (- b) r s ltac:(lra) Hr Hs) as (r2 & s2 & E2 & M2).
  apply E in E1. apply E in E2. unfold in_range in *. lra.
Qed.
(** It is not constant. *)
Lemma edge_wide a b k rg : ~ (a = 0 /\ b = 0) -> (forall r s, edge_2 r s -> in_range (a * X r s + b * Y r s + k) rg) -> rmin rg < rmax rg.
Proof.
  intros Nz E. pose proof (edge_in a b k rg) as A. apply Rnot_le_lt. intros L.
  assert (C : forall r s, I1 r -> I1 s -> a * X r s + b * Y r s + k = rmin rg) by (intros r s Hr Hs; specialize (A r s Nz E Hr Hs); unfold in_range in A; lra).
  assert (Z : I1 0) by (unfold I1; lra).
  destruct (pv2_der_r zr nr zs ns x 0 0) as [xr Xr]. destruct (pv2_der_s zr nr zs ns x 0 0) as [xs Xs].
  destruct (pv2_der_r zr nr zs ns y 0 0) as [yr Yr]. destruct (pv2_der_s zr nr zs ns y 0 0) as [ys Ys].
  assert (E1 : a * xr + b * yr = 0).
  { apply (inner_max _ _ _ (comb_der a b 0 0 xr yr Xr Yr)); [lra|]. intros r Hr. rewrite !pv2_lin. pose proof (C r 0 Hr Z). pose proof (C 0 0 Z Z). unfold X, Y in *. lra. }
  assert (E2 : a * xs + b * ys = 0).
  { apply (inner_max _ _ _ (comb_der' a b 0 0 xs ys Xs Ys)); [lra|]. intros s Hs. rewrite !pv2_lin. pose proof (C 0 s Z Hs). pose proof (C 0 0 Z Z). unfold X, Y in *. lra. }
  apply (Reg 0 0 xr xs yr ys ltac:(lra) ltac:(lra) Xr Xs Yr Ys). destruct (Req_dec a 0) as [A0|A0].
  - assert (B0 : b <> 0) by tauto. subst a. assert (yr = 0) by (apply (Rmult_eq_reg_l b); lra). assert (ys = 0) by (apply (Rmult_eq_reg_l b); lra). subst. ring.
  - apply (Rmult_eq_reg_l a); [|auto]. rewrite Rmult_0_r. replace (a * (xr * ys - xs * yr)) with ((a * xr + b * yr) * ys - (a * xs + b * ys) * yr) by ring. rewrite E1, E2. ring.
Qed.

(** The box made of ranges that contain the edges contains the element. *)
Definition T0_2 (x0 Ji : list R) (a b : R) : R := ent Ji 0 * (a - ent x0 0) + ent Ji 1 * (b - ent x0 1).
Definition T1_2 (x0 Ji : list R) (a b : R) : R := ent Ji 2 * (a - ent x0 0) + ent Ji 3 * (b - ent x0 1).
Definition covers_2 (x0 Ji : list R) (ab0 ab1 tb0 tb1 : range) (a b : R) : Prop :=
  in_range a ab0 /\ in_range b ab1 /\ in_range (T0_2 x0 Ji a b) tb0 /\ in_range (T1_2 x0 Ji a b) tb1.
Definition box_2 (x0 J Ji : list R) (ab0 ab1 tb0 tb1 : range) (tol : R) : obbox :=
  let av0 := (rmin tb0 + rmax tb0) / 2 in let av1 := (rmin tb1 + rmax tb1) / 2 in
  let di0 := 2 / ((1 + tol) * (rmax tb0 - rmin tb0)) in
  let di1 := 2 / ((1 + tol) * (rmax tb1 - rmin tb1)) in
  Box [ent x0 0 + ent J 0 * av0 + ent J 1 * av1; ent x0 1 + ent J 2 * av0 + ent J 3 * av1]
      [di0 * ent Ji 0; di0 * ent Ji 1; di1 * ent Ji 2; di1 * ent Ji 3]
      [dbl_range_expand ab0 tol; dbl_range_expand ab1 tol].
Lemma box_2_ok x0 J ab0 ab1 tb0 tb1 tol : 0 <= tol ->
  derivable_pt_lim (fun r => X r 0) 0 (ent J 0) -> derivable_pt_lim (fun s => X 0 s) 0 (ent J 1) ->
  derivable_pt_lim (fun r => Y r 0) 0 (ent J 2) -> derivable_pt_lim (fun s => Y 0 s) 0 (ent J 3) ->
  (forall r s, edge_2 r s -> covers_2 x0 (mat_inv_2 J) ab0 ab1 tb0 tb1 (X r s) (Y r s)) ->
  forall r s, I1 r -> I1 s -> let b := box_2 x0 J (mat_inv_2 J) ab0 ab1 tb0 tb1 tol in
    proper b 0 /\ proper b 1 /\ in_axes_2 b (X r s) (Y r s) /\ in_oriented_2 b (X r s) (Y r s).
Proof.
  intros T D0 D1 D2 D3 C r s Hr Hs b.
  assert (Det : ent J 0 * ent J 3 - ent J 1 * ent J 2 <> 0) by (apply (Reg 0 0); auto; lra).
  assert (A0 : in_range (X r s) ab0).
  { pose proof (edge_in 1 0 0 ab0 r s ltac:(lra)) as G. unfold in_range in *. assert (Q : rmin ab0 <= 1 * X r s + 0 * Y r s + 0 <= rmax ab0); [|lra].
    apply G; auto. intros p q E. destruct (C p q E) as (Q & _). unfold in_range in Q. lra. }
  assert (A1 : in_range (Y r s) ab1).
  { pose proof (edge_in 0 1 0 ab1 r s ltac:(lra)) as G. unfold in_range in *. assert (Q : rmin ab1 <= 0 * X r s + 1 * Y r s + 0 <= rmax ab1); [|lra].
    apply G; auto. intros p q E. destruct (C p q E) as (_ & Q & _). unfold in_range in Q. lra. }
  set (Ji := mat_inv_2 J) in *.
  assert (K0 : forall a c, T0_2 x0 Ji a c = ent Ji 0 * a + ent Ji 1 * c + - (ent Ji 0 * ent x0 0 + ent Ji 1 * ent x0 1)) by (intros; unfold T0_2; ring).
  assert (K1 : forall a c, T1_2 x0 Ji a c = ent Ji 2 * a + ent Ji 3 * c + - (ent Ji 2 * ent x0 0 + ent Ji 3 * ent x0 1)) by (intros; unfold T1_2; ring).
  assert (I00 : ent Ji 0 * ent J 0 + ent Ji 1 * ent J 2 = 1 /\ ent Ji 0 * ent J 1 + ent Ji 1 * ent J 3 = 0 /\ ent Ji 2 * ent J 0 + ent Ji 3 * ent J 2 = 0 /\ ent Ji 2 * ent J 1 + ent Ji 3 * ent J 3 = 1).
  { unfold Ji, mat_inv_2. cbn [ent nth]. unfold ent in *. repeat split; field; auto. }
  destruct I00 as (I00 & I01 & I10 & I11).
  assert (N0 : ~ (ent Ji 0 = 0 /\ ent Ji 1 = 0)) by (intros [Q Q']; rewrite Q, Q' in I00; lra).
  assert (N1 : ~ (ent Ji 2 = 0 /\ ent Ji 3 = 0)) by (intros [Q Q']; rewrite Q, Q' in I11; lra).
  assert (E0 : forall r s, edge_2 r s -> in_range (ent Ji 0 * X r s + ent Ji 1 * Y r s + - (ent Ji 0 * ent x0 0 + ent Ji 1 * ent x0 1)) tb0) by (intros p q E; rewrite <- K0; apply (C p q E)).
  assert (E1 : forall r s, edge_2 r s -> in_range (ent Ji 2 * X r s + ent Ji 3 * Y r s + - (ent Ji 2 * ent x0 0 + ent Ji 3 * ent x0 1)) tb1) by (intros p q E; rewrite <- K1; apply (C p q E)).
  pose proof (edge_wide _ _ _ _ N0 E0) as W0. pose proof (edge_wide _ _ _ _ N1 E1) as W1.
  pose proof (edge_in _ _ _ _ r s N0 E0 Hr Hs) as B0. pose proof (edge_in _ _ _ _ r s N1 E1 Hr Hs) as B1. rewrite <- K0 in B0. rewrite <- K1 in B1.
  pose proof (expand_in ab0 tol T ltac:(unfold in_range in A0; lra)) as S0. pose proof (expand_in ab1 tol T ltac:(unfold in_range in A1; lra)) as S1.
  repeat split.
  - unfold proper. cbn [b box_2 axis axes nth]. pose proof (sub_in _ _ _ S0 A0) as Q. unfold in_range in Q. lra.
  - unfold proper. cbn [b box_2 axis axes nth]. pose proof (sub_in _ _ _ S1 A1) as Q. unfold in_range in Q. lra.
  - apply (sub_in _ _ _ S0 A0).
  - apply (sub_in _ _ _ S0 A0).
  - apply (sub_in _ _ _ S1 A1).
  - apply (sub_in _ _ _ S1 A1).
  - apply (coord_2 _ _ _ _ _ _ _ _ _ _ _ _ _ I00 I01 (scaled tb0 tol _ T W0 B0)).
  - apply (coord_2 _ _ _ _ _ _ _ _ _ _ _ _ _ I00 I01 (scaled tb0 tol _ T W0 B0)).
  - apply (coord_2' _ _ _ _ _ _ _ _ _ _ _ _ _ I10 I11 (scaled tb1 tol _ T W1 B1)).
  - apply (coord_2' _ _ _ _ _ _ _ _ _ _ _ _ _ I10 I11 (scaled tb1 tol _ T W1 B1)).
Qed.
End Two.
