(** The geometry of the boxes in three dimensions. *)
From Verif Require Import Base BaseLemmas Poly PolySpec PolyProof1 PolyProof2 PolyProof3 LobBnd LobBndSpec LobBndProof3 Obbox ObboxSpec ObboxMax ObboxProof1.
From Coq Require Import Reals Lra Psatz.
Open Scope R_scope.

Lemma det_zero a b c xr xs xt yr ys yt zr zs zt : ~ (a = 0 /\ b = 0 /\ c = 0) ->
  a * xr + b * yr + c * zr = 0 -> a * xs + b * ys + c * zs = 0 -> a * xt + b * yt + c * zt = 0 ->
  xr * (ys * zt - yt * zs) - xs * (yr * zt - yt * zr) + xt * (yr * zs - ys * zr) = 0.
Proof.
  intros N E1 E2 E3. set (d := _ - _ + _).
  assert (A : a * d = 0). { unfold d. transitivity ((a * xr + b * yr + c * zr) * (ys * zt - yt * zs) - (a * xs + b * ys + c * zs) * (yr * zt - yt * zr) + (a * xt + b * yt + c * zt) * (yr * zs - ys * zr)); [ring|rewrite E1, E2, E3; ring]. }
  assert (B : b * d = 0). { unfold d. transitivity ((a * xr + b * yr + c * zr) * (xt * zs - xs * zt) + (a * xs + b * ys + c * zs) * (xr * zt - xt * zr) + (a * xt + b * yt + c * zt) * (xs * zr - xr * zs)); [ring|rewrite E1, E2, E3; ring]. }
  assert (C : c * d = 0). { unfold d. transitivity ((a * xr + b * yr + c * zr) * (xs * yt - xt * ys) + (a * xs + b * ys + c * zs) * (xt * yr - xr * yt) + (a * xt + b * yt + c * zt) * (xr * ys - xs * yr)); [ring|rewrite E1, E2, E3; ring]. }
  destruct (Req_dec d 0) as [|D]; [auto|]. exfalso. apply N. repeat split; apply (Rmult_eq_reg_r d); lra.
Qed.
Lemma coord_3 k0 k1 k2 ji0 ji1 ji2 j0 j1 j2 j3 j4 j5 j6 j7 j8 di a b c x0 y0 z0 av0 av1 av2 :
  ji0 * j0 + ji1 * j3 + ji2 * j6 = k0 -> ji0 * j1 + ji1 * j4 + ji2 * j7 = k1 -> ji0 * j2 + ji1 * j5 + ji2 * j8 = k2 ->
  -1 <= di * (ji0 * (a - x0) + ji1 * (b - y0) + ji2 * (c - z0) - (av0 * k0 + av1 * k1 + av2 * k2)) <= 1 ->
  -1 <= di * ji0 * (a - (x0 + j0 * av0 + j1 * av1 + j2 * av2)) + di * ji1 * (b - (y0 + j3 * av0 + j4 * av1 + j5 * av2)) + di * ji2 * (c - (z0 + j6 * av0 + j7 * av1 + j8 * av2)) <= 1.
Proof.
  intros <- <- <- H. replace (di * ji0 * (a - (x0 + j0 * av0 + j1 * av1 + j2 * av2)) + di * ji1 * (b - (y0 + j3 * av0 + j4 * av1 + j5 * av2)) + di * ji2 * (c - (z0 + j6 * av0 + j7 * av1 + j8 * av2))) with
    (di * (ji0 * (a - x0) + ji1 * (b - y0) + ji2 * (c - z0) - (av0 * (ji0 * j0 + ji1 * j3 + ji2 * j6) + av1 * (ji0 * j1 + ji1 * j4 + ji2 * j7) + av2 * (ji0 * j2 + ji1 * j5 + ji2 * j8)))) by ring. auto.
Qed.

Definition T_3 (x0 Ji : list R) (l : nat) (a b c : R) : R :=
  ent Ji (3 * l) * (a - ent x0 0) + ent Ji (3 * l + 1) * (b - ent x0 1) + ent Ji (3 * l + 2) * (c - ent x0 2).
Definition covers_3 (x0 Ji : list R) (ab0 ab1 ab2 tb0 tb1 tb2 : range) (a b c : R) : Prop :=
  in_range a ab0 /\ in_range b ab1 /\ in_range c ab2 /\ in_range (T_3 x0 Ji 0 a b c) tb0 /\ in_range (T_3 x0 Ji 1 a b c) tb1 /\ in_range (T_3 x0 Ji 2 a b c) tb2.
Definition box_3 (x0 J Ji : list R) (ab0 ab1 ab2 tb0 tb1 tb2 : range) (tol : R) : obbox :=
  let av0 := (rmin tb0 + rmax tb0) / 2 in let av1 := (rmin tb1 + rmax tb1) / 2 in let av2 := (rmin tb2 + rmax tb2) / 2 in
  let di0 := 2 / ((1 + tol) * (rmax tb0 - rmin tb0)) in
  let di1 := 2 / ((1 + tol) * (rmax tb1 - rmin tb1)) in
  let di2 := 2 / ((1 + tol) * (rmax tb2 - rmin tb2)) in
  Box [ent x0 0 + ent J 0 * av0 + ent J 1 * av1 + ent J 2 * av2;
       ent x0 1 + ent J 3 * av0 + ent J 4 * av1 + ent J 5 * av2;
       ent x0 2 + ent J 6 * av0 + ent J 7 * av1 + ent J 8 * av2]
      [di0 * ent Ji 0; di0 * ent Ji 1; di0 * ent Ji 2; di1 * ent Ji 3; di1 * ent Ji 4; di1 * ent Ji 5;
       di2 * ent Ji 6; di2 * ent Ji 7; di2 * ent Ji 8]
      [dbl_range_expand ab0 tol; dbl_range_expand ab1 tol; dbl_range_expand ab2 tol].

Lemma inv_3 J : ent J 0 * (ent J 4 * ent J 8 - ent J 5 * ent J 7) - ent J 1 * (ent J 3 * ent J 8 - ent J 5 * ent J 6) + ent J 2 * (ent J 3 * ent J 7 - ent J 4 * ent J 6) <> 0 ->
  forall l k, (l < 3)%nat -> (k < 3)%nat -> let Ji := mat_inv_3 J in
    ent Ji (3 * l) * ent J k + ent Ji (3 * l + 1) * ent J (3 + k) + ent Ji (3 * l + 2) * ent J (6 + k) = if (l =? k)%nat then 1 else 0.
Proof.
  intros D l k Hl Hk. cbv zeta. unfold mat_inv_3.
  assert (En : forall a i, ent a i = nth i a 0) by reflexivity. rewrite !(En [_; _; _; _; _; _; _; _; _]).
  destruct l as [|[|[|l]]]; [| | |lia]; destruct k as [|[|[|k]]]; try lia; cbn [nth Nat.mul Nat.add Nat.eqb]; revert D;
    generalize (ent J 0) (ent J 1) (ent J 2) (ent J 3) (ent J 4) (ent J 5) (ent J 6) (ent J 7) (ent J 8); intros; field; intros Q; apply D; rewrite <- Q; ring.
Qed.

Section Three.
Variable zr zs zt : arr.
Variable nr ns nt : nat.
Variable x y z : nat -> R.
Let X := pv3 zr nr zs ns zt nt x.
Let Y := pv3 zr nr zs ns zt nt y.
Let Z := pv3 zr nr zs ns zt nt z.
Hypothesis Reg : regular_3 X Y Z.
Let U a b c := pv3 zr nr zs ns zt nt (fun i => 1 * (a * x i + b * y i) + c * z i).
Lemma U_eq a b c r s t : U a b c r s t = a * X r s t + b * Y r s t + c * Z r s t.
Proof. unfold U. rewrite pv3_lin, pv3_lin. unfold X, Y, Z. ring. Qed.

Lemma lin3_der (f g h : R -> R) p a b c da db dc : derivable_pt_lim f p da -> derivable_pt_lim g p db -> derivable_pt_lim h p dc -> derivable_pt_lim (fun r => a * f r + b * g r + c * h r) p (a * da + b * db + c * dc).
Proof.
  intros. apply (der_add (fun r => a * f r + b * g r) (fun r => c * h r)); [apply (der_add (fun r => a * f r) (fun r => b * g r))|]; apply der_scal; auto.
Qed.
Lemma partials a b c r s t : -1 < r < 1 -> -1 < s < 1 -> -1 < t < 1 -> ~ (a = 0 /\ b = 0 /\ c = 0) ->
  exists da db dc, derivable_pt_lim (fun r => U a b c r s t) r da /\ derivable_pt_lim (fun s => U a b c r s t) s db /\ derivable_pt_lim (fun t => U a b c r s t) t dc /\ ~ (da = 0 /\ db = 0 /\ dc = 0).
Proof.
  intros Hr Hs Ht N.
  destruct (pv3_der_r zr nr zs ns zt nt x r s t) as [xr Xr]. destruct (pv3_der_s zr nr zs ns zt nt x r s t) as [xs Xs]. destruct (pv3_der_t zr nr zs ns zt nt x r s t) as [xt Xt].
  destruct (pv3_der_r zr nr zs ns zt nt y r s t) as [yr Yr]. destruct (pv3_der_s zr nr zs ns zt nt y r s t) as [ys Ys]. destruct (pv3_der_t zr nr zs ns zt nt y r s t) as [yt Yt].
  destruct (pv3_der_r zr nr zs ns zt nt z r s t) as [zr' Zr]. destruct (pv3_der_s zr nr zs ns zt nt z r s t) as [zs' Zs]. destruct (pv3_der_t zr nr zs ns zt nt z r s t) as [zt' Zt].
  exists (a * xr + b * yr + c * zr'), (a * xs + b * ys + c * zs'), (a * xt + b * yt + c * zt'). split; [|split; [|split]].
  - eapply derivable_pt_lim_ext; [intros; symmetry; apply U_eq|]. apply (lin3_der (fun r => X r s t) (fun r => Y r s t) (fun r => Z r s t)); auto.
  - eapply derivable_pt_lim_ext; [intros; symmetry; apply U_eq|]. apply (lin3_der (fun s => X r s t) (fun s => Y r s t) (fun s => Z r s t)); auto.
  - eapply derivable_pt_lim_ext; [intros; symmetry; apply U_eq|]. apply (lin3_der (fun t => X r s t) (fun t => Y r s t) (fun t => Z r s t)); auto.
  - intros (E1 & E2 & E3). apply (Reg r s t xr xs xt yr ys yt zr' zs' zt' Hr Hs Ht Xr Xs Xt Yr Ys Yt Zr Zs Zt). apply (det_zero a b c); auto.
Qed.
Lemma face_comb a b c r s t : ~ (a = 0 /\ b = 0 /\ c = 0) -> I1 r -> I1 s -> I1 t ->
  exists r' s' t', face_3 r' s' t' /\ a * X r s t + b * Y r s t + c * Z r s t <= a * X r' s' t' + b * Y r' s' t' + c * Z r' s' t'.
Proof.
  intros N Hr Hs Ht. destruct (face_max zr nr zs ns zt nt (fun i => 1 * (a * x i + b * y i) + c * z i)) as (r' & s' & t' & F & M).
  - intros p q o da db dc Hp Hq Ho Da Db Dc (-> & -> & ->). destruct (partials a b c p q o Hp Hq Ho N) as (ea & eb & ec & Ea & Eb & Ec & Q). apply Q.
    rewrite (uniqueness_limite _ _ _ _ Ea Da), (uniqueness_limite _ _ _ _ Eb Db), (uniqueness_limite _ _ _ _ Ec Dc). auto.
  - exists r', s', t'. split; [auto|]. rewrite <- !U_eq. apply M; auto.
Qed.
Lemma face_in a b c k rg r s t : ~ (a = 0 /\ b = 0 /\ c = 0) -> (forall r s t, face_3 r s t -> in_range (a * X r s t + b * Y r s t + c * Z r s t + k) rg) -> I1 r -> I1 s -> I1 t ->
  in_range (a * X r s t + b * Y r s t + c * Z r s t + k) rg.
Proof.
  intros N E Hr Hs Ht. destruct (face_comb a b c r s t N Hr Hs Ht) as (r1 & s1 & t1 & E1 & M1). destruct (face_comb (- a) (- b) (- c) r s t ltac:(lra) Hr Hs Ht) as (r2 & s2 & t2 & E2 & M2).
  apply E in E1. apply E in E2. unfold in_range in *. lra.
Qed.
Lemma face_wide a b c k rg : ~ (a = 0 /\ b = 0 /\ c = 0) -> (forall r s t, face_3 r s t -> in_range (a * X r s t + b * Y r s t + c * Z r s t + k) rg) -> rmin rg < rmax rg.
Proof.
  intros N E. apply Rnot_le_lt. intros L.
  assert (C : forall r s t, I1 r -> I1 s -> I1 t -> U a b c r s t = rmin rg - k).
  { intros r s t Hr Hs Ht. rewrite U_eq. pose proof (face_in a b c k rg r s t N E Hr Hs Ht) as Q. unfold in_range in Q. lra. }
  assert (O : I1 0) by (unfold I1; lra). destruct (partials a b c 0 0 0 ltac:(lra) ltac:(lra) ltac:(lra) N) as (ea & eb & ec & Ea & Eb & Ec & Q). apply Q. split; [|split].
  - apply (inner_max _ _ _ Ea); [lra|]. intros p Hp. rewrite !C by auto. lra.
  - apply (inner_max _ _ _ Eb); [lra|]. intros p Hp. rewrite !C by auto. lra.
  - apply (inner_max _ _ _ Ec); [lra|]. intros p Hp. rewrite !C by auto. lra.
Qed.

Lemma box_3_ok x0 J ab0 ab1 ab2 tb0 tb1 tb2 tol : 0 <= tol ->
  derivable_pt_lim (fun r => X r 0 0) 0 (ent J 0) -> derivable_pt_lim (fun s => X 0 s 0) 0 (ent J 1) -> derivable_pt_lim (fun t => X 0 0 t) 0 (ent J 2) ->
  derivable_pt_lim (fun r => Y r 0 0) 0 (ent J 3) -> derivable_pt_lim (fun s => Y 0 s 0) 0 (ent J 4) -> derivable_pt_lim (fun t => Y 0 0 t) 0 (ent J 5) ->
  derivable_pt_lim (fun r => Z r 0 0) 0 (ent J 6) -> derivable_pt_lim (fun s => Z 0 s 0) 0 (ent J 7) -> derivable_pt_lim (fun t => Z 0 0 t) 0 (ent J 8) ->
  (forall r s t, face_3 r s t -> covers_3 x0 (mat_inv_3 J) ab0 ab1 ab2 tb0 tb1 tb2 (X r s t) (Y r s t) (Z r s t)) ->
  forall r s t, I1 r -> I1 s -> I1 t -> let b := box_3 x0 J (mat_inv_3 J) ab0 ab1 ab2 tb0 tb1 tb2 tol in
    proper b 0 /\ proper b 1 /\ proper b 2 /\ in_axes_3 b (X r s t) (Y r s t) (Z r s t) /\ in_oriented_3 b (X r s t) (Y r s t) (Z r s t).
Proof.
  intros T D0 D1 D2 D3 D4 D5 D6 D7 D8 C r s t Hr Hs Ht b.
  pose proof (Reg 0 0 0 _ _ _ _ _ _ _ _ _ ltac:(lra) ltac:(lra) ltac:(lra) D0 D1 D2 D3 D4 D5 D6 D7 D8) as Det.
  pose proof (inv_3 J Det) as I. cbv zeta in I. set (Ji := mat_inv_3 J) in *.
  assert (A : forall a1 b1 c1 rg, ~ (a1 = 0 /\ b1 = 0 /\ c1 = 0) -> (forall r s t, face_3 r s t -> in_range (a1 * X r s t + b1 * Y r s t + c1 * Z r s t + 0) rg) -> in_range (a1 * X r s t + b1 * Y r s t + c1 * Z r s t) rg).
  { intros a1 b1 c1 rg N E. pose proof (face_in a1 b1 c1 0 rg r s t N E Hr Hs Ht) as Q. rewrite Rplus_0_r in Q. auto. }
  assert (A0 : in_range (X r s t) ab0).
  { replace (X r s t) with (1 * X r s t + 0 * Y r s t + 0 * Z r s t) by ring. apply A; [lra|]. intros p q o E. destruct (C p q o E) as (Q & _). unfold in_range in *. lra. }
  assert (A1 : in_range (Y r s t) ab1).
  { replace (Y r s t) with (0 * X r s t + 1 * Y r s t + 0 * Z r s t) by ring. apply A; [lra|]. intros p q o E. destruct (C p q o E) as (_ & Q & _). unfold in_range in *. lra. }
  assert (A2 : in_range (Z r s t) ab2).
  { replace (Z r s t) with (0 * X r s t + 0 * Y r s t + 1 * Z r s t) by ring. apply A; [lra|]. intros p q o E. destruct (C p q o E) as (_ & _ & Q & _). unfold in_range in *. lra. }
  assert (Tk : forall l tb, (l < 3)%nat -> (forall r s t, face_3 r s t -> in_range (T_3 x0 Ji l (X r s t) (Y r s t) (Z r s t)) tb) -> rmin tb < rmax tb /\ in_range (T_3 x0 Ji l (X r s t) (Y r s t) (Z r s t)) tb).
  { intros l tb Hl E. set (k := - (ent Ji (3 * l) * ent x0 0 + ent Ji (3 * l + 1) * ent x0 1 + ent Ji (3 * l + 2) * ent x0 2)).
    assert (K : forall a1 b1 c1, T_3 x0 Ji l a1 b1 c1 = ent Ji (3 * l) * a1 + ent Ji (3 * l + 1) * b1 + ent Ji (3 * l + 2) * c1 + k) by (intros; unfold T_3, k; ring).
    assert (N : ~ (ent Ji (3 * l) = 0 /\ ent Ji (3 * l + 1) = 0 /\ ent Ji (3 * l + 2) = 0)).
    { intros (Q1 & Q2 & Q3). pose proof (I l l Hl Hl) as Q. rewrite Q1, Q2, Q3, Nat.eqb_refl in Q. lra. }
    assert (E' : forall r s t, face_3 r s t -> in_range (ent Ji (3 * l) * X r s t + ent Ji (3 * l + 1) * Y r s t + ent Ji (3 * l + 2) * Z r s t + k) tb) by (intros p q o F; rewrite <- K; auto).
    split; [apply (face_wide _ _ _ _ _ N E')|]. rewrite K. apply (face_in _ _ _ _ _ r s t N E' Hr Hs Ht). }
  destruct (Tk 0%nat tb0 ltac:(lia)) as [W0 B0]; [intros p q o E; apply (C p q o E)|].
  destruct (Tk 1%nat tb1 ltac:(lia)) as [W1 B1]; [intros p q o E; apply (C p q o E)|].
  destruct (Tk 2%nat tb2 ltac:(lia)) as [W2 B2]; [intros p q o E; apply (C p q o E)|].
  pose proof (expand_in ab0 tol T ltac:(unfold in_range in A0; lra)) as S0. pose proof (expand_in ab1 tol T ltac:(unfold in_range in A1; lra)) as S1. pose proof (expand_in ab2 tol T ltac:(unfold in_range in A2; lra)) as S2.
  pose proof (sub_in _ _ _ S0 A0) as R0. pose proof (sub_in _ _ _ S1 A1) as R1. pose proof (sub_in _ _ _ S2 A2) as R2.
  split; [unfold proper; cbn [b box_3 axis axes nth]; unfold in_range in R0; lra|].
  split; [unfold proper; cbn [b box_3 axis axes nth]; unfold in_range in R1; lra|].
  split; [unfold proper; cbn [b box_3 axis axes nth]; unfold in_range in R2; lra|].
  split; [split; [exact R0|split; [exact R1|exact R2]]|].
  pose proof (scaled tb0 tol _ T W0 B0) as Q0. pose proof (scaled tb1 tol _ T W1 B1) as Q1. pose proof (scaled tb2 tol _ T W2 B2) as Q2.
  split; [|split].
  - apply (coord_3 1 0 0 _ _ _ _ _ _ _ _ _ _ _ _ _ _ _ _ _ _ _ _ _ _ (I 0 0 ltac:(lia) ltac:(lia))%nat (I 0 1 ltac:(lia) ltac:(lia))%nat (I 0 2 ltac:(lia) ltac:(lia))%nat).
    rewrite !Rmult_0_r, !Rmult_1_r, !Rplus_0_r. exact Q0.
  - apply (coord_3 0 1 0 _ _ _ _ _ _ _ _ _ _ _ _ _ _ _ _ _ _ _ _ _ _ (I 1 0 ltac:(lia) ltac:(lia))%nat (I 1 1 ltac:(lia) ltac:(lia))%nat (I 1 2 ltac:(lia) ltac:(lia))%nat).
    rewrite !Rmult_0_r, !Rmult_1_r, !Rplus_0_r, Rplus_0_l. exact Q1.
  - apply (coord_3 0 0 1 _ _ _ _ _ _ _ _ _ _ _ _ _ _ _ _ _ _ _ _ _ _ (I 2 0 ltac:(lia) ltac:(lia))%nat (I 2 1 ltac:(lia) ltac:(lia))%nat (I 2 2 ltac:(lia) ltac:(lia))%nat).
    rewrite !Rmult_0_r, !Rmult_1_r, !Rplus_0_l. exact Q2.
Qed.
End Three.
