(** obbox_calc_3. *)
From Verif Require Import Base BaseLemmas Tensor TensorSpec TensorProof Poly PolySpec PolyProof1 PolyProof2 PolyProof3 PolyImpSyntax PolyImp PolyGll LobBnd LobBndSpec LobBndProof1 LobBndProof3 LobBndSetupProof2 Obbox ObboxSpec ObboxMax ObboxProof1 ObboxProof2 ObboxProof3 ObboxProof4 ObboxProof5.
From Coq Require Import Reals Lra Psatz.
Open Scope R_scope.

Lemma T_pv2 dr nr ds ns x0 Ji l u v q r s : distinct dr nr -> (2 <= nr)%nat -> distinct ds ns -> (2 <= ns)%nat ->
  pv2 dr nr ds ns (fun i => T_3 x0 Ji l (u i) (v i) (q i)) r s = T_3 x0 Ji l (pv2 dr nr ds ns u r s) (pv2 dr nr ds ns v r s) (pv2 dr nr ds ns q r s).
Proof.
  intros D Hn D' Hn'. unfold T_3. set (a := ent Ji (3 * l)). set (b := ent Ji (3 * l + 1)). set (c := ent Ji (3 * l + 2)).
  transitivity (pv2 dr nr ds ns (fun i => a * u i + b * v i + c * q i + - (a * ent x0 0 + b * ent x0 1 + c * ent x0 2)) r s); [apply pv2_ext; intros; ring|].
  rewrite pv2_aff by auto. ring.
Qed.

Section Face.
Variable x0 Ji : list R.
Lemma face_ok ab0 ab1 ab2 tb0 tb1 tb2 w merge dr nr mr ds ns ms x y z wo : bound_data dr nr mr -> bound_data ds ns ms ->
  (merge = true -> ab0 <> None) -> (merge = true -> ab1 <> None) -> (merge = true -> ab2 <> None) -> (merge = true -> tb0 <> None) -> (merge = true -> tb1 <> None) -> (merge = true -> tb2 <> None) ->
  safe x (nr * ns) wo -> safe y (nr * ns) wo -> safe z (nr * ns) wo -> (wo + 3 * nr * ns + 2 * mr * (ns + ms + 1) <= length w)%nat ->
  exists a0 a1 a2 t0 t1 t2 w', do_face (ab0, ab1, ab2, (tb0, tb1, tb2), w) merge dr nr mr ds ns ms x0 Ji x y z wo = Ok (Some a0, Some a1, Some a2, (Some t0, Some t1, Some t2), w') /\ after wo w w' /\
    (joined merge ab0 a0 /\ joined merge ab1 a1 /\ joined merge ab2 a2 /\ joined merge tb0 t0 /\ joined merge tb1 t1 /\ joined merge tb2 t2) /\
    forall r s, I1 r -> I1 s -> covers_3 x0 Ji a0 a1 a2 t0 t1 t2 (pv2 dr nr ds ns (sv w x) r s) (pv2 dr nr ds ns (sv w y) r s) (pv2 dr nr ds ns (sv w z) r s).
Proof.
  intros B B' N0 N1 N2 N3 N4 N5 Sx Sy Sz Hw. pose proof (bd_nodes _ _ _ B) as D. pose proof (bd_n _ _ _ B) as Hn. pose proof (bd_nodes _ _ _ B') as D'. pose proof (bd_n _ _ _ B') as Hn'. unfold do_face.
  destruct (bound_3_ok ab0 merge dr nr mr ds ns ms x w wo B B' N0 Sx) as (a0 & w1 & E & A1 & J0 & C0); [lia|]. rewrite E. cbn [bind]. clear E. pose proof A1 as [L1 _].
  destruct (bound_3_ok ab1 merge dr nr mr ds ns ms y w1 wo B B' N1 Sy) as (a1 & w2 & E & A2 & J1 & C1); [lia|]. rewrite E. cbn [bind]. clear E. pose proof A2 as [L2 _].
  destruct (bound_3_ok ab2 merge dr nr mr ds ns ms z w2 wo B B' N2 Sz) as (a2 & w3 & E & A3 & J2 & C2); [lia|]. rewrite E. cbn [bind]. clear E. pose proof A3 as [L3 _].
  assert (A02 : after wo w w2) by (apply (after_trans wo wo w w1); auto). assert (A03 : after wo w w3) by (apply (after_trans wo wo w w2); auto).
  destruct (tfm_3_ok w3 wo x0 Ji x y z (nr * ns) Sx Sy Sz) as (w4 & E & A4 & V); [lia|]. rewrite E. cbn [bind]. clear E. pose proof A4 as [L4 _].
  set (wt := (wo + 3 * nr * ns)%nat) in *. assert (Hwt : wt = (wo + 3 * (nr * ns))%nat) by (unfold wt; lia).
  destruct (bound_3_ok tb0 merge dr nr mr ds ns ms (Work wo) w4 wt B B' N3) as (t0 & w5 & E & A5 & J3 & C3); [cbn [safe]; lia|lia|]. rewrite E. cbn [bind]. clear E. pose proof A5 as [L5 _].
  destruct (bound_3_ok tb1 merge dr nr mr ds ns ms (Work (wo + nr * ns)) w5 wt B B' N4) as (t1 & w6 & E & A6 & J4 & C4); [cbn [safe]; lia|lia|]. rewrite E. cbn [bind]. clear E. pose proof A6 as [L6 _].
  destruct (bound_3_ok tb2 merge dr nr mr ds ns ms (Work (wo + 2 * nr * ns)) w6 wt B B' N5) as (t2 & w7 & E & A7 & J5 & C5); [cbn [safe]; lia|lia|]. rewrite E. cbn [bind]. clear E.
  assert (A46 : after wt w4 w6) by (apply (after_trans wt wt w4 w5); auto). assert (A47 : after wt w4 w7) by (apply (after_trans wt wt w4 w6); auto).
  exists a0, a1, a2, t0, t1, t2, w7. split; [reflexivity|]. split.
  { apply (after_trans wo wo w w3); auto. apply (after_trans wo wo w3 w4); auto. apply (after_less wo wt); [lia|auto]. }
  split; [repeat split; assumption|]. intros r s Hr Hs. unfold covers_3.
  assert (Vx : forall i, (i < nr * ns)%nat -> sv w3 x i = sv w x i) by (intros i Hi; apply (sv_after wo _ _ _ (nr * ns)); auto).
  assert (Vy : forall i, (i < nr * ns)%nat -> sv w3 y i = sv w y i) by (intros i Hi; apply (sv_after wo _ _ _ (nr * ns)); auto).
  assert (Vz : forall i, (i < nr * ns)%nat -> sv w3 z i = sv w z i) by (intros i Hi; apply (sv_after wo _ _ _ (nr * ns)); auto).
  assert (T : forall l w', (l < 3)%nat -> after wt w4 w' -> forall i, (i < nr * ns)%nat -> get w' (wo + l * (nr * ns) + i) = T_3 x0 Ji l (sv w x i) (sv w y i) (sv w z i)).
  { intros l w' Hl [_ K] i Hi. rewrite K by nia. rewrite <- Vx, <- Vy, <- Vz by auto. rewrite <- Nat.add_assoc. apply V; auto. }
  split; [apply C0; auto|]. split; [|split; [|split; [|split]]].
  - rewrite (pv2_ext dr nr ds ns (sv w y) (sv w1 y)); [apply C1; auto|]. intros i Hi. symmetry. apply (sv_after wo _ _ _ (nr * ns)); auto.
  - rewrite (pv2_ext dr nr ds ns (sv w z) (sv w2 z)); [apply C2; auto|]. intros i Hi. symmetry. apply (sv_after wo _ _ _ (nr * ns)); auto.
  - rewrite <- T_pv2 by auto. rewrite (pv2_ext dr nr ds ns _ (sv w4 (Work wo))); [apply C3; auto|]. intros i Hi. rewrite <- (T 0%nat w4) by (auto using after_refl; lia).
    unfold sv. cbn [src_arr src_off]. f_equal; lia.
  - rewrite <- T_pv2 by auto. rewrite (pv2_ext dr nr ds ns _ (sv w5 (Work (wo + nr * ns)))); [apply C4; auto|]. intros i Hi. rewrite <- (T 1%nat w5) by (auto; lia).
    unfold sv. cbn [src_arr src_off]. f_equal; lia.
  - rewrite <- T_pv2 by auto. rewrite (pv2_ext dr nr ds ns _ (sv w6 (Work (wo + 2 * nr * ns)))); [apply C5; auto|]. intros i Hi. rewrite <- (T 2%nat w6) by (auto; lia).
    unfold sv. cbn [src_arr src_off]. f_equal; lia.
Qed.

Definition all_joined (a b : range * range * range * (range * range * range)) : Prop :=
  let '(a0, a1, a2, (t0, t1, t2)) := a in let '(b0, b1, b2, (s0, s1, s2)) := b in
  joined true (Some a0) b0 /\ joined true (Some a1) b1 /\ joined true (Some a2) b2 /\ joined true (Some t0) s0 /\ joined true (Some t1) s1 /\ joined true (Some t2) s2.
Lemma joined_6 a0 a1 a2 t0 t1 t2 b0 b1 b2 u0 u1 u2 : all_joined (a0, a1, a2, (t0, t1, t2)) (b0, b1, b2, (u0, u1, u2)) ->
  forall p q o, covers_3 x0 Ji a0 a1 a2 t0 t1 t2 p q o -> covers_3 x0 Ji b0 b1 b2 u0 u1 u2 p q o.
Proof.
  intros (J0 & J1 & J2 & J3 & J4 & J5) p q o (A & B & C & D & E & F).
  apply joined_some in J0, J1, J2, J3, J4, J5. repeat split; eapply sub_in; eauto.
Qed.

Lemma copied w' o g s n (f : nat -> R) base (v : arr) : (1 <= g)%nat -> (forall k l, (k < n)%nat -> (l < g)%nat -> get w' (o + k * g + l) = get v (base + k * (s * g) + l)) ->
  forall i, (i < n * g)%nat -> get w' (o + i) = get v (base + (i / g * (s * g) + i mod g)).
Proof.
  intros Hg H i Hi. rewrite Nat.add_assoc. rewrite <- H; [|apply Nat.div_lt_upper_bound; lia|apply Nat.mod_upper_bound; lia].
  f_equal. pose proof (Nat.div_mod i g ltac:(lia)). lia.
Qed.
Lemma get_face_ok a0 a1 a2 t0 t1 t2 w dr nr mr ds ns ms x y z xo off n1 n2 n3 : bound_data dr nr mr -> bound_data ds ns ms ->
  (1 <= n1)%nat -> (n3 * n1 = nr * ns)%nat -> (6 * nr * ns + 2 * mr * (ns + ms + 1) <= length w)%nat ->
  (forall k l, (k < n3)%nat -> (l < n1)%nat -> (xo + off + k * (n2 * n1) + l < length x)%nat) ->
  (forall k l, (k < n3)%nat -> (l < n1)%nat -> (xo + off + k * (n2 * n1) + l < length y)%nat) ->
  (forall k l, (k < n3)%nat -> (l < n1)%nat -> (xo + off + k * (n2 * n1) + l < length z)%nat) ->
  exists b0 b1 b2 u0 u1 u2 w', get_face (Some a0, Some a1, Some a2, (Some t0, Some t1, Some t2), w) dr nr mr ds ns ms x0 Ji x y z xo off n1 n2 n3 = Ok (Some b0, Some b1, Some b2, (Some u0, Some u1, Some u2), w') /\ length w' = length w /\
    (forall p q o, covers_3 x0 Ji a0 a1 a2 t0 t1 t2 p q o -> covers_3 x0 Ji b0 b1 b2 u0 u1 u2 p q o) /\
    let at_ v := fun i => get v (xo + off + (i / n1 * (n2 * n1) + i mod n1)) in
    forall r s, I1 r -> I1 s -> covers_3 x0 Ji b0 b1 b2 u0 u1 u2 (pv2 dr nr ds ns (at_ x) r s) (pv2 dr nr ds ns (at_ y) r s) (pv2 dr nr ds ns (at_ z) r s).
Proof.
  intros B B' H1 H3 Hw Hx Hy Hz. unfold get_face.
  destruct (copy_ok w 0 x (xo + off) n1 n2 n3) as (w1 & E & [L1 K1] & V1); [auto|lia|auto|]. rewrite E. cbn [bind]. clear E.
  destruct (copy_ok w1 (nr * ns) y (xo + off) n1 n2 n3) as (w2 & E & [L2 K2] & V2); [auto|lia|auto|]. rewrite E. cbn [bind]. clear E.
  destruct (copy_ok w2 (2 * nr * ns) z (xo + off) n1 n2 n3) as (w3 & E & [L3 K3] & V3); [auto|lia|auto|]. rewrite E. cbn [bind]. clear E.
  destruct (face_ok (Some a0) (Some a1) (Some a2) (Some t0) (Some t1) (Some t2) w3 true dr nr mr ds ns ms (Work 0) (Work (nr * ns)) (Work (2 * nr * ns)) (3 * nr * ns) B B')
    as (b0 & b1 & b2 & u0 & u1 & u2 & w4 & E & [L4 _] & J & C); try discriminate; try (cbn [safe]; lia).
  exists b0, b1, b2, u0, u1, u2, w4. split; [exact E|]. split; [congruence|]. split; [apply joined_6; exact J|].
  intros r s Hr Hs. set (at_ := fun (v : arr) i => get v (xo + off + (i / n1 * (n2 * n1) + i mod n1))).
  assert (U1 := copied w1 0 n1 n2 n3 (at_ x) _ x H1 V1). assert (U2 := copied w2 (nr * ns) n1 n2 n3 (at_ y) _ y H1 V2). assert (U3 := copied w3 (2 * nr * ns) n1 n2 n3 (at_ z) _ z H1 V3).
  change (covers_3 x0 Ji b0 b1 b2 u0 u1 u2 (pv2 dr nr ds ns (at_ x) r s) (pv2 dr nr ds ns (at_ y) r s) (pv2 dr nr ds ns (at_ z) r s)).
  rewrite (pv2_ext dr nr ds ns (at_ x) (sv w3 (Work 0))), (pv2_ext dr nr ds ns (at_ y) (sv w3 (Work (nr * ns)))), (pv2_ext dr nr ds ns (at_ z) (sv w3 (Work (2 * nr * ns)))); [apply C; auto| | |].
  - intros i Hi. unfold sv. cbn [src_arr src_off]. rewrite U3 by lia. auto.
  - intros i Hi. unfold sv. cbn [src_arr src_off]. rewrite K3 by (unfold rng; lia). rewrite U2 by lia. auto.
  - intros i Hi. unfold sv. cbn [src_arr src_off]. rewrite K3 by (unfold rng; lia). rewrite K2 by (unfold rng; lia). rewrite U1 by lia. auto.
Qed.
End Face.

(** Polynomials on the faces. *)
Lemma pv2_nodes dr zr nr ds zs ns v r s : (forall i, (i < nr)%nat -> get dr i = get zr i) -> (forall i, (i < ns)%nat -> get ds i = get zs i) -> pv2 dr nr ds ns v r s = pv2 zr nr zs ns v r s.
Proof. intros H H'. unfold pv2. apply rsum_ext. intros j Hj. rewrite (pv1_nodes dr zr) by auto. f_equal. apply basis_ext; auto. Qed.
Lemma pv3_t_node zr nr zs ns zt nt v r s k : distinct zt nt -> (k < nt)%nat -> pv3 zr nr zs ns zt nt v r s (get zt k) = pv2 zr nr zs ns (fun i => v (k * (nr * ns) + i)%nat) r s.
Proof. intros D Hk. unfold pv3. apply (rsum_pick nt k (fun j => pv2 zr nr zs ns (fun i => v (j * (nr * ns) + i)%nat) r s) (fun j => basis zt nt j (get zt k))); auto. intros i Hi. apply basis_node_; auto. Qed.
Lemma pv3_s_node zr nr zs ns zt nt v u r k t : distinct zs ns -> (k < ns)%nat -> (forall j i, (j < nt)%nat -> (i < nr)%nat -> u (j * nr + i)%nat = v (j * (nr * ns) + (k * nr + i))%nat) ->
  pv3 zr nr zs ns zt nt v r (get zs k) t = pv2 zr nr zt nt u r t.
Proof. intros D Hk H. unfold pv3, pv2 at 2. apply rsum_ext. intros j Hj. rewrite pv2_s_node by auto. f_equal. apply pv1_ext. intros i Hi. symmetry. auto. Qed.
Lemma pv3_r_node zr nr zs ns zt nt v u k s t : distinct zr nr -> (k < nr)%nat -> (forall j i, (j < nt)%nat -> (i < ns)%nat -> u (j * ns + i)%nat = v (j * (nr * ns) + (i * nr + k))%nat) ->
  pv3 zr nr zs ns zt nt v (get zr k) s t = pv2 zs ns zt nt u s t.
Proof. intros D Hk H. unfold pv3, pv2 at 2. apply rsum_ext. intros j Hj. rewrite pv2_r_node by auto. f_equal. apply pv1_ext. intros i Hi. symmetry. auto. Qed.

(** The derivatives. *)
Definition D3 (X : nat -> R) nr (Y : nat -> R) ns (Z : nat -> R) nt (v : nat -> R) : R := rsum nt (fun k => D2 X nr Y ns (fun i => v (k * (nr * ns) + i)%nat) * Z k).
Lemma apply3_D3 X nr Y ns Z nt x xo : apply3 R 0 Rplus Rmult X nr Y ns Z nt (skipn xo x) = D3 X nr Y ns Z nt (fun i => get x (xo + i)).
Proof.
  unfold apply3, D3, D2. rewrite sum_rsum. apply rsum_ext. intros k Hk. rewrite sum_rsum, Rmult_comm, <- rsum_scal. apply rsum_ext. intros j Hj. rewrite sum_rsum.
  rewrite (Rmult_comm (rsum nr _) (Y j)), <- Rmult_assoc, <- rsum_scal. apply rsum_ext. intros i Hi. rewrite get_skip.
  replace (xo + (i + nr * (j + ns * k)))%nat with (xo + (k * (nr * ns) + (j * nr + i)))%nat by lia. ring.
Qed.
Lemma D2_pv2 X nr Y ns v zr zs r s : (forall i, (i < nr)%nat -> X i = basis zr nr i r) -> (forall j, (j < ns)%nat -> Y j = basis zs ns j s) -> D2 X nr Y ns v = pv2 zr nr zs ns v r s.
Proof. intros H H'. unfold D2, pv2, pv1. apply rsum_ext. intros j Hj. rewrite H' by auto. f_equal. apply rsum_ext. intros i Hi. rewrite H by auto. auto. Qed.
Lemma scal_r (f : R -> R) x c d : derivable_pt_lim f x d -> derivable_pt_lim (fun x => f x * c) x (d * c).
Proof. intros H. rewrite Rmult_comm. apply derivable_pt_lim_ext with (f := fun x => c * f x); [intros; ring|]. apply der_scal. auto. Qed.
Lemma D3_r fr nr Y ns Z nt v zr zs zt s t : (forall i, (i < nr)%nat -> derivable_pt_lim (basis zr nr i) 0 (fr i)) -> (forall j, (j < ns)%nat -> Y j = basis zs ns j s) -> (forall j, (j < nt)%nat -> Z j = basis zt nt j t) ->
  derivable_pt_lim (fun r => pv3 zr nr zs ns zt nt v r s t) 0 (D3 fr nr Y ns Z nt v).
Proof.
  intros H1 H2 H3. unfold pv3, D3. apply (rsum_der nt (fun k r => pv2 zr nr zs ns (fun i => v (k * (nr * ns) + i)%nat) r s * basis zt nt k t)). intros k Hk. rewrite H3 by auto.
  apply (scal_r (fun r => pv2 zr nr zs ns (fun i => v (k * (nr * ns) + i)%nat) r s)). apply D2_r; auto.
Qed.
Lemma D3_s X nr fs ns Z nt v zr zs zt r t : (forall i, (i < nr)%nat -> X i = basis zr nr i r) -> (forall j, (j < ns)%nat -> derivable_pt_lim (basis zs ns j) 0 (fs j)) -> (forall j, (j < nt)%nat -> Z j = basis zt nt j t) ->
  derivable_pt_lim (fun s => pv3 zr nr zs ns zt nt v r s t) 0 (D3 X nr fs ns Z nt v).
Proof.
  intros H1 H2 H3. unfold pv3, D3. apply (rsum_der nt (fun k s => pv2 zr nr zs ns (fun i => v (k * (nr * ns) + i)%nat) r s * basis zt nt k t)). intros k Hk. rewrite H3 by auto.
  apply (scal_r (fun s => pv2 zr nr zs ns (fun i => v (k * (nr * ns) + i)%nat) r s)). apply D2_s; auto.
Qed.
Lemma D3_t X nr Y ns ft nt v zr zs zt r s : (forall i, (i < nr)%nat -> X i = basis zr nr i r) -> (forall j, (j < ns)%nat -> Y j = basis zs ns j s) -> (forall j, (j < nt)%nat -> derivable_pt_lim (basis zt nt j) 0 (ft j)) ->
  derivable_pt_lim (fun t => pv3 zr nr zs ns zt nt v r s t) 0 (D3 X nr Y ns ft nt v).
Proof.
  intros H1 H2 H3. unfold pv3, D3. apply (rsum_der nt (fun k t => pv2 zr nr zs ns (fun i => v (k * (nr * ns) + i)%nat) r s * basis zt nt k t)). intros k Hk.
  rewrite (D2_pv2 X nr Y ns _ zr zs r s) by auto. apply der_scal. auto.
Qed.
