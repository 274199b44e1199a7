(** The trust region step of findpts_el_3.c (newton_vol). *)
From Verif Require Import Base BaseLemmas Poly FindptsEl2 FindptsEl2Proof1 FindptsEl3.
From Coq Require Import Reals Lra Psatz NArith.
Open Scope R_scope.

(** ** Flags *)
Definition all27 : list N := map N.of_nat [0; 1; 2; 4; 5; 6; 8; 9; 10; 16; 17; 18; 20; 21; 22; 24; 25; 26; 32; 33; 34; 36; 37; 38; 40; 41; 42]%nat.
Ltac flags27 H := unfold all27 in H; cbn [In map] in H; repeat (destruct H as [<-|H]; [|]); [..|contradiction].
Ltac dim3 d H := destruct d as [|[|[|d]]]; [| | |exfalso; lia].
Definition free (fl : N) (d : nat) : bool := (con fl d =? 0)%N.
Lemma con27 fl d : In fl all27 -> (d < 3)%nat -> con fl d = 0%N \/ is_side (con fl d).
Proof. intros H Hd. unfold is_side. flags27 H; dim3 d Hd; vm_compute; tauto. Qed.
Lemma ext27 f g : In f all27 -> In g all27 -> (forall d, (d < 3)%nat -> con f d = con g d) -> f = g.
Proof.
  intros A B H. pose proof (H 0%nat ltac:(lia)) as H0. pose proof (H 1%nat ltac:(lia)) as H1. pose proof (H 2%nat ltac:(lia)) as H2. clear H.
  assert (D : forall x, In x all27 -> x = (con x 0 + 4 * con x 1 + 16 * con x 2)%N) by (intros x Hx; flags27 Hx; reflexivity).
  rewrite (D f A), (D g B), H0, H1, H2. auto.
Qed.
Lemma add27 fl t d : In fl all27 -> (d < 3)%nat -> con fl d = 0%N -> is_side t -> In (N.lor fl (at_dir t d)) all27 /\ forall e, (e < 3)%nat -> con (N.lor fl (at_dir t d)) e = if (e =? d)%nat then t else con fl e.
Proof.
  intros H Hd C [->| ->]; flags27 H; dim3 d Hd; try (vm_compute in C; discriminate C); (split; [vm_compute; tauto|]);
  intros e He; dim3 e He; reflexivity.
Qed.
Lemma drop27 fl d : In fl all27 -> (d < 3)%nat -> In (N.land fl (unot (at_dir 3 d))) all27 /\ forall e, (e < 3)%nat -> con (N.land fl (unot (at_dir 3 d))) e = if (e =? d)%nat then 0%N else con fl e.
Proof. intros H Hd. flags27 H; dim3 d Hd; (split; [vm_compute; tauto|]); intros e He; dim3 e He; reflexivity. Qed.
Lemma one27 s d : is_side s -> (d < 3)%nat -> In (at_dir s d) all27 /\ (face_index (at_dir s d) / 2 = d)%nat /\ forall e, (e < 3)%nat -> con (at_dir s d) e = if (e =? d)%nat then s else 0%N.
Proof. intros [->| ->] Hd; dim3 d Hd; (split; [vm_compute; tauto|]); (split; [reflexivity|]); intros e He; dim3 e He; reflexivity. Qed.
Lemma at_one fl dn : In fl all27 -> (dn < 3)%nat -> (forall d, (d < 3)%nat -> free fl d = negb (d =? dn)%nat) -> (face_index fl / 2 = dn)%nat.
Proof.
  intros H Hd F. pose proof (F 0%nat ltac:(lia)) as F0. pose proof (F 1%nat ltac:(lia)) as F1. pose proof (F 2%nat ltac:(lia)) as F2. clear F. unfold free in *.
  flags27 H; dim3 dn Hd; vm_compute in F0, F1, F2; try discriminate; reflexivity.
Qed.
Lemma at_two fl de : In fl all27 -> (de < 3)%nat -> (forall d, (d < 3)%nat -> free fl d = (d =? de)%nat) -> (edge_index3 fl / 4 = de)%nat.
Proof.
  intros H Hd F. pose proof (F 0%nat ltac:(lia)) as F0. pose proof (F 1%nat ltac:(lia)) as F1. pose proof (F 2%nat ltac:(lia)) as F2. clear F. unfold free in *.
  flags27 H; dim3 de Hd; vm_compute in F0, F1, F2; try discriminate; reflexivity.
Qed.
Lemma num27 fl : In fl all27 ->
  (num_constrained3 fl = 1%N -> exists dn, (dn < 3)%nat /\ forall d, (d < 3)%nat -> free fl d = negb (d =? dn)%nat) /\
  (num_constrained3 fl = 2%N -> exists de, (de < 3)%nat /\ forall d, (d < 3)%nat -> free fl d = (d =? de)%nat).
Proof.
  intros H. unfold free. flags27 H; split; intros E; vm_compute in E; try discriminate E;
  first [exists 0%nat; split; [lia|]; intros d Hd; dim3 d Hd; reflexivity | exists 1%nat; split; [lia|]; intros d Hd; dim3 d Hd; reflexivity | exists 2%nat; split; [lia|]; intros d Hd; dim3 d Hd; reflexivity].
Qed.
Lemma plus1 d : (d < 3)%nat -> (plus_1_mod_3 d < 3 /\ plus_1_mod_3 d <> d)%nat.
Proof. intros H. dim3 d H; vm_compute; lia. Qed.
Lemma plus2 d : (d < 3)%nat -> (plus_2_mod_3 d < 3 /\ plus_2_mod_3 d <> d /\ plus_2_mod_3 d <> plus_1_mod_3 d)%nat.
Proof. intros H. dim3 d H; vm_compute; lia. Qed.
Lemma three d dn : (d < 3)%nat -> (dn < 3)%nat -> d = dn \/ d = plus_1_mod_3 dn \/ d = plus_2_mod_3 dn.
Proof. intros H H'. dim3 d H; dim3 dn H'; vm_compute; tauto. Qed.

Lemma exists_other dn d' : (dn < 3)%nat -> (d' < 3)%nat -> d' <> dn -> exists de, (de < 3)%nat /\ de <> dn /\ de <> d' /\ forall d, (d < 3)%nat -> d = de \/ (d = dn \/ d = d').
Proof.
  intros A B C. exists (3 - dn - d')%nat. dim3 dn A; dim3 d' B; try congruence; repeat split; try (cbn; lia); intros d Hd; dim3 d Hd; cbn; tauto.
Qed.

Section Vol.
Variable jac resid r0 bnd : list R.
Notation J := (ent jac).
Notation H d e := (colcol jac d e).
Notation lo d := (ent bnd (2 * d) - ent r0 d).
Notation hi d := (ent bnd (2 * d + 1) - ent r0 d).
Definition det3 : R := J 0 * (J 4 * J 8 - J 5 * J 7) + J 1 * (J 5 * J 6 - J 3 * J 8) + J 2 * (J 3 * J 7 - J 4 * J 6).
Definition grad3 (dr : list R) (d : nat) : R := col jac (lin_res3 jac resid dr) d.
Definition obj3 (dr : list R) : R := norm2 (lin_res3 jac resid dr).
Hypothesis Det : det3 <> 0.

Lemma H_sym d e : H d e = H e d. Proof. unfold colcol. ring. Qed.
Lemma res_move dr d t k : (d < 3)%nat -> (k < 3)%nat -> length dr = 3%nat -> ent (lin_res3 jac resid (upd dr d (ent dr d + t))) k = ent (lin_res3 jac resid dr) k - J (3 * k + d) * t.
Proof.
  intros Hd Hk L. unfold lin_res3, dims. cbn [map].
  assert (E : forall a b c : R, ent [a; b; c] k = match k with 0%nat => a | 1%nat => b | _ => c end) by (intros; destruct k as [|[|[|k]]]; try lia; reflexivity).
  rewrite !E. rewrite !ent_upd by lia.
  destruct d as [|[|[|d]]]; [| | |lia]; destruct k as [|[|[|k]]]; try lia; cbn [Nat.eqb Nat.mul Nat.add]; ring.
Qed.
Lemma grad_move3 dr d t e : (d < 3)%nat -> (e < 3)%nat -> length dr = 3%nat -> grad3 (upd dr d (ent dr d + t)) e = grad3 dr e - t * H e d.
Proof.
  intros Hd He L. unfold grad3, col, colcol. rewrite !res_move by (auto; lia). change (3 * 0 + d)%nat with d. change (3 * 1 + d)%nat with (3 + d)%nat. change (3 * 2 + d)%nat with (6 + d)%nat. ring.
Qed.
Lemma obj_move3 dr d t : (d < 3)%nat -> length dr = 3%nat -> obj3 (upd dr d (ent dr d + t)) = obj3 dr - 2 * t * grad3 dr d + t * t * H d d.
Proof.
  intros Hd L. unfold obj3, norm2, grad3, col, colcol. rewrite !res_move by (auto; lia). change (3 * 0 + d)%nat with d. change (3 * 1 + d)%nat with (3 + d)%nat. change (3 * 2 + d)%nat with (6 + d)%nat. ring.
Qed.
Lemma sq3_pos a b c : a * a + b * b + c * c <> 0 -> 0 < a * a + b * b + c * c.
Proof. intros N. assert (0 <= a * a + b * b + c * c) by nra. lra. Qed.
Lemma sq3_zero a b c : a * a + b * b + c * c = 0 -> a = 0 /\ b = 0 /\ c = 0.
Proof. intros E. repeat split; nra. Qed.
Lemma H_pos d : (d < 3)%nat -> 0 < H d d.
Proof.
  intros Hd. apply sq3_pos. intros E. apply sq3_zero in E as (A & B & C). apply Det. unfold det3.
  destruct d as [|[|[|d]]]; [| | |lia]; cbn [Nat.add] in *; rewrite A, B, C; ring.
Qed.
Lemma cross d e : (d < 3)%nat -> (e < 3)%nat -> d <> e -> 0 < H d d * H e e - H d e * H d e.
Proof.
  intros Hd He N. unfold colcol.
  set (a := J d). set (b := J (3 + d)). set (c := J (6 + d)). set (x := J e). set (y := J (3 + e)). set (z := J (6 + e)).
  replace ((a * a + b * b + c * c) * (x * x + y * y + z * z) - (a * x + b * y + c * z) * (a * x + b * y + c * z))
    with ((b * z - c * y) * (b * z - c * y) + (c * x - a * z) * (c * x - a * z) + (a * y - b * x) * (a * y - b * x)) by ring.
  apply sq3_pos. intros E. apply sq3_zero in E as (A & B & C). apply Det. unfold det3.
  assert (G : forall u v w s, u * (b * z - c * y) + v * (c * x - a * z) + w * (a * y - b * x) = s -> s = 0) by (intros u v w s Q; rewrite A, B, C in Q; lra).
  unfold a, b, c, x, y, z in G. destruct d as [|[|[|d]]]; [| | |lia]; destruct e as [|[|[|e]]]; try lia; cbn [Nat.add] in G.
  - apply (G (J 2) (J 5) (J 8)). ring.
  - apply (G (- J 1) (- J 4) (- J 7)). ring.
  - apply (G (- J 2) (- J 5) (- J 8)). ring.
  - apply (G (J 0) (J 3) (J 6)). ring.
  - apply (G (J 1) (J 4) (J 7)). ring.
  - apply (G (- J 0) (- J 3) (- J 6)). ring.
Qed.

Hypothesis Box : forall d, (d < 3)%nat -> lo d <= 0 <= hi d /\ lo d < hi d.
Definition feasible3 (dr : list R) : Prop := length dr = 3%nat /\ forall d, (d < 3)%nat -> lo d <= ent dr d <= hi d.
Definition held3 (dr : list R) (fl : N) : Prop := forall d, (d < 3)%nat -> con fl d <> 0%N -> ent dr d = side_bound (lo d) (hi d) (con fl d).
(** Moving in the direction of the gradient is possible. *)
Definition room (dr : list R) (d : nat) : Prop := (0 < grad3 dr d -> ent dr d < hi d) /\ (grad3 dr d < 0 -> lo d < ent dr d).

Lemma check_ok dr delta d fac nf : (d < 3)%nat -> lo d <= ent dr d <= hi d -> 0 <= fac <= 1 ->
  exists fac' nf', check_constraint r0 bnd dr delta d (fac, nf) = Ok (fac', nf') /\ 0 <= fac' <= fac /\ lo d <= ent dr d + fac' * delta <= hi d /\
    ((fac' = fac /\ nf' = nf) \/ exists s, is_side s /\ nf' = at_dir s d /\ fac' < 1 /\ ent dr d + fac' * delta = side_bound (lo d) (hi d) s /\ 0 < sg s * delta).
Proof.
  intros Hd F Hf. unfold check_constraint. set (nr := ent r0 d + (ent dr d + delta)).
  assert (Mid : forall f, 0 <= f <= 1 -> lo d <= ent dr d + 1 * delta <= hi d -> lo d <= ent dr d + f * delta <= hi d) by (intros f X Y; destruct (Rle_dec 0 delta); split; nra).
  destruct (Rlt_dec ((nr - ent bnd (2 * d)) * (ent bnd (2 * d + 1) - nr)) 0) as [Hout|Hin].
  - destruct (Rlt_dec nr (ent bnd (2 * d))) as [Hl|Hl].
    + assert (delta < 0) by (unfold nr in Hl; lra). rewrite dv_ok by lra. cbn [bind].
      set (f := (ent bnd (2 * d) - (ent r0 d + ent dr d)) / delta). assert (Ef : f * delta = ent bnd (2 * d) - (ent r0 d + ent dr d)) by (unfold f; field; lra).
      assert (F0 : 0 <= f) by (destruct (Rle_dec 0 f) as [|Hc]; [auto|exfalso; assert (0 < (- f) * (- delta)) by (apply Rmult_lt_0_compat; lra); lra]).
      assert (F1 : f < 1) by (destruct (Rlt_dec f 1) as [|Hc]; [auto|exfalso; unfold nr in Hl; assert (0 <= (f - 1) * (- delta)) by (apply Rmult_le_pos; lra); lra]).
      destruct (Rlt_dec f fac) as [Hlt|Hge].
      * exists f, (at_dir 1 d). split; [auto|]. split; [lra|]. split; [lra|]. right. exists 1%N. split; [left; auto|]. split; [auto|]. split; [lra|]. unfold side_bound, sg. cbn [N.eqb Pos.eqb]. split; lra.
      * exists fac, nf. split; [auto|]. split; [lra|]. split; [|auto]. assert (0 <= (f - fac) * (- delta)) by (apply Rmult_le_pos; lra). split; nra.
    + assert (Hu : ent bnd (2 * d + 1) < nr) by (destruct (Rlt_dec (ent bnd (2 * d + 1)) nr); [auto|exfalso; nra]).
      assert (0 < delta) by (unfold nr in Hu; lra). rewrite dv_ok by lra. cbn [bind].
      set (f := (ent bnd (2 * d + 1) - (ent r0 d + ent dr d)) / delta). assert (Ef : f * delta = ent bnd (2 * d + 1) - (ent r0 d + ent dr d)) by (unfold f; field; lra).
      assert (F0 : 0 <= f) by (destruct (Rle_dec 0 f) as [|Hc]; [auto|exfalso; assert (0 < (- f) * (delta)) by (apply Rmult_lt_0_compat; lra); lra]).
      assert (F1 : f < 1) by (destruct (Rlt_dec f 1) as [|Hc]; [auto|exfalso; unfold nr in Hu; assert (0 <= (f - 1) * (delta)) by (apply Rmult_le_pos; lra); lra]).
      destruct (Rlt_dec f fac) as [Hlt|Hge].
      * exists f, (at_dir 2 d). split; [auto|]. split; [lra|]. split; [lra|]. right. exists 2%N. split; [right; auto|]. split; [auto|]. split; [lra|]. unfold side_bound, sg. cbn [N.eqb Pos.eqb]. split; lra.
      * exists fac, nf. split; [auto|]. split; [lra|]. split; [|auto]. assert (0 <= (f - fac) * (delta)) by (apply Rmult_le_pos; lra). split; nra.
  - exists fac, nf. split; [auto|]. split; [lra|]. split; [|auto]. apply Mid; [lra|]. unfold nr in Hin. pose proof (Box d Hd) as [_ B].
    split; match goal with |- ?a <= ?b => destruct (Rle_dec a b) as [|Hc]; [auto|exfalso; nra] end.
Qed.

(** One step along an edge. *)
Lemma edge3_ok fl de dr : In fl all27 -> (de < 3)%nat -> (forall d, (d < 3)%nat -> free fl d = (d =? de)%nat) -> feasible3 dr ->
  exists dr' fl', vol_edge jac resid r0 bnd dr fl = Ok (dr', fl') /\ feasible3 dr' /\ (forall d, d <> de -> ent dr' d = ent dr d) /\ obj3 dr' <= obj3 dr /\
    (grad3 dr de <> 0 -> room dr de -> obj3 dr' < obj3 dr) /\
    ((fl' = fl /\ grad3 dr' de = 0) \/
     exists t, is_side t /\ fl' = N.lor fl (at_dir t de) /\ ent dr' de = side_bound (lo de) (hi de) t).
Proof.
  intros Hf Hde Fr [L F]. unfold vol_edge. rewrite (at_two fl de) by auto. fold (grad3 dr de).
  pose proof (H_pos de Hde) as Hp. rewrite dv_ok by lra. cbn [bind]. set (y := grad3 dr de). set (h := H de de) in *. set (drc := y / h).
  assert (Hy : y = drc * h) by (unfold drc; field; lra).
  destruct (check_ok dr drc de 1 0%N Hde (F de Hde) ltac:(lra)) as (fac & nf & Ec & Hfac & Hin & Cs). rewrite Ec. cbn [bind].
  do 2 eexists. split; [reflexivity|].
  assert (Ob : obj3 (upd dr de (ent dr de + fac * drc)) = obj3 dr - fac * (2 - fac) * (drc * drc * h)) by (rewrite obj_move3 by auto; fold y h; rewrite Hy; ring).
  assert (Dp : 0 <= drc * drc * h) by nra.
  split; [split; [rewrite upd_length; auto|intros d Hd; rewrite ent_upd by lia; destruct (Nat.eqb_spec d de) as [->|]; auto]|].
  split; [intros d Hn; rewrite ent_upd by lia; destruct (Nat.eqb_spec d de); [contradiction|auto]|].
  split; [rewrite Ob; assert (0 <= fac * (2 - fac)) by nra; nra|]. split.
  - intros Ny Rm. fold y in Ny. rewrite Ob. assert (Nd : drc <> 0) by (intros E; apply Ny; rewrite Hy, E; ring).
    assert (0 < drc * drc * h) by (apply Rmult_lt_0_compat; [destruct (Rdichotomy _ _ Nd); nra|auto]).
    assert (0 < fac).
    { destruct Cs as [[-> _]|(s & Hs & _ & _ & Eb & Sd)]; [lra|]. destruct (Rle_dec fac 0) as [Z|]; [exfalso|lra]. assert (fac = 0) by lra. subst fac. rewrite Rmult_0_l, Rplus_0_r in Eb.
      destruct Rm as [R1 R2]. fold y in R1, R2. destruct Hs as [->| ->]; unfold side_bound, sg in *; cbn [N.eqb Pos.eqb] in *; [assert (Yl : y < 0) by nra; specialize (R2 Yl)|assert (Yl : 0 < y) by nra; specialize (R1 Yl)]; lra. }
    assert (0 < fac * (2 - fac)) by nra. nra.
  - destruct Cs as [[-> ->]|(s & Hs & -> & _ & Eb & Sd)].
    + left. split; [apply N.lor_0_r|]. rewrite grad_move3 by auto. fold y h. rewrite Hy. ring.
    + right. exists s. split; [auto|]. split; [auto|]. rewrite ent_upd, Nat.eqb_refl by lia. auto.
Qed.

(** One step on a face. *)
Lemma face3_ok fl dn dr : In fl all27 -> (dn < 3)%nat -> (forall d, (d < 3)%nat -> free fl d = negb (d =? dn)%nat) -> feasible3 dr ->
  exists dr' nf, vol_face jac resid r0 bnd dr fl = Ok (dr', nf) /\ feasible3 dr' /\ ent dr' dn = ent dr dn /\ obj3 dr' <= obj3 dr /\
    (nf = 0%N \/
     exists t d', is_side t /\ (d' < 3)%nat /\ d' <> dn /\ nf = at_dir t d' /\ ent dr' d' = side_bound (lo d') (hi d') t /\
       (obj3 dr' < obj3 dr \/ (dr' = dr /\ forall e, (e < 3)%nat -> e <> dn -> e <> d' -> grad3 dr e = 0 -> room dr d' -> grad3 dr d' = 0))).
Proof.
  intros Hf Hdn Fr [L F]. unfold vol_face. rewrite (at_one fl dn) by auto. destruct (plus1 dn Hdn) as [Hd1 N1]. destruct (plus2 dn Hdn) as (Hd2 & N2 & N12).
  set (d1 := plus_1_mod_3 dn) in *. set (d2 := plus_2_mod_3 dn) in *. fold (grad3 dr d1). fold (grad3 dr d2).
  pose proof (H_pos d1 Hd1) as P1. pose proof (H_pos d2 Hd2) as P2. pose proof (cross d1 d2 Hd1 Hd2 ltac:(auto)) as Cr.
  unfold lin_solve_sym_2. cbn [ent nth]. rewrite dv_ok by lra. cbn [bind]. set (g1 := grad3 dr d1). set (g2 := grad3 dr d2).
  set (h11 := H d1 d1) in *. set (h12 := H d1 d2) in *. set (h22 := H d2 d2) in *. set (D := h11 * h22 - h12 * h12) in *.
  set (c1 := 1 / D * (h22 * g1 - h12 * g2)). set (c2 := 1 / D * (h11 * g2 - h12 * g1)).
  assert (G1 : g1 = h11 * c1 + h12 * c2) by (unfold c1, c2, D; field; fold D; lra). assert (G2 : g2 = h12 * c1 + h22 * c2) by (unfold c1, c2, D; field; fold D; lra).
  destruct (check_ok dr c1 d1 1 0%N Hd1 (F d1 Hd1) ltac:(lra)) as (fa & na & Ea & Ha & Ia & Ca). rewrite Ea. cbn [bind].
  destruct (check_ok dr c2 d2 fa na Hd2 (F d2 Hd2) ltac:(lra)) as (fb & nb & Eb & Hb & Ib & Cb). rewrite Eb. cbn [bind].
  do 2 eexists. split; [reflexivity|].
  assert (Sm : forall c d, (d < 3)%nat -> lo d <= ent dr d + fa * c <= hi d -> lo d <= ent dr d + fb * c <= hi d).
  { intros c d Hd X. pose proof (F d Hd) as Fd. destruct (Rle_dec 0 c) as [Hc|Hc]; [assert (0 <= fb * c) by nra; assert (0 <= (fa - fb) * c) by nra; split; lra|].
    assert (0 <= fb * (- c)) by nra. assert (0 <= (fa - fb) * (- c)) by nra. split; lra. }
  assert (Ia' := Sm c1 d1 Hd1 Ia).
  assert (E2 : ent dr d2 + fb * c2 = ent (upd dr d1 (ent dr d1 + fb * c1)) d2 + fb * c2) by (rewrite ent_upd by lia; destruct (Nat.eqb_spec d2 d1); [contradiction|auto]).
  assert (Ent : forall e, ent (upd (upd dr d1 (ent dr d1 + fb * c1)) d2 (ent dr d2 + fb * c2)) e = if (e =? d2)%nat then ent dr d2 + fb * c2 else if (e =? d1)%nat then ent dr d1 + fb * c1 else ent dr e).
  { intros e. rewrite ent_upd by (rewrite upd_length; lia). destruct (e =? d2)%nat; [auto|]. rewrite ent_upd by lia. auto. }
  assert (Qp : forall u v, 0 <= h11 * u * u + 2 * h12 * u * v + h22 * v * v /\ (u <> 0 \/ v <> 0 -> 0 < h11 * u * u + 2 * h12 * u * v + h22 * v * v)).
  { intros u v. assert (Q : h11 * (h11 * u * u + 2 * h12 * u * v + h22 * v * v) = (h11 * u + h12 * v) * (h11 * u + h12 * v) + D * (v * v)) by (unfold D; ring).
    pose proof (Rle_0_sqr (h11 * u + h12 * v)) as Sq1. pose proof (Rle_0_sqr v) as Sq2. unfold Rsqr in Sq1, Sq2. assert (Sq3 : 0 <= D * (v * v)) by (apply Rmult_le_pos; lra). split.
    - apply (Rmult_le_reg_l h11); lra.
    - intros N. apply (Rmult_lt_reg_l h11); [lra|]. rewrite Rmult_0_r, Q. destruct (Req_dec v 0) as [->|Nv].
      + destruct N as [N|N]; [|exfalso; apply N; reflexivity]. assert (Nu : h11 * u <> 0) by (apply Rmult_integral_contrapositive; split; lra). rewrite Rmult_0_r, Rplus_0_r. destruct (Rdichotomy _ _ Nu); nra.
      + assert (0 < v * v) by (destruct (Rdichotomy _ _ Nv); nra). assert (0 < D * (v * v)) by (apply Rmult_lt_0_compat; lra). lra. }
  assert (Ob : obj3 (upd (upd dr d1 (ent dr d1 + fb * c1)) d2 (ent dr d2 + fb * c2)) = obj3 dr - fb * (2 - fb) * (h11 * c1 * c1 + 2 * h12 * c1 * c2 + h22 * c2 * c2)).
  { rewrite E2. rewrite obj_move3 by (rewrite ?upd_length; auto). rewrite grad_move3, obj_move3 by auto. fold g1 g2 h11 h22. rewrite (H_sym d2 d1). fold h12. rewrite G1, G2. ring. }
  destruct (Qp c1 c2) as [Qp1 Qp2].
  split; [split; [rewrite !upd_length; auto|]|split; [|split]].
  - intros d Hd. rewrite Ent. destruct (Nat.eqb_spec d d2) as [->|]; [auto|]. destruct (Nat.eqb_spec d d1) as [->|]; auto.
  - rewrite Ent. destruct (Nat.eqb_spec dn d2); [lia|]. destruct (Nat.eqb_spec dn d1); [lia|auto].
  - rewrite Ob. assert (0 <= fb * (2 - fb)) by nra. nra.
  - assert (Strict : forall t d' c, is_side t -> (d' = d1 /\ c = c1) \/ (d' = d2 /\ c = c2) -> ent dr d' + fb * c = side_bound (lo d') (hi d') t -> 0 < sg t * c ->
      obj3 (upd (upd dr d1 (ent dr d1 + fb * c1)) d2 (ent dr d2 + fb * c2)) < obj3 dr \/
      (upd (upd dr d1 (ent dr d1 + fb * c1)) d2 (ent dr d2 + fb * c2) = dr /\ forall e, (e < 3)%nat -> e <> dn -> e <> d' -> grad3 dr e = 0 -> room dr d' -> grad3 dr d' = 0)).
    { intros t d' c Ht Dc Bt St. assert (Nz : c1 <> 0 \/ c2 <> 0).
      { destruct Dc as [[-> ->]|[-> ->]]; [left|right]; intros Z; rewrite Z, Rmult_0_r in St; lra. }
      specialize (Qp2 Nz). destruct (Rlt_dec 0 fb) as [Hp|Hz].
      - left. rewrite Ob. assert (0 < fb * (2 - fb)) by nra. assert (0 < fb * (2 - fb) * (h11 * c1 * c1 + 2 * h12 * c1 * c2 + h22 * c2 * c2)) by (apply Rmult_lt_0_compat; auto). lra.
      - right. assert (Z : fb = 0) by lra. rewrite Z in *. split; [rewrite !Rmult_0_l, !Rplus_0_r; rewrite (upd_ent dr d1) by auto; apply upd_ent; auto|].
        intros e He E1 E3 Ge Rm. rewrite Rmult_0_l, Rplus_0_r in Bt.
        assert (Qg : h11 * c1 * c1 + 2 * h12 * c1 * c2 + h22 * c2 * c2 = g1 * c1 + g2 * c2) by (rewrite G1, G2; ring).
        assert (Cg : 0 < grad3 dr d' * c).
        { destruct (three e dn He Hdn) as [|[->| ->]]; [contradiction| |]; fold d1 d2 in E3, Ge; destruct Dc as [[-> ->]|[-> ->]]; try congruence.
          - fold g1 in Ge. rewrite Qg, Ge in Qp2. fold g2. lra.
          - fold g2 in Ge. rewrite Qg, Ge in Qp2. fold g1. lra. }
        exfalso. destruct Rm as [R1 R2]. destruct Ht as [->| ->]; unfold side_bound, sg in *; cbn [N.eqb Pos.eqb] in *; [assert (X : grad3 dr d' < 0) by nra; specialize (R2 X)|assert (X : 0 < grad3 dr d') by nra; specialize (R1 X)]; lra. }
    destruct Cb as [[-> ->]|(s & Hs & -> & Hlt & Bs & Ss)].
    + destruct Ca as [[-> ->]|(s & Hs & -> & Hlt & Bs & Ss)]; [left; auto|right]. exists s, d1. split; [auto|]. split; [auto|]. split; [auto|]. split; [auto|].
      split; [rewrite Ent, Nat.eqb_refl; destruct (Nat.eqb_spec d1 d2); [congruence|auto]|]. apply (Strict s d1 c1); auto.
    + right. exists s, d2. split; [auto|]. split; [auto|]. split; [auto|]. split; [auto|]. split; [rewrite Ent, Nat.eqb_refl; auto|]. apply (Strict s d2 c2); auto.
Qed.

(** Relaxing. *)
Definition relaxed (dr : list R) (fl : N) (d : nat) : Prop := con fl d <> 0%N /\ ent dr d * grad3 dr d < 0.
Lemma relax3_ok fl dr : In fl all27 -> feasible3 dr -> held3 dr fl -> exists fl', vol_relax jac resid r0 bnd dr fl = (dr, fl') /\ In fl' all27 /\
  (forall d, (d < 3)%nat -> (con fl' d = con fl d /\ ~ relaxed dr fl d) \/ (con fl' d = 0%N /\ relaxed dr fl d)).
Proof.
  intros Hf [L F] Hh. unfold vol_relax.
  assert (S : forall d, (d < 3)%nat -> (let f := con fl d in if (f =? 0)%N then dr else upd dr d (ent bnd (2 * d + N.to_nat (f - 1)) - ent r0 d)) = dr).
  { intros d Hd. cbn zeta. destruct (con27 fl d Hf Hd) as [->|Sd]; [reflexivity|]. assert (Nz : con fl d <> 0%N) by (destruct Sd as [E|E]; rewrite E; discriminate).
    pose proof (Hh d Hd Nz) as B. destruct Sd as [E|E]; rewrite E in *; cbn [N.eqb Pos.eqb]; apply upd_ent; rewrite B; unfold side_bound; cbn [N.eqb Pos.eqb].
    - change (N.to_nat (1 - 1)) with 0%nat. rewrite Nat.add_0_r. auto.
    - change (N.to_nat (2 - 1)) with 1%nat. auto. }
  unfold dims. cbn [fold_left]. cbn zeta in S. rewrite (S 0%nat), (S 1%nat), (S 2%nat) by lia.
  set (st := fun (fl : N) d => if (con fl d =? 0)%N then fl else if Rlt_dec (ent dr d * col jac (lin_res3 jac resid dr) d) 0 then N.land fl (unot (at_dir 3 d)) else fl).
  assert (St : forall f d, In f all27 -> (d < 3)%nat -> In (st f d) all27 /\ (forall e, (e < 3)%nat -> e <> d -> con (st f d) e = con f e) /\
     ((con (st f d) d = con f d /\ ~ relaxed dr f d) \/ (con (st f d) d = 0%N /\ relaxed dr f d))).
  { intros f d Hf' Hd. unfold st, relaxed. fold (grad3 dr d). destruct (N.eqb_spec (con f d) 0) as [E|E].
    - split; [auto|]. split; [auto|]. left. split; [auto|]. intros [X _]. contradiction.
    - destruct (Rlt_dec (ent dr d * grad3 dr d) 0) as [Hr|Hr].
      + destruct (drop27 f d Hf' Hd) as [I C]. split; [auto|]. split; [intros e He Ne; rewrite C by auto; destruct (Nat.eqb_spec e d); [contradiction|auto]|].
        right. rewrite C, Nat.eqb_refl by auto. auto.
      + split; [auto|]. split; [auto|]. left. split; [auto|]. intros [_ X]. contradiction. }
  change (exists fl', (dr, st (st (st fl 0%nat) 1%nat) 2%nat) = (dr, fl') /\ In fl' all27 /\ (forall d, (d < 3)%nat -> (con fl' d = con fl d /\ ~ relaxed dr fl d) \/ (con fl' d = 0%N /\ relaxed dr fl d))).
  destruct (St fl 0%nat Hf ltac:(lia)) as (I0 & C0 & D0). set (f0 := st fl 0%nat) in *.
  destruct (St f0 1%nat I0 ltac:(lia)) as (I1 & C1 & D1). set (f1 := st f0 1%nat) in *.
  destruct (St f1 2%nat I1 ltac:(lia)) as (I2 & C2 & D2). set (f2 := st f1 2%nat) in *.
  exists f2. split; [auto|]. split; [auto|]. intros d Hd. unfold relaxed in *. dim3 d Hd.
  - rewrite (C2 0%nat), (C1 0%nat) by lia. auto.
  - rewrite (C2 1%nat) by lia. rewrite (C0 1%nat) in D1 by lia. auto.
  - rewrite (C1 2%nat), (C0 2%nat) in D2 by lia. auto.
Qed.

(** A point at which the constraints are checked. *)
Definition relax_pt (fl : N) (dr : list R) : Prop := feasible3 dr /\ held3 dr fl /\ forall d, (d < 3)%nat -> con fl d = 0%N -> grad3 dr d = 0.
Lemma list3 (l : list R) : length l = 3%nat -> l = [ent l 0; ent l 1; ent l 2].
Proof. intros L. destruct l as [|a [|b [|c [|? ?]]]]; try discriminate. reflexivity. Qed.
Lemma relax_min fl dr dr0 : relax_pt fl dr -> relax_pt fl dr0 -> obj3 dr <= obj3 dr0.
Proof.
  intros ([L F] & Hh & G) ([L0 F0] & Hh0 & G0).
  assert (Z : forall d, (d < 3)%nat -> grad3 dr d * (ent dr0 d - ent dr d) = 0).
  { intros d Hd. destruct (N.eq_dec (con fl d) 0) as [E|E]; [rewrite (G d Hd E); ring|]. rewrite (Hh d Hd E), (Hh0 d Hd E). ring. }
  set (u := fun d => ent dr0 d - ent dr d).
  assert (E : forall k, (k < 3)%nat -> ent (lin_res3 jac resid dr0) k = ent (lin_res3 jac resid dr) k - (J (3 * k) * u 0%nat + J (3 * k + 1) * u 1%nat + J (3 * k + 2) * u 2%nat)).
  { intros k Hk. unfold lin_res3, dims, u. destruct k as [|[|[|k]]]; try lia; cbn [map ent nth]; ring. }
  unfold obj3, norm2. rewrite !E by lia. set (a := fun k => J (3 * k) * u 0%nat + J (3 * k + 1) * u 1%nat + J (3 * k + 2) * u 2%nat).
  change (J (3 * 0) * u 0%nat + J (3 * 0 + 1) * u 1%nat + J (3 * 0 + 2) * u 2%nat) with (a 0%nat). change (J (3 * 1) * u 0%nat + J (3 * 1 + 1) * u 1%nat + J (3 * 1 + 2) * u 2%nat) with (a 1%nat). change (J (3 * 2) * u 0%nat + J (3 * 2 + 1) * u 1%nat + J (3 * 2 + 2) * u 2%nat) with (a 2%nat).
  set (x := ent (lin_res3 jac resid dr) 0). set (y := ent (lin_res3 jac resid dr) 1). set (z := ent (lin_res3 jac resid dr) 2).
  assert (Sa : x * a 0%nat + y * a 1%nat + z * a 2%nat = 0).
  { transitivity (grad3 dr 0 * u 0%nat + grad3 dr 1 * u 1%nat + grad3 dr 2 * u 2%nat); [unfold grad3, col; fold x y z; unfold a; cbn [Nat.mul Nat.add]; ring|]. unfold u. rewrite !Z by lia. ring. }
  assert (0 <= a 0%nat * a 0%nat) by nra. assert (0 <= a 1%nat * a 1%nat) by nra. assert (0 <= a 2%nat * a 2%nat) by nra. lra.
Qed.

Lemma remove_shorter (x : N) l : In x l -> (length (remove N.eq_dec x l) < length l)%nat.
Proof. apply remove_length_lt. Qed.
Lemma free_con fl d : free fl d = true <-> con fl d = 0%N.
Proof. unfold free. apply N.eqb_eq. Qed.
Lemma con_side fl d : In fl all27 -> (d < 3)%nat -> con fl d <> 0%N -> is_side (con fl d).
Proof. intros A B C. destruct (con27 fl d A B); [contradiction|auto]. Qed.
Lemma held_add dr fl t d : In fl all27 -> (d < 3)%nat -> con fl d = 0%N -> is_side t -> held3 dr fl -> ent dr d = side_bound (lo d) (hi d) t -> held3 dr (N.lor fl (at_dir t d)).
Proof.
  intros A B C Ht Hh E e He Ne. destruct (add27 fl t d A B C Ht) as [_ D]. rewrite D in Ne |- * by auto. destruct (Nat.eqb_spec e d) as [->|]; auto.
Qed.

Definition more27 : list N := filter (fun f => (2 <=? num_constrained3 f)%N) all27.
(** From a face (or an edge) the loop ends within the number of states at which constraints may be
    checked; the objective does not increase. *)
Lemma vol_loop_ok : forall fuel rem (at_face : bool) dr fl o, (length rem < fuel)%nat ->
  In fl all27 -> feasible3 dr -> held3 dr fl ->
  (if at_face then exists dn, (dn < 3)%nat /\ forall d, (d < 3)%nat -> free fl d = negb (d =? dn)%nat
   else exists de, (de < 3)%nat /\ forall d, (d < 3)%nat -> free fl d = (d =? de)%nat) ->
  (forall F dr0, In F more27 -> ~ In F rem -> relax_pt F dr0 -> o <= obj3 dr0) ->
  (obj3 dr < o \/ (obj3 dr = o /\ (forall d, (d < 3)%nat -> con fl d = 0%N -> room dr d) /\ exists d, (d < 3)%nat /\ con fl d = 0%N /\ grad3 dr d <> 0)) ->
  exists dr' fl', vol_loop fuel jac resid r0 bnd at_face dr fl = Ok (dr', fl') /\ In fl' all27 /\ feasible3 dr' /\ held3 dr' fl' /\ obj3 dr' <= obj3 dr.
Proof.
  induction fuel as [|fuel IH]; intros rem at_face dr fl o Hlen Hfl Hfe Hh Sh Used Pr; [lia|]. cbn [vol_loop].
  (* from the edge on *)
  assert (Edge : forall dr1 f1, In f1 all27 -> feasible3 dr1 -> held3 dr1 f1 -> (exists de, (de < 3)%nat /\ (forall d, (d < 3)%nat -> free f1 d = (d =? de)%nat) /\
      (obj3 dr1 < o \/ (obj3 dr1 <= o /\ room dr1 de /\ grad3 dr1 de <> 0))) -> obj3 dr1 <= obj3 dr ->
    exists dr' fl', ('(dr, old_flags) <- vol_edge jac resid r0 bnd dr1 f1 ;;
      let '(dr, flags) := vol_relax jac resid r0 bnd dr old_flags in
      if (flags =? old_flags)%N then Ok (dr, flags)
      else if (num_constrained3 flags =? 1)%N then vol_loop fuel jac resid r0 bnd true dr flags
      else if (num_constrained3 flags =? 2)%N then vol_loop fuel jac resid r0 bnd false dr flags
      else Ok (dr, flags)) = Ok (dr', fl') /\ In fl' all27 /\ feasible3 dr' /\ held3 dr' fl' /\ obj3 dr' <= obj3 dr).
  { intros dr1 f1 H1 Fe1 Hh1 (de & Hde & Fr & Pr1) Le.
    destruct (edge3_ok f1 de dr1 H1 Hde Fr Fe1) as (dr2 & f2 & Ee & Fe2 & Same & Le2 & St & Cs). rewrite Ee. cbn [bind].
    assert (Hh12 : held3 dr2 f1).
    { intros d Hd Nd. assert (d <> de) by (intros ->; apply Nd, free_con; rewrite Fr by auto; apply Nat.eqb_refl). rewrite Same by auto. apply Hh1; auto. }
    assert (Two : In f2 all27 /\ relax_pt f2 dr2 /\ In f2 more27).
    { destruct Cs as [[-> G0]|(t & Ht & -> & Eb)].
      - split; [auto|]. split.
        + split; [auto|]. split; [auto|]. intros d Hd E. apply free_con in E. rewrite Fr in E by auto. apply Nat.eqb_eq in E. subst d. auto.
        + apply filter_In. split; [auto|]. pose proof (Fr 0%nat ltac:(lia)) as F0. pose proof (Fr 1%nat ltac:(lia)) as F1. pose proof (Fr 2%nat ltac:(lia)) as F2. clear - H1 F0 F1 F2 Hde. unfold free in *.
          flags27 H1; dim3 de Hde; vm_compute in F0, F1, F2; try discriminate; reflexivity.
      - assert (E0 : con f1 de = 0%N) by (apply free_con; rewrite Fr by auto; apply Nat.eqb_refl). destruct (add27 f1 t de H1 Hde E0 Ht) as [I C]. split; [auto|].
        assert (Nz : forall d, (d < 3)%nat -> con (N.lor f1 (at_dir t de)) d <> 0%N).
        { intros d Hd. rewrite C by auto. destruct (Nat.eqb_spec d de) as [->|Nd]; [destruct Ht as [->| ->]; discriminate|]. intros E. apply free_con in E. rewrite Fr in E by auto. apply Nat.eqb_eq in E. contradiction. }
        split.
        + split; [auto|]. split; [apply held_add; auto|]. intros d Hd E. exfalso. apply (Nz d Hd E).
        + apply filter_In. split; [auto|]. pose proof (Nz 0%nat ltac:(lia)) as F0. pose proof (Nz 1%nat ltac:(lia)) as F1. clear - I F0 F1.
          set (f := N.lor f1 (at_dir t de)) in *. clearbody f. flags27 I; try reflexivity; exfalso; (apply F0; reflexivity) || (apply F1; reflexivity). }
    destruct Two as (I2 & Rp & M2). pose proof Rp as (_ & Hh2 & G2).
    destruct (relax3_ok f2 dr2 I2 Fe2 Hh2) as (f3 & Er & I3 & Cr). rewrite Er.
    assert (Hh3 : held3 dr2 f3) by (intros d Hd Nd; destruct (Cr d Hd) as [[E _]|[E _]]; rewrite E in Nd |- *; [apply Hh2; auto|contradiction]).
    assert (Fin : exists dr' fl', Ok (dr2, f3) = Ok (dr', fl') /\ In fl' all27 /\ feasible3 dr' /\ held3 dr' fl' /\ obj3 dr' <= obj3 dr) by (exists dr2, f3; repeat (split; [auto|]); lra).
    destruct (N.eqb_spec f3 f2) as [E|E]; [exact Fin|].
    assert (Lt : obj3 dr2 < o) by (destruct Pr1 as [Pr1|(Pr1 & Rm & Gn)]; [lra|]; specialize (St Gn Rm); lra).
    assert (Inr : In f2 rem).
    { destruct (in_dec N.eq_dec f2 rem) as [|Ni]; [auto|exfalso]. pose proof (Used f2 dr2 M2 Ni Rp). lra. }
    assert (Rm3 : forall d, (d < 3)%nat -> con f3 d = 0%N -> room dr2 d).
    { intros d Hd Z. destruct (Cr d Hd) as [[E' _]|[_ [Nz In']]].
      - rewrite E' in Z. pose proof (G2 d Hd Z) as G. split; intros X; rewrite G in X; lra.
      - pose proof (Hh2 d Hd Nz) as B. pose proof (Box d Hd) as Bd. destruct (con_side f2 d I2 Hd Nz) as [S|S]; rewrite S in B; unfold side_bound in B; cbn [N.eqb Pos.eqb] in B; split; intros X; try lra; exfalso; rewrite B in In'; nra. }
    assert (Ex : exists d, (d < 3)%nat /\ con f3 d = 0%N /\ grad3 dr2 d <> 0).
    { assert (Or : (exists d, (d < 3)%nat /\ con f3 d = 0%N /\ relaxed dr2 f2 d) \/ (forall d, (d < 3)%nat -> con f3 d = con f2 d)).
      { destruct (Cr 0%nat ltac:(lia)) as [[A0 _]|[A0 R0]]; [|left; exists 0%nat; auto]. destruct (Cr 1%nat ltac:(lia)) as [[A1 _]|[A1 R1]]; [|left; exists 1%nat; auto]. destruct (Cr 2%nat ltac:(lia)) as [[A2 _]|[A2 R2]]; [|left; exists 2%nat; auto].
        right. intros d Hd. dim3 d Hd; auto. }
      destruct Or as [(d & Hd & Z & [_ Rl])|Q]; [|exfalso; apply E, ext27; auto]. exists d. split; [auto|]. split; [auto|]. intros Z0. rewrite Z0 in Rl. lra. }
    assert (Used' : forall F dr0, In F more27 -> ~ In F (remove N.eq_dec f2 rem) -> relax_pt F dr0 -> obj3 dr2 <= obj3 dr0).
    { intros F dr0 MF Ni RF. destruct (N.eq_dec F f2) as [->|Nf]; [apply (relax_min f2); auto|].
      assert (Nr : ~ In F rem) by (intros X; apply Ni, in_in_remove; auto). pose proof (Used F dr0 MF Nr RF). lra. }
    assert (Len : (length (remove N.eq_dec f2 rem) < fuel)%nat) by (pose proof (remove_shorter f2 rem Inr); lia).
    destruct (num27 f3 I3) as [N1 N2].
    destruct (N.eqb_spec (num_constrained3 f3) 1) as [E1|E1].
    - destruct (IH (remove N.eq_dec f2 rem) true dr2 f3 (obj3 dr2) Len I3 Fe2 Hh3 (N1 E1) Used' (or_intror (conj eq_refl (conj Rm3 Ex)))) as (dr' & fl' & A & B & C & D & Ob). exists dr', fl'. repeat (split; [auto|]). lra.
    - destruct (N.eqb_spec (num_constrained3 f3) 2) as [E2|E2]; [|exact Fin].
      destruct (IH (remove N.eq_dec f2 rem) false dr2 f3 (obj3 dr2) Len I3 Fe2 Hh3 (N2 E2) Used' (or_intror (conj eq_refl (conj Rm3 Ex)))) as (dr' & fl' & A & B & C & D & Ob). exists dr', fl'. repeat (split; [auto|]). lra. }
  destruct at_face.
  - destruct Sh as (dn & Hdn & Fr). destruct (face3_ok fl dn dr Hfl Hdn Fr Hfe) as (dr1 & nf & Ef & Fe1 & En & Le & Cs). rewrite Ef. cbn [bind andb].
    assert (Hn : con fl dn <> 0%N) by (intros E; apply free_con in E; rewrite Fr in E by auto; rewrite Nat.eqb_refl in E; discriminate).
    assert (Hh1 : held3 dr1 fl).
    { intros d Hd Nd. destruct (Nat.eq_dec d dn) as [->|Ne]; [rewrite En; apply Hh; auto|]. exfalso. apply Nd, free_con. rewrite Fr by auto. destruct (Nat.eqb_spec d dn); [contradiction|auto]. }
    destruct Cs as [->|(t & d' & Ht & Hd' & Nd' & -> & Eb & St)]; [exists dr1, fl; cbn [N.eqb]; auto 6|].
    destruct (N.eqb_spec (at_dir t d') 0) as [E|_]; [exfalso; destruct Ht as [->| ->]; dim3 d' Hd'; discriminate E|].
    assert (E0 : con fl d' = 0%N) by (apply free_con; rewrite Fr by auto; destruct (Nat.eqb_spec d' dn); [contradiction|auto]).
    destruct (add27 fl t d' Hfl Hd' E0 Ht) as [I C]. apply Edge; auto; [apply held_add; auto|].
    destruct (exists_other dn d' Hdn Hd' Nd') as (de & Hde & A1 & A2 & A3).
    exists de. split; [auto|]. split.
    + intros d Hd. unfold free. rewrite C by auto. destruct (Nat.eqb_spec d d') as [->|N1].
      * destruct (Nat.eqb_spec d' de); [congruence|]. destruct Ht as [->| ->]; reflexivity.
      * change (con fl d =? 0)%N with (free fl d). rewrite Fr by auto. destruct (Nat.eqb_spec d dn) as [E|N2]; destruct (Nat.eqb_spec d de) as [E'|N3]; cbn [negb]; auto; exfalso; [congruence|destruct (A3 d Hd) as [|[|]]; congruence].
    + destruct Pr as [Pr|(Pr & Rm & (d0 & Hd0 & Z0 & G0))]; [left; lra|]. destruct St as [St|[-> St]]; [left; lra|]. right. split; [lra|].
      assert (Fe : con fl de = 0%N) by (apply free_con; rewrite Fr by auto; destruct (Nat.eqb_spec de dn); [congruence|auto]).
      split; [apply Rm; auto|]. intros Ge. pose proof (St de Hde ltac:(congruence) ltac:(congruence) Ge (Rm d' Hd' E0)) as Gd.
      apply G0. assert (d0 <> dn) by (intros ->; contradiction). destruct (Nat.eq_dec d0 d') as [->|]; [auto|]. destruct (A3 d0 Hd0) as [|[|]]; congruence.
  - destruct Sh as (de & Hde & Fr). cbn [bind andb]. rewrite N.lor_0_r. apply Edge; auto; [|lra]. exists de. split; [auto|]. split; [auto|].
    destruct Pr as [Pr|(Pr & Rm & (d0 & Hd0 & Z0 & G0))]; [left; auto|right]. assert (d0 = de) by (apply free_con in Z0; rewrite Fr in Z0 by auto; apply Nat.eqb_eq in Z0; auto). subst d0. split; [lra|]. auto.
Qed.
End Vol.
