(** What holds of a point during a three-dimensional search. *)
From Verif Require Import Base BaseLemmas Tensor TensorSpec Poly PolySpec FindptsEl2 FindptsEl2Proof1 FindptsEl2Proof2 FindptsEl2Proof3 FindptsEl3 FindptsEl3Proof1 FindptsEl3Proof2 FindptsEl3Proof3 FindptsEl3Proof4.
From Coq Require Import Reals Lra Psatz NArith.
Open Scope R_scope.

Definition low3 (p : pt) : N := N.land (flags p) FLAG_MASK3.
Definition active3 (p : pt) : Prop := In (low3 p) all27.
Lemma conv_27 f : In f all27 -> (N.lor f CONVERGED_FLAG3 < 128)%N /\ (f < 128)%N /\ N.land (N.lor f CONVERGED_FLAG3) FLAG_MASK3 = N.lor f CONVERGED_FLAG3 /\ N.land f FLAG_MASK3 = f /\ ~ In (N.lor f CONVERGED_FLAG3) all27.
Proof. intros H. flags27 H; vm_compute; repeat split; try discriminate; intuition discriminate. Qed.
(** Only the constraint of the direction dn is kept. *)
Lemma keep27 fl dn : In fl all27 -> (dn < 3)%nat -> In (N.land fl (at_dir 3 dn)) all27 /\ forall e, (e < 3)%nat -> con (N.land fl (at_dir 3 dn)) e = if (e =? dn)%nat then con fl e else 0%N.
Proof.
  intros H Hd. split; [apply mask27; auto; dim3 dn Hd; reflexivity|]. intros e He. rewrite con_land. destruct (con27 fl e H He) as [E|[E|E]]; rewrite E; dim3 e He; dim3 dn Hd; reflexivity.
Qed.
Lemma keep_con fl r dn : In fl all27 -> (dn < 3)%nat -> constrained3 fl r -> constrained3 (N.land fl (at_dir 3 dn)) r.
Proof. intros H Hd C e He. rewrite (proj2 (keep27 fl dn H Hd)) by auto. destruct (e =? dn)%nat; [apply C; auto|left; auto]. Qed.
Lemma drop_con fl r dn : In fl all27 -> (dn < 3)%nat -> constrained3 fl r -> constrained3 (N.land fl (unot (at_dir 3 dn))) r.
Proof. intros H Hd C e He. rewrite (proj2 (drop27 fl dn H Hd)) by auto. destruct (e =? dn)%nat; [left; auto|apply C; auto]. Qed.
Lemma con_one fl r d : In fl all27 -> (d < 3)%nat -> constrained3 fl r -> con fl d <> 0%N -> ent r d = 1 \/ ent r d = -1.
Proof. intros H Hd C N0. destruct (C d Hd) as [E|[[_ E]|[_ E]]]; [contradiction|right; auto|left; auto]. Qed.
Lemma box_ext3 r r' : in_box3 r -> in_box3 r' -> (forall d, (d < 3)%nat -> ent r d = ent r' d) -> r = r'.
Proof. intros [L _] [L' _] A. rewrite (list3 r), (list3 r') by auto. rewrite !A by lia. auto. Qed.

Section Point.
Variable DBL_MAX : R.
Hypothesis HM : 0 < DBL_MAX.
Variable fd : el.
Variable zd : nat -> arr.
Variable tol : R.
Notation T := (T fd zd).
Notation residual := (residual fd zd).
Notation jacobian := (jacobian fd zd).
Notation hess := (hess fd zd).
Hypothesis Reg : forall r, in_box3 r -> det3 (jacobian r) <> 0.
(** The residual at r of x, and the squared distance from x to the image of r. *)
Definition res3 (x r : list R) : list R := map (fun d => ent x d - T [0; 0; 0]%nat d r) dims.
Definition D3 (x r : list R) : R := norm2 (res3 x r).
Definition hs (x r : list R) (e f : nat) : R := ent (res3 x r) 0 * T (ord2 e f) 0 r + ent (res3 x r) 1 * T (ord2 e f) 1 r + ent (res3 x r) 2 * T (ord2 e f) 2 r.
(** At the corner r no direction into the cube leads nearer to x, to first order. *)
Definition corner_stop3 (x r : list R) : Prop := forall d, (d < 3)%nat -> (ent r d = 1 \/ ent r d = -1) /\ 0 <= col (jacobian r) (res3 x r) d * ent r d.
Definition sub3 (r' r : list R) : list R := map (fun d => ent r' d - ent r d) dims.
(** The decrease of the squared distance to second order. *)
Definition taylor (x r dl : list R) : R :=
  let g d := col (jacobian r) (res3 x r) d in let A d e := colcol (jacobian r) d e - hs x r d e in
  2 * (g 0%nat * ent dl 0 + g 1%nat * ent dl 1 + g 2%nat * ent dl 2)
  - (A 0%nat 0%nat * ent dl 0 * ent dl 0 + A 1%nat 1%nat * ent dl 1 * ent dl 1 + A 2%nat 2%nat * ent dl 2 * ent dl 2
     + 2 * (A 0%nat 1%nat * ent dl 0 * ent dl 1 + A 0%nat 2%nat * ent dl 0 * ent dl 2 + A 1%nat 2%nat * ent dl 1 * ent dl 2)).
(** The step from r to r', within the distance rho, and the decrease v of the squared distance that is
    predicted for it: with the map replaced by its linear part (and then r' is the zero of the linear
    residual, if there is one at hand), or, if the directions F stay at their bounds, to second order (and
    then v is the largest decrease). *)
Definition predicted3 (x r r' : list R) (v : R) : Prop := exists rho, 0 < rho /\ (forall d, (d < 3)%nat -> Rabs (ent r' d - ent r d) <= rho) /\
  ((v = D3 x r - obj3 (jacobian r) (res3 x r) (sub3 r' r) /\
    forall q, in_box3 q -> (forall d, (d < 3)%nat -> Rabs (ent q d - ent r d) <= rho) -> obj3 (jacobian r) (res3 x r) (sub3 q r) = 0 -> q = r') \/
   (v = taylor x r (sub3 r' r) /\ exists F, F <> [] /\ (forall d, In d F -> (d < 3)%nat /\ (ent r d = 1 \/ ent r d = -1) /\ ent r' d = ent r d) /\
    forall q, in_box3 q -> (forall d, (d < 3)%nat -> Rabs (ent q d - ent r d) <= rho) -> (forall d, In d F -> ent q d = ent r d) -> taylor x r (sub3 q r) <= v)).

Record stepped_to3 (D0 : R) (p : pt) : Prop := {
  s3'_box : in_box3 (oldr p);
  s3'_dist : dist2 p = D3 (px p) (oldr p);
  s3'_best : dist2 p <= D0;
  s3'_pred : 0 <= dist2p p;
  s3'_model : predicted3 (px p) (oldr p) (pr p) (dist2p p);
  s3'_same : pr p = oldr p -> dist2p p = 0;
  s3'_hist : active3 p -> exists h, In h all27 /\ constrained3 h (oldr p) /\ N.land (N.shiftr (flags p) 7) FLAG_MASK3 = h;
  s3'_conv : ~ active3 p -> Rabs (ent (pr p) 0 - ent (oldr p) 0) + Rabs (ent (pr p) 1 - ent (oldr p) 1) + Rabs (ent (pr p) 2 - ent (oldr p) 2) < tol \/ (pr p = oldr p /\ corner_stop3 (px p) (pr p)) }.
Record rejected_to3 (D0 : R) (p : pt) : Prop := {
  r3_box : in_box3 (oldr p);
  r3_dist : dist2 p = D3 (px p) (pr p);
  r3_best : dist2 p <= D0;
  r3_pred : dist2p p = - DBL_MAX;
  r3_conv : ~ active3 p -> exists pred, predicted3 (px p) (pr p) (oldr p) pred /\ 0 <= pred < D3 (px p) (oldr p) * tol }.
Record started3 (D0 : R) (p : pt) : Prop := { t3_dist : dist2 p = DBL_MAX; t3_pred : dist2p p = 0; t3_act : active3 p; t3_best : D3 (px p) (pr p) = D0; t3_less : D0 < DBL_MAX }.
Record inv3 (D0 : R) (p : pt) : Prop := {
  i3_box : in_box3 (pr p);
  i3_tr : 0 < tr p;
  i3_fl : exists f, In f all27 /\ constrained3 f (pr p) /\ (low3 p = f \/ low3 p = N.lor f CONVERGED_FLAG3);
  i3_case : started3 D0 p \/ stepped_to3 D0 p \/ rejected_to3 D0 p }.

Lemma active_con3 D0 p : inv3 D0 p -> active3 p -> constrained3 (low3 p) (pr p).
Proof. intros [_ _ (f & F1 & F2 & F3) _] A. destruct F3 as [->|E]; [auto|]. exfalso. unfold active3 in A. rewrite E in A. apply (conv_27 f F1). auto. Qed.

Definition accepted3 (p : pt) (t : R) : pt := Pt (px p) [] (pr p) (D3 (px p) (pr p)) 0 t (index p) 0%N.
Lemma reject_ok3 D0 p : inv3 D0 p -> active3 p ->
  (exists q, reject_prior_step_q3 DBL_MAX (residual p) p tol = (q, true) /\ inv3 D0 q /\ px q = px p /\ index q = index p /\ rejected_to3 D0 q) \/
  (exists t, 0 < t /\ reject_prior_step_q3 DBL_MAX (residual p) p tol = (accepted3 p t, false) /\ D3 (px p) (pr p) <= D0 /\ (t = tr p \/ t = tr p * 2) /\
     (9 / 10 * dist2p p <= dist2 p - D3 (px p) (pr p) -> t = tr p * 2)).
Proof.
  intros I A. destruct I as [Bx Tr Fl Cs]. unfold reject_prior_step_q3. fold (norm2 (residual p)). change (norm2 (residual p)) with (D3 (px p) (pr p)). set (d2 := D3 (px p) (pr p)) in *.
  assert (Acc : d2 <= D0 -> 1 / 100 * dist2p p <= dist2 p - d2 -> exists t, 0 < t /\
     (if Rle_dec (9 / 10 * dist2p p) (dist2 p - d2) then (Pt (px p) [] (pr p) d2 0 (tr p * 2) (index p) 0, false) else (Pt (px p) [] (pr p) d2 0 (tr p) (index p) 0, false)) = (accepted3 p t, false) /\
     d2 <= D0 /\ (t = tr p \/ t = tr p * 2) /\ (9 / 10 * dist2p p <= dist2 p - d2 -> t = tr p * 2)).
  { intros Hd H. destruct (Rle_dec (9 / 10 * dist2p p) (dist2 p - d2)); [exists (tr p * 2)|exists (tr p)]; (split; [lra|]); (split; [reflexivity|]); (split; [auto|]); (split; [auto|]); [auto|]. intros; contradiction. }
  destruct (Rle_dec (1 / 100 * dist2p p) (dist2 p - d2)) as [Ha|Ha].
  - right. apply Acc; auto. destruct Cs as [[? ? ? ? ?]|[[? ? ? ? ? ? ? ?]|[? ? ? ? ?]]]; [unfold d2; lra|lra|unfold d2; lra].
  - left. destruct Cs as [[? ? ? ? ?]|[[Sb Sd Sbest Sp Sm Ss Sh Sc]|[? ? ? Rp ?]]].
    + exfalso. apply Ha. rewrite t3_dist0, t3_pred0. unfold d2. lra.
    + destruct (Sh A) as (h & Nh & Ch & Eh). cbv zeta. set (v0 := Rabs (ent (pr p) 0 - ent (oldr p) 0)). set (v1 := Rabs (ent (pr p) 1 - ent (oldr p) 1)). set (v2 := Rabs (ent (pr p) 2 - ent (oldr p) 2)).
      set (m := if Rlt_dec v2 v1 then if Rlt_dec v1 v0 then v0 else v1 else if Rlt_dec v2 v0 then v0 else v2).
      assert (Pos : 0 < m / 4).
      { assert (G0 : 0 <= v0) by apply Rabs_pos. assert (G1 : 0 <= v1) by apply Rabs_pos. assert (G2 : 0 <= v2) by apply Rabs_pos.
        assert (NZ : ~ (v0 = 0 /\ v1 = 0 /\ v2 = 0)). { intros (Z0 & Z1 & Z2). apply Ha.
          assert (Z : forall d, Rabs (ent (pr p) d - ent (oldr p) d) = 0 -> ent (pr p) d = ent (oldr p) d).
          { intros d Zd. destruct (Req_dec (ent (pr p) d - ent (oldr p) d) 0) as [|N0]; [lra|]. exfalso. apply (Rabs_no_R0 _ N0). exact Zd. }
          assert (E : pr p = oldr p). { apply box_ext3; auto. intros d Hd. dim3 d Hd; apply Z; auto. }
          rewrite (Ss E), Sd. unfold d2. rewrite E. lra. }
        unfold m. destruct (Rlt_dec v2 v1), (Rlt_dec v1 v0), (Rlt_dec v2 v0); try lra.
        all: assert (0 < v2 \/ v2 = 0) as [|] by lra; [lra|]; exfalso; apply NZ; repeat split; lra. }
      set (f := N.shiftr (flags p) 7) in *.
      assert (Lw : N.land (N.lor f CONVERGED_FLAG3) FLAG_MASK3 = N.lor h CONVERGED_FLAG3).
      { rewrite N.land_lor_distr_l, Eh. f_equal. }
      eexists. split; [reflexivity|]. assert (Rj : rejected_to3 D0 (Pt (px p) (oldr p) (pr p) (dist2 p) (- DBL_MAX) (m / 4) (index p) (if Rlt_dec (dist2p p) (d2 * tol) then N.lor f CONVERGED_FLAG3 else f))).
      { constructor; cbn [px pr oldr dist2 dist2p tr index flags]; auto. intros Na. destruct (Rlt_dec (dist2p p) (d2 * tol)) as [Hc|Hc]; [exists (dist2p p); split; [auto|split; auto]|].
        exfalso. apply Na. unfold active3, low3. cbn [flags]. rewrite Eh. auto. }
      split; [|auto]. constructor; cbn [px pr oldr dist2 dist2p tr index flags]; auto.
      exists h. split; [auto|]. split; [auto|]. unfold low3. cbn [flags]. destruct (Rlt_dec (dist2p p) (d2 * tol)); [right|left]; auto.
    + exfalso. apply Ha. rewrite r3_dist0, Rp. unfold d2. lra.
Qed.

(** After a step. *)
Lemma after_step3 D0 p t r d2p f0 (c : bool) : inv3 D0 p -> active3 p -> 0 < t -> D3 (px p) (pr p) <= D0 -> in_box3 r -> In f0 all27 -> constrained3 f0 r ->
  0 <= d2p -> predicted3 (px p) (pr p) r d2p -> (r = pr p -> d2p = 0) -> (c = true -> Rabs (ent r 0 - ent (pr p) 0) + Rabs (ent r 1 - ent (pr p) 1) + Rabs (ent r 2 - ent (pr p) 2) < tol) ->
  let q := set_step (accepted3 p t) r d2p (N.lor (if c then N.lor f0 CONVERGED_FLAG3 else f0) (shl (flags p) 7)) in inv3 D0 q /\ px q = px p /\ index q = index p /\ stepped_to3 D0 q.
Proof.
  intros I A Ht Hd Br Nf Cf Hp Hm Hs Hc q. destruct (conv_27 f0 Nf) as (N2 & N3 & N4 & N5 & N6).
  assert (Lq : low3 q = if c then N.lor f0 CONVERGED_FLAG3 else f0) by (unfold low3, q; cbn [flags set_step]; apply shl7_low; destruct c; auto).
  assert (St : stepped_to3 D0 q).
  { constructor; unfold q; cbn [px pr oldr dist2 dist2p tr index flags set_step accepted3]; auto.
    - apply (i3_box _ _ I).
    - intros _. exists (low3 p). split; [auto|]. split; [apply (active_con3 D0); auto|]. apply shl7_high. destruct c; auto.
    - intros Na. left. apply Hc. destruct c; [auto|]. exfalso. apply Na. unfold active3. fold q. rewrite Lq. auto. }
  split; [|auto]. constructor; unfold q; cbn [px pr oldr dist2 dist2p tr index flags set_step accepted3]; auto.
  exists f0. split; [auto|]. split; [auto|]. fold q. rewrite Lq. destruct c; auto.
Qed.

Definition went3 (D0 : R) (p : pt) (o : res pt) : Prop := exists q, o = Ok q /\ inv3 D0 q /\ px q = px p /\ index q = index p /\ (stepped_to3 D0 q \/ rejected_to3 D0 q).
Lemma sub_add3 r dr : length dr = 3%nat -> sub3 (add3 r dr) r = dr.
Proof. intros L. rewrite (list3 dr L) at 2. unfold sub3, dims. cbn [map]. rewrite !add3_ent by lia. f_equal; [lra|f_equal; [lra|f_equal; lra]]. Qed.
Lemma obj_zero jac rs : obj3 jac rs [0; 0; 0] = norm2 rs.
Proof. unfold obj3, norm2. rewrite !lin_ent0 by lia. auto. Qed.

Lemma sub3_ent r' r d : (d < 3)%nat -> ent (sub3 r' r) d = ent r' d - ent r d.
Proof. intros H. dim3 d H; reflexivity. Qed.
Lemma obj_zero_dir jac rs dr : det3 jac <> 0 -> length dr = 3%nat -> obj3 jac rs dr = 0 -> dr = newton_dir3 jac rs.
Proof.
  intros Hd L E. unfold obj3, norm2 in E. apply sq3_zero in E. rewrite !lin_ent in E by lia. cbn [Nat.mul Nat.add] in E. destruct E as (E0 & E1 & E2).
  pose proof (newton3_sol jac rs Hd) as S. assert (S' : forall k, (k < 3)%nat -> ent (lin_res3 jac rs (newton_dir3 jac rs)) k = 0) by (intros k Hk; rewrite S; dim3 k Hk; reflexivity).
  pose proof (S' 0%nat ltac:(lia)) as S0. pose proof (S' 1%nat ltac:(lia)) as S1. pose proof (S' 2%nat ltac:(lia)) as S2. rewrite lin_ent in S0, S1, S2 by lia. cbn [Nat.mul Nat.add] in S0, S1, S2. clear S S'.
  assert (Ln : length (newton_dir3 jac rs) = 3%nat) by reflexivity. set (nd := newton_dir3 jac rs) in *. clearbody nd. unfold det3 in Hd.
  set (u := ent dr 0 - ent nd 0). set (v := ent dr 1 - ent nd 1). set (w := ent dr 2 - ent nd 2).
  assert (A0 : ent jac 0 * u + ent jac 1 * v + ent jac 2 * w = 0) by (unfold u, v, w; lra).
  assert (A1 : ent jac 3 * u + ent jac 4 * v + ent jac 5 * w = 0) by (unfold u, v, w; lra).
  assert (A2 : ent jac 6 * u + ent jac 7 * v + ent jac 8 * w = 0) by (unfold u, v, w; lra).
  set (dt := ent jac 0 * (ent jac 4 * ent jac 8 - ent jac 5 * ent jac 7) + ent jac 1 * (ent jac 5 * ent jac 6 - ent jac 3 * ent jac 8) + ent jac 2 * (ent jac 3 * ent jac 7 - ent jac 4 * ent jac 6)) in *.
  assert (Z : forall t, dt * t = 0 -> t = 0) by (intros t Ht; apply Rmult_integral in Ht; tauto).
  assert (U : u = 0). { apply Z. replace (dt * u) with ((ent jac 4 * ent jac 8 - ent jac 5 * ent jac 7) * (ent jac 0 * u + ent jac 1 * v + ent jac 2 * w) - (ent jac 1 * ent jac 8 - ent jac 2 * ent jac 7) * (ent jac 3 * u + ent jac 4 * v + ent jac 5 * w) + (ent jac 1 * ent jac 5 - ent jac 2 * ent jac 4) * (ent jac 6 * u + ent jac 7 * v + ent jac 8 * w)) by (unfold dt; ring). rewrite A0, A1, A2. ring. }
  assert (V : v = 0). { apply Z. replace (dt * v) with ((ent jac 5 * ent jac 6 - ent jac 3 * ent jac 8) * (ent jac 0 * u + ent jac 1 * v + ent jac 2 * w) + (ent jac 0 * ent jac 8 - ent jac 2 * ent jac 6) * (ent jac 3 * u + ent jac 4 * v + ent jac 5 * w) - (ent jac 0 * ent jac 5 - ent jac 2 * ent jac 3) * (ent jac 6 * u + ent jac 7 * v + ent jac 8 * w)) by (unfold dt; ring). rewrite A0, A1, A2. ring. }
  assert (W : w = 0). { apply Z. replace (dt * w) with ((ent jac 3 * ent jac 7 - ent jac 4 * ent jac 6) * (ent jac 0 * u + ent jac 1 * v + ent jac 2 * w) - (ent jac 0 * ent jac 7 - ent jac 1 * ent jac 6) * (ent jac 3 * u + ent jac 4 * v + ent jac 5 * w) + (ent jac 0 * ent jac 4 - ent jac 1 * ent jac 3) * (ent jac 6 * u + ent jac 7 * v + ent jac 8 * w)) by (unfold dt; ring). rewrite A0, A1, A2. ring. }
  rewrite (list3 dr L), (list3 nd Ln). unfold u, v, w in U, V, W. f_equal; [lra|f_equal; [lra|f_equal; lra]].
Qed.
Lemma vol_step3 D0 p t : inv3 D0 p -> active3 p -> 0 < t -> D3 (px p) (pr p) <= D0 -> went3 D0 p (vstep fd zd (accepted3 p t) p tol).
Proof.
  intros I A Ht Hd. pose proof (i3_box _ _ I) as Bx. unfold vstep. destruct (newton_vol_ok (jacobian (pr p)) (residual p) (Reg _ Bx) (accepted3 p t) p tol Bx (i3_tr _ _ I)) as (dr & fl & St & E). rewrite E.
  destruct St as [S1 S2 S3 S4 S5 S6 S7].
  destruct (after_step3 D0 p t (add3 (pr p) dr) (obj3 (jacobian (pr p)) (residual p) [0; 0; 0] - obj3 (jacobian (pr p)) (residual p) dr) fl (if Rlt_dec (Rabs (ent dr 0) + Rabs (ent dr 1) + Rabs (ent dr 2)) tol then true else false) I A Ht Hd S3 S2 S4) as (Q1 & Q2 & Q3 & Q4).
  - lra.
  - exists (tr p). split; [apply (i3_tr _ _ I)|]. split; [intros d Hdd; rewrite add3_ent by auto; replace (ent (pr p) d + ent dr d - ent (pr p) d) with (ent dr d) by ring; apply S5; auto|].
    left. split; [rewrite sub_add3 by auto; rewrite obj_zero; reflexivity|]. intros q Bq Nq Zq.
    apply obj_zero_dir in Zq; [|apply Reg; auto|reflexivity]. assert (Nd : dr = newton_dir3 (jacobian (pr p)) (residual p)).
    { apply S7. intros d Hdd. change (residual p) with (res3 (px p) (pr p)). rewrite <- Zq, sub3_ent by auto. split; [apply Nq; auto|]. replace (ent (pr p) d + (ent q d - ent (pr p) d)) with (ent q d) by ring. apply Bq. auto. }
    apply box_ext3; auto. intros d Hdd. rewrite add3_ent, Nd by auto. change (residual p) with (res3 (px p) (pr p)). rewrite <- Zq, sub3_ent by auto. ring.
  - intros Er. assert (Ez : dr = [0; 0; 0]).
    { rewrite (list3 dr S1). pose proof (add3_ent (pr p) dr) as X. rewrite Er in X. pose proof (X 0%nat ltac:(lia)) as X0. pose proof (X 1%nat ltac:(lia)) as X1. pose proof (X 2%nat ltac:(lia)) as X2. f_equal; [lra|f_equal; [lra|f_equal; lra]]. }
    rewrite Ez. ring.
  - intros Hc. rewrite !add3_ent by lia. replace (ent (pr p) 0 + ent dr 0 - ent (pr p) 0) with (ent dr 0) by ring. replace (ent (pr p) 1 + ent dr 1 - ent (pr p) 1) with (ent dr 1) by ring. replace (ent (pr p) 2 + ent dr 2 - ent (pr p) 2) with (ent dr 2) by ring. destruct (Rlt_dec _ tol); [auto|discriminate].
  - eexists. split; [|split; [exact Q1|auto]]. destruct (Rlt_dec _ tol); reflexivity.
Qed.

Lemma hess_hs p e f : hess p e f = hs (px p) (pr p) e f. Proof. reflexivity. Qed.
Lemma hs_sym x r e f : (e < 3)%nat -> (f < 3)%nat -> hs x r e f = hs x r f e.
Proof. intros He Hf. unfold hs. replace (ord2 e f) with (ord2 f e) by (dim3 e He; dim3 f Hf; reflexivity). auto. Qed.
Lemma taylor_one x r d t dl : (d < 3)%nat -> (forall e, (e < 3)%nat -> ent dl e = if (e =? d)%nat then t else 0) -> taylor x r dl = - quad (colcol (jacobian r) d d - hs x r d d) (col (jacobian r) (res3 x r) d) t.
Proof. intros Hd E. unfold taylor, quad. rewrite !E by lia. dim3 d Hd; cbn [Nat.eqb]; ring. Qed.
Lemma taylor_two x r d1 d2 t1 t2 dl : (d1 < 3)%nat -> (d2 < 3)%nat -> d1 <> d2 -> (forall e, (e < 3)%nat -> ent dl e = if (e =? d2)%nat then t2 else if (e =? d1)%nat then t1 else 0) ->
  taylor x r dl = - 2 * face_eval [colcol (jacobian r) d1 d1 - hs x r d1 d1; colcol (jacobian r) d1 d2 - hs x r d1 d2; colcol (jacobian r) d2 d2 - hs x r d2 d2] [col (jacobian r) (res3 x r) d1; col (jacobian r) (res3 x r) d2] t1 t2.
Proof.
  intros H1 H2 N E. unfold taylor, face_eval. rewrite !E by lia. cbn [ent nth]. fold (ent (res3 x r)).
  rewrite (H_sym (jacobian r) 0 1), (H_sym (jacobian r) 0 2), (H_sym (jacobian r) 1 2), (hs_sym x r 0 1), (hs_sym x r 0 2), (hs_sym x r 1 2) by lia.
  dim3 d1 H1; dim3 d2 H2; try congruence; cbn [Nat.eqb];
  rewrite ?(H_sym (jacobian r) 0 1), ?(H_sym (jacobian r) 0 2), ?(H_sym (jacobian r) 1 2), ?(hs_sym x r 0 1), ?(hs_sym x r 0 2), ?(hs_sym x r 1 2) by lia; unfold ent; cbn [nth]; field.
Qed.
Lemma abs0 : Rabs 0 = 0. Proof. apply Rabs_R0. Qed.

Lemma face_step3 D0 p t d1 d2 dn fl : inv3 D0 p -> active3 p -> 0 < t -> D3 (px p) (pr p) <= D0 ->
  (d1 < 3)%nat -> (d2 < 3)%nat -> (dn < 3)%nat -> d1 <> d2 -> d1 <> dn -> d2 <> dn ->
  In fl all27 -> con fl d1 = 0%N -> con fl d2 = 0%N -> con fl dn <> 0%N -> constrained3 fl (pr p) ->
  went3 D0 p (fstep fd zd (accepted3 p t) p tol d1 d2 dn fl).
Proof.
  intros I A Ht Hd H1 H2 Hn N12 N1 N2 Hfl C1 C2 Cn Cf. pose proof (i3_box _ _ I) as Bx. unfold fstep.
  destruct (newton_face_ok (accepted3 p t) (jacobian (pr p)) [hess p d1 d1; hess p d1 d2; hess p d2 d2] (residual p) d1 d2 dn fl p tol H1 H2 Hn N12 N1 N2 Hfl C1 C2 Cf Bx (i3_tr _ _ I)) as (t1 & t2 & f & St & Mn & E). rewrite E.
  destruct St as [S1 S2 S3 S4]. destruct Bx as [Lr Br].
  change (ent [hess p d1 d1; hess p d1 d2; hess p d2 d2] 0) with (hess p d1 d1) in *. change (ent [hess p d1 d1; hess p d1 d2; hess p d2 d2] 1) with (hess p d1 d2) in *. change (ent [hess p d1 d1; hess p d1 d2; hess p d2 d2] 2) with (hess p d2 d2) in *.
  set (A' := [colcol (jacobian (pr p)) d1 d1 - hess p d1 d1; colcol (jacobian (pr p)) d1 d2 - hess p d1 d2; colcol (jacobian (pr p)) d2 d2 - hess p d2 d2]) in *.
  set (y := [col (jacobian (pr p)) (residual p) d1; col (jacobian (pr p)) (residual p) d2]) in *.
  set (r' := upd (upd (pr p) d1 (ent (pr p) d1 + t1)) d2 (ent (pr p) d2 + t2)) in *.
  assert (Ent : forall e, (e < 3)%nat -> ent r' e = if (e =? d2)%nat then ent (pr p) d2 + t2 else if (e =? d1)%nat then ent (pr p) d1 + t1 else ent (pr p) e).
  { intros e He. unfold r'. rewrite ent_upd by (rewrite upd_length; lia). destruct (e =? d2)%nat; [auto|]. rewrite ent_upd by lia. auto. }
  assert (Df : forall e, (e < 3)%nat -> ent r' e - ent (pr p) e = if (e =? d2)%nat then t2 else if (e =? d1)%nat then t1 else 0).
  { intros e He. rewrite Ent by auto. destruct (Nat.eqb_spec e d2) as [->|]; [ring|]. destruct (Nat.eqb_spec e d1) as [->|]; ring. }
  assert (Ds : forall e, (e < 3)%nat -> ent (sub3 r' (pr p)) e = if (e =? d2)%nat then t2 else if (e =? d1)%nat then t1 else 0).
  { intros e He. rewrite <- Df by auto. dim3 e He; reflexivity. }
  destruct (after_step3 D0 p t r' (- 2 * face_eval A' y t1 t2) f (if Rlt_dec (Rabs t1 + Rabs t2) tol then true else false) I A Ht Hd S2 S1 S3) as (Q1 & Q2 & Q3 & Q4).
  - pose proof (Mn 0 0 ltac:(rewrite abs0; left; apply (i3_tr _ _ I)) ltac:(rewrite abs0; left; apply (i3_tr _ _ I)) ltac:(rewrite Rplus_0_r; apply Br; auto) ltac:(rewrite Rplus_0_r; apply Br; auto)) as Q.
    assert (Z : face_eval A' y 0 0 = 0) by (unfold face_eval; field). lra.
  - exists (tr p). split; [apply (i3_tr _ _ I)|]. split; [auto|]. right. split; [symmetry; apply taylor_two; auto|]. exists [dn]. split; [discriminate|]. split.
    + intros d [<-|[]]. split; [auto|]. split; [apply (con_one fl); auto|]. rewrite Ent by auto. destruct (Nat.eqb_spec dn d2); [congruence|]. destruct (Nat.eqb_spec dn d1); [congruence|auto].
    + intros q Bq Nq Fq. rewrite (taylor_two (px p) (pr p) d1 d2 (ent q d1 - ent (pr p) d1) (ent q d2 - ent (pr p) d2)); auto.
      * pose proof (Mn (ent q d1 - ent (pr p) d1) (ent q d2 - ent (pr p) d2) (Nq d1 H1) (Nq d2 H2)) as Q. destruct Bq as [_ Bq]. pose proof (Bq d1 H1) as B1. pose proof (Bq d2 H2) as B2.
        specialize (Q ltac:(lra) ltac:(lra)). unfold A', y in *. change (residual p) with (res3 (px p) (pr p)) in *. rewrite !hess_hs in *. lra.
      * intros e He. rewrite sub3_ent by auto. destruct (Nat.eqb_spec e d2) as [->|]; [auto|]. destruct (Nat.eqb_spec e d1) as [->|]; [auto|]. destruct (perm3 d1 d2 dn e) as [?|[?|?]]; auto; try contradiction. subst e. rewrite Fq by (left; auto). ring.
  - intros Er. pose proof (Df d1 H1) as X1. pose proof (Df d2 H2) as X2. rewrite Er in X1, X2. rewrite Nat.eqb_refl in X1, X2. destruct (Nat.eqb_spec d1 d2); [congruence|]. assert (Z1 : t1 = 0) by lra. assert (Z2 : t2 = 0) by lra. rewrite Z1, Z2. unfold face_eval. field.
  - intros Hc. assert (Y : Rabs t1 + Rabs t2 < tol) by (destruct (Rlt_dec (Rabs t1 + Rabs t2) tol); [auto|discriminate]). rewrite !Df by lia.
    refine (Rle_lt_trans _ _ _ _ Y). clear -H1 H2 N12. dim3 d1 H1; dim3 d2 H2; try congruence; cbn [Nat.eqb]; rewrite abs0; lra.
  - eexists. split; [|split; [exact Q1|auto]]. destruct (Rlt_dec _ tol); reflexivity.
Qed.
Lemma edge_step3 D0 p t de dn1 dn2 fl : inv3 D0 p -> active3 p -> 0 < t -> D3 (px p) (pr p) <= D0 ->
  (de < 3)%nat -> (dn1 < 3)%nat -> (dn2 < 3)%nat -> de <> dn1 -> de <> dn2 -> dn1 <> dn2 ->
  In fl all27 -> con fl de = 0%N -> con fl dn1 <> 0%N -> con fl dn2 <> 0%N -> constrained3 fl (pr p) ->
  went3 D0 p (estep fd zd (accepted3 p t) p tol de dn1 dn2 fl).
Proof.
  intros I A Ht Hd He H1 H2 N1 N2 N12 Hfl C0 Cn Cn2 Cf. pose proof (i3_box _ _ I) as Bx. unfold estep.
  destruct (newton_edge3_ok (accepted3 p t) (jacobian (pr p)) (hess p de de) (residual p) de dn1 dn2 fl p tol He H1 H2 N1 N2 N12 Hfl C0 Cf Bx (i3_tr _ _ I)) as (v & f & St & Mn & E). rewrite E.
  destruct St as [S1 S2 S3 S4]. destruct Bx as [Lr Br]. set (r' := upd (pr p) de (ent (pr p) de + v)) in *.
  assert (Ent : forall e, (e < 3)%nat -> ent r' e = if (e =? de)%nat then ent (pr p) de + v else ent (pr p) e) by (intros e Hee; unfold r'; rewrite ent_upd by lia; auto).
  assert (Df : forall e, (e < 3)%nat -> ent r' e - ent (pr p) e = if (e =? de)%nat then v else 0).
  { intros e Hee. rewrite Ent by auto. destruct (Nat.eqb_spec e de) as [->|]; ring. }
  assert (Ds : forall e, (e < 3)%nat -> ent (sub3 r' (pr p)) e = if (e =? de)%nat then v else 0).
  { intros e Hee. rewrite <- Df by auto. dim3 e Hee; reflexivity. }
  destruct (after_step3 D0 p t r' (- quad (colcol (jacobian (pr p)) de de - hess p de de) (col (jacobian (pr p)) (residual p) de) v) f (if Rlt_dec (Rabs v) tol then true else false) I A Ht Hd S2 S1 S3) as (Q1 & Q2 & Q3 & Q4).
  - pose proof (Mn 0 ltac:(rewrite abs0; left; apply (i3_tr _ _ I)) ltac:(rewrite Rplus_0_r; apply Br; auto)) as Q. unfold quad at 2 in Q. lra.
  - exists (tr p). split; [apply (i3_tr _ _ I)|]. split; [auto|]. right. split; [symmetry; apply taylor_one; auto|]. exists [dn1; dn2]. split; [discriminate|]. split.
    + intros d [<-|[<-|[]]]; (split; [auto|]); (split; [apply (con_one fl); auto|]); rewrite Ent by auto; [destruct (Nat.eqb_spec dn1 de)|destruct (Nat.eqb_spec dn2 de)]; congruence.
    + intros q Bq Nq Fq. rewrite (taylor_one (px p) (pr p) de (ent q de - ent (pr p) de)); auto.
      * pose proof (Mn (ent q de - ent (pr p) de) (Nq de He)) as Q. destruct Bq as [_ Bq]. pose proof (Bq de He) as B1. specialize (Q ltac:(lra)). rewrite !hess_hs in *. change (residual p) with (res3 (px p) (pr p)) in *. lra.
      * intros e Hee. rewrite sub3_ent by auto. destruct (Nat.eqb_spec e de) as [->|]; [auto|]. destruct (perm3 dn1 dn2 de e) as [?|[?|?]]; auto; try contradiction; subst e; rewrite Fq by (cbn; auto); ring.
  - intros Er. pose proof (Df de He) as X. rewrite Er, Nat.eqb_refl in X. assert (Z : v = 0) by lra. rewrite Z. unfold quad. ring.
  - intros Hc. assert (Y : Rabs v < tol) by (destruct (Rlt_dec (Rabs v) tol); [auto|discriminate]). rewrite !Df by lia.
    refine (Rle_lt_trans _ _ _ _ Y). clear -He. dim3 de He; cbn [Nat.eqb]; rewrite abs0; lra.
  - eexists. split; [|split; [exact Q1|auto]]. destruct (Rlt_dec _ tol); reflexivity.
Qed.

Lemma rejected_went3 D0 p q : inv3 D0 q -> px q = px p -> index q = index p -> rejected_to3 D0 q -> went3 D0 p (Ok q).
Proof. intros A B C E. exists q. split; [auto|]. split; [auto|]. split; [auto|]. split; [auto|]. right. auto.  Qed.
Lemma after_ok3 D0 p k : inv3 D0 p -> active3 p -> (forall t, 0 < t -> D3 (px p) (pr p) <= D0 -> went3 D0 p (k (accepted3 p t))) -> went3 D0 p (after DBL_MAX fd zd p tol k).
Proof. intros I A K. unfold after. destruct (reject_ok3 D0 p I A) as [(q & E & Q1 & Q2 & Q3 & Q4)|(t & Ht & E & Hd & _)]; rewrite E; [apply rejected_went3; auto|apply K; auto]. Qed.
Lemma vol1_ok3 D0 p : inv3 D0 p -> active3 p -> went3 D0 p (vol1 DBL_MAX fd zd tol p).
Proof. intros I A. apply after_ok3; auto. intros t Ht Hd. apply vol_step3; auto. Qed.
Lemma face1_ok3 D0 p dn s : inv3 D0 p -> active3 p -> (dn < 3)%nat -> is_side s -> low3 p = at_dir s dn -> went3 D0 p (face1 DBL_MAX fd zd tol dn (at_dir s dn) p).
Proof.
  intros I A Hdn Hs El. apply after_ok3; auto. intros t Ht Hd. destruct (Rlt_dec _ 0); [apply vol_step3; auto|].
  destruct (plus1 dn Hdn) as [P1 P2]. destruct (plus2 dn Hdn) as (P3 & P4 & P5). destruct (one27 s dn Hs Hdn) as (O1 & _ & O2).
  apply face_step3; auto.
  - rewrite O2 by auto. destruct (Nat.eqb_spec (nx dn) dn); [congruence|auto].
  - rewrite O2 by auto. destruct (Nat.eqb_spec (pv dn) dn); [congruence|auto].
  - rewrite O2, Nat.eqb_refl by auto. destruct Hs as [->| ->]; discriminate.
  - rewrite <- El. apply (active_con3 D0); auto.
Qed.
(** From flags fl to the face dn. *)
Lemma to_face D0 p t d1 d2 dn : inv3 D0 p -> active3 p -> 0 < t -> D3 (px p) (pr p) <= D0 ->
  (d1 < 3)%nat -> (d2 < 3)%nat -> (dn < 3)%nat -> d1 <> d2 -> d1 <> dn -> d2 <> dn -> con (low3 p) dn <> 0%N ->
  went3 D0 p (fstep fd zd (accepted3 p t) p tol d1 d2 dn (N.land (low3 p) (at_dir 3 dn))).
Proof.
  intros I A Ht Hd H1 H2 Hn N12 N1 N2 Cn. destruct (keep27 (low3 p) dn A Hn) as [K1 K2].
  apply face_step3; auto.
  - rewrite K2 by auto. destruct (Nat.eqb_spec d1 dn); [congruence|auto].
  - rewrite K2 by auto. destruct (Nat.eqb_spec d2 dn); [congruence|auto].
  - rewrite K2, Nat.eqb_refl by auto. auto.
  - apply keep_con; auto. apply (active_con3 D0); auto.
Qed.
Lemma edge1_ok3 D0 p de : inv3 D0 p -> active3 p -> (de < 3)%nat -> (forall d, (d < 3)%nat -> free (low3 p) d = (d =? de)%nat) -> went3 D0 p (edge1 DBL_MAX fd zd tol de (low3 p) p).
Proof.
  intros I A Hde Fr. apply after_ok3; auto. intros t Ht Hd. cbv zeta. destruct (plus1 de Hde) as [P1 P2]. destruct (plus2 de Hde) as (P3 & P4 & P5).
  assert (NF : forall d, (d < 3)%nat -> d <> de -> con (low3 p) d <> 0%N). { intros d Hdd Hne E. apply free_con in E. rewrite Fr in E by auto. apply Nat.eqb_eq in E. auto. }
  assert (F0 : con (low3 p) de = 0%N) by (apply free_con; rewrite Fr, Nat.eqb_refl by auto; auto).
  destruct (Rlt_dec (steep fd zd p (nx de)) 0), (Rlt_dec (steep fd zd p (pv de)) 0).
  - apply vol_step3; auto.
  - apply to_face; auto.
  - apply to_face; auto.
  - apply edge_step3; auto. apply (active_con3 D0); auto.
Qed.
Lemma pt1_ok3 D0 p : inv3 D0 p -> active3 p -> (forall d, (d < 3)%nat -> con (low3 p) d <> 0%N) -> went3 D0 p (pt1 DBL_MAX fd zd tol (low3 p) p).
Proof.
  intros I A NF. apply after_ok3; auto. intros t Ht Hd. cbv zeta. pose proof (active_con3 D0 p I A) as Ca.
  assert (Ed : forall de, (de < 3)%nat -> went3 D0 p (estep fd zd (accepted3 p t) p tol de (nx de) (pv de) (N.land (low3 p) (unot (at_dir 3 de))))).
  { intros de Hde. destruct (plus1 de Hde) as [P1 P2]. destruct (plus2 de Hde) as (P3 & P4 & P5). destruct (drop27 (low3 p) de A Hde) as [K1 K2]. apply edge_step3; auto.
    - rewrite K2, Nat.eqb_refl by auto. auto.
    - rewrite K2 by auto. destruct (Nat.eqb_spec (nx de) de); [congruence|auto].
    - rewrite K2 by auto. destruct (Nat.eqb_spec (pv de) de); [congruence|auto].
    - apply drop_con; auto. }
  destruct (Rlt_dec (steep fd zd p 0) 0) as [S0|S0], (Rlt_dec (steep fd zd p 1) 0) as [S1|S1], (Rlt_dec (steep fd zd p 2) 0) as [S2|S2];
    [apply vol_step3; auto|apply to_face; auto|apply to_face; auto|apply Ed; auto|apply to_face; auto|apply Ed; auto|apply Ed; auto|].
  destruct (conv_27 _ A) as (N2 & N3 & N4 & N5 & N6). pose proof (i3_box _ _ I) as Bx.
  exists (set_step (accepted3 p t) (pr p) 0 (N.lor (low3 p) CONVERGED_FLAG3)). split; [reflexivity|].
  assert (St : stepped_to3 D0 (set_step (accepted3 p t) (pr p) 0 (N.lor (low3 p) CONVERGED_FLAG3))).
  { constructor; cbn [px pr oldr dist2 dist2p tr index flags set_step accepted3]; auto.
    - lra.
    - assert (Z : sub3 (pr p) (pr p) = [0; 0; 0]) by (unfold sub3, dims; cbn [map]; f_equal; [ring|f_equal; [ring|f_equal; ring]]).
      assert (Tz : taylor (px p) (pr p) [0; 0; 0] = 0) by (unfold taylor; cbn [ent nth]; ring).
      exists 1. split; [lra|]. split; [intros d Hdd; unfold Rminus; rewrite Rplus_opp_r, abs0; lra|]. right. split; [rewrite Z, Tz; auto|]. exists [0; 1; 2]%nat. split; [discriminate|]. split.
      + intros d Hin. assert (Hdd : (d < 3)%nat) by (cbn in Hin; lia). split; [auto|]. split; [apply (con_one (low3 p)); auto|auto].
      + intros q Bq _ Fq. assert (Eq : q = pr p) by (apply box_ext3; auto; intros d Hdd; apply Fq; cbn; lia). rewrite Eq, Z, Tz. lra.
    - intros Na. exfalso. unfold active3, low3 at 1 in Na. cbn [flags set_step] in Na. rewrite N4 in Na. auto.
    - intros _. right. split; [auto|]. intros d Hd2. split; [apply (con_one (low3 p)); auto|]. apply Rnot_lt_le. dim3 d Hd2; assumption. }
  split; [|auto]. constructor; cbn [px pr oldr dist2 dist2p tr index flags set_step accepted3]; auto.
  exists (low3 p). split; [exact A|]. split; [auto|]. right. exact N4.
Qed.
(** What happens to a point with the flags f. *)
Definition step3 (f : N) (p : pt) : res pt :=
  if (num_constrained3 f =? 0)%N then vol1 DBL_MAX fd zd tol p else if (num_constrained3 f =? 1)%N then face1 DBL_MAX fd zd tol (face_index f / 2) f p
  else if (num_constrained3 f =? 2)%N then edge1 DBL_MAX fd zd tol (edge_index3 f / 4) f p else pt1 DBL_MAX fd zd tol f p.
End Point.

Lemma kinds27 f : In f all27 -> (num_constrained3 f = 0%N /\ f = 0%N) \/
  (num_constrained3 f = 1%N /\ exists j dn, (j < 2)%nat /\ (dn < 3)%nat /\ f = at_dir (N.of_nat (j + 1)) dn /\ (face_index f / 2 = dn)%nat) \/
  (num_constrained3 f = 2%N /\ exists i j de, (i < 2)%nat /\ (j < 2)%nat /\ (de < 3)%nat /\ f = N.lor (at_dir (N.of_nat (j + 1)) (nx de)) (at_dir (N.of_nat (i + 1)) (pv de)) /\ (edge_index3 f / 4 = de)%nat /\ forall d, (d < 3)%nat -> free f d = (d =? de)%nat) \/
  (num_constrained3 f = 3%N /\ (exists k, (k < 8)%nat /\ f = cflag k) /\ forall d, (d < 3)%nat -> con f d <> 0%N).
Proof.
  intros H. flags27 H;
  first [ left; split; reflexivity
        | right; left; split; [reflexivity|]; first [exists 0%nat, 0%nat; repeat split; lia || reflexivity|exists 1%nat, 0%nat; repeat split; lia || reflexivity|exists 0%nat, 1%nat; repeat split; lia || reflexivity|exists 1%nat, 1%nat; repeat split; lia || reflexivity|exists 0%nat, 2%nat; repeat split; lia || reflexivity|exists 1%nat, 2%nat; repeat split; lia || reflexivity]
        | right; right; left; split; [reflexivity|];
          let tac i j de := (exists i, j, de; split; [lia|]; split; [lia|]; split; [lia|]; split; [reflexivity|]; split; [reflexivity|]; intros d Hd; dim3 d Hd; reflexivity) in
          first [tac 0%nat 0%nat 0%nat|tac 0%nat 1%nat 0%nat|tac 1%nat 0%nat 0%nat|tac 1%nat 1%nat 0%nat|tac 0%nat 0%nat 1%nat|tac 0%nat 1%nat 1%nat|tac 1%nat 0%nat 1%nat|tac 1%nat 1%nat 1%nat|tac 0%nat 0%nat 2%nat|tac 0%nat 1%nat 2%nat|tac 1%nat 0%nat 2%nat|tac 1%nat 1%nat 2%nat]
        | right; right; right; split; [reflexivity|]; split; [|intros d Hd; dim3 d Hd; discriminate];
          first [exists 0%nat; split; [lia|reflexivity]|exists 1%nat; split; [lia|reflexivity]|exists 2%nat; split; [lia|reflexivity]|exists 3%nat; split; [lia|reflexivity]|exists 4%nat; split; [lia|reflexivity]|exists 5%nat; split; [lia|reflexivity]|exists 6%nat; split; [lia|reflexivity]|exists 7%nat; split; [lia|reflexivity]] ].
Qed.
Lemma side_of3 j : (j < 2)%nat -> is_side (N.of_nat (j + 1)).
Proof. destruct j as [|[|j]]; [left; auto|right; auto|lia]. Qed.
Lemma step_ok3 DBL_MAX fd zd tol (HM : 0 < DBL_MAX) (Reg : forall r, in_box3 r -> det3 (jacobian fd zd r) <> 0) D0 p : inv3 DBL_MAX fd zd tol D0 p -> active3 p -> went3 DBL_MAX fd zd tol D0 p (step3 DBL_MAX fd zd tol (low3 p) p).
Proof.
  intros I A. unfold step3. destruct (kinds27 _ A) as [[E1 E2]|[[E1 (j & dn & Hj & Hd & E2 & E3)]|[[E1 (i & j & de & Hi & Hj & Hd & E2 & E3 & E4)]|[E1 [_ E3]]]]]; rewrite E1; cbn [N.eqb Pos.eqb].
  - apply vol1_ok3; auto.
  - rewrite E3. rewrite E2 at 1. apply face1_ok3; auto. apply side_of3; auto.
  - rewrite E3. apply edge1_ok3; auto.
  - apply pt1_ok3; auto.
Qed.
