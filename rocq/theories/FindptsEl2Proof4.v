(** What holds of a point during a search. *)
From Verif Require Import Base BaseLemmas Tensor TensorSpec Poly PolySpec FindptsEl2 FindptsEl2Proof1 FindptsEl2Proof2 FindptsEl2Proof3.
From Coq Require Import Reals Lra Psatz NArith.
Open Scope R_scope.

Definition low (p : pt) : N := N.land (flags p) FLAG_MASK.
Definition active (p : pt) : Prop := In (low p) nine.
Lemma nine_16 f : In f nine -> N.lor f CONVERGED_FLAG <> f /\ (N.lor f CONVERGED_FLAG < 32)%N /\ (f < 32)%N /\ N.land (N.lor f CONVERGED_FLAG) FLAG_MASK = N.lor f CONVERGED_FLAG /\ N.land f FLAG_MASK = f /\ ~ In (N.lor f CONVERGED_FLAG) nine.
Proof. intros H. nines H; vm_compute; repeat split; try discriminate; intuition discriminate. Qed.

Section Point.
Variable DBL_MAX : R.
Hypothesis HM : 0 < DBL_MAX.
Variable fd : el.
Variable zd : nat -> arr.
Variable tol : R.
Notation T := (T fd zd).
Notation residual := (residual fd zd).
Notation jacobian := (jacobian fd zd).
Hypothesis Reg : forall r, in_box r -> ent (jacobian r) 0 * ent (jacobian r) 3 - ent (jacobian r) 1 * ent (jacobian r) 2 <> 0.
(** The squared distance from x to the image of r. *)
Definition D (x r : list R) : R := (ent x 0 - T 0 0 0 r) * (ent x 0 - T 0 0 0 r) + (ent x 1 - T 0 0 1 r) * (ent x 1 - T 0 0 1 r).
(** At the corner r no direction into the square leads nearer to x, to first order. *)
Definition corner_stop (x r : list R) : Prop := forall d, (d < 2)%nat -> (ent r d = 1 \/ ent r d = -1) /\
  0 <= ((ent x 0 - T 0 0 0 r) * ent (jacobian r) d + (ent x 1 - T 0 0 1 r) * ent (jacobian r) (2 + d)) * ent r d.

(** The decrease v of the squared distance that is predicted for the step from r to r': with the map
    replaced by its linear part, or, if only direction de changes, to second order. *)
Definition predicted (x r r' : list R) (v : R) : Prop :=
  let e0 := ent x 0 - T 0 0 0 r in let e1 := ent x 1 - T 0 0 1 r in
  v = D x r - obj (jacobian r) [e0; e1] [ent r' 0 - ent r 0; ent r' 1 - ent r 1] \/
  exists de, (de < 2)%nat /\ ent r' (1 - de) = ent r (1 - de) /\
    v = - quad (ent (jacobian r) de * ent (jacobian r) de + ent (jacobian r) (2 + de) * ent (jacobian r) (2 + de) - (e0 * Te fd zd de 2 0 0 r + e1 * Te fd zd de 2 0 1 r))
               (ent (jacobian r) de * e0 + ent (jacobian r) (2 + de) * e1) (ent r' de - ent r de).
(** The linear model at r. *)
Definition lin_model (x r r' : list R) : R := obj (jacobian r) [ent x 0 - T 0 0 0 r; ent x 1 - T 0 0 1 r] [ent r' 0 - ent r 0; ent r' 1 - ent r 1].
(** From inside, the step leads to the minimum of the linear model within some distance. *)
Definition optimal (x r r' : list R) : Prop := (forall d, (d < 2)%nat -> -1 < ent r d < 1) -> exists rho, 0 < rho /\ (forall d, (d < 2)%nat -> Rabs (ent r' d - ent r d) <= rho) /\
  forall q, in_box q -> (forall d, (d < 2)%nat -> Rabs (ent q d - ent r d) <= rho) -> lin_model x r r' <= lin_model x r q.

Record stepped_to (D0 : R) (p : pt) : Prop := {
  s_box : in_box (oldr p);
  s_dist : dist2 p = D (px p) (oldr p);
  s_best : dist2 p <= D0;
  s_pred : 0 <= dist2p p;
  s_model : predicted (px p) (oldr p) (pr p) (dist2p p);
  s_min : optimal (px p) (oldr p) (pr p);
  s_same : pr p = oldr p -> dist2p p = 0;
  s_hist : active p -> exists h, In h nine /\ constrained h (oldr p) /\ N.land (N.shiftr (flags p) 5) FLAG_MASK = h;
  s_conv : ~ active p -> Rabs (ent (pr p) 0 - ent (oldr p) 0) + Rabs (ent (pr p) 1 - ent (oldr p) 1) < tol \/ (pr p = oldr p /\ corner_stop (px p) (pr p)) }.
Record rejected_to (D0 : R) (p : pt) : Prop := {
  r_box : in_box (oldr p);
  r_dist : dist2 p = D (px p) (pr p);
  r_best : dist2 p <= D0;
  r_pred : dist2p p = - DBL_MAX;
  r_conv : ~ active p -> exists pred, predicted (px p) (pr p) (oldr p) pred /\ 0 <= pred < D (px p) (oldr p) * tol }.
Record started (D0 : R) (p : pt) : Prop := { t_dist : dist2 p = DBL_MAX; t_pred : dist2p p = 0; t_act : active p; t_best : D (px p) (pr p) = D0; t_less : D0 < DBL_MAX }.
Record inv (D0 : R) (p : pt) : Prop := {
  i_box : in_box (pr p);
  i_tr : 0 < tr p;
  i_fl : exists f, In f nine /\ constrained f (pr p) /\ (low p = f \/ low p = N.lor f CONVERGED_FLAG);
  i_case : started D0 p \/ stepped_to D0 p \/ rejected_to D0 p }.

Lemma active_con D0 p : inv D0 p -> active p -> constrained (low p) (pr p).
Proof. intros [_ _ (f & F1 & F2 & F3) _] A. destruct F3 as [->|E]; [auto|]. exfalso. unfold active in A. rewrite E in A. apply (nine_16 f F1). auto. Qed.
Lemma resid_sq p : ent (residual p) 0 * ent (residual p) 0 + ent (residual p) 1 * ent (residual p) 1 = D (px p) (pr p).
Proof. reflexivity. Qed.
Lemma box_ext r r' : in_box r -> in_box r' -> ent r 0 = ent r' 0 -> ent r 1 = ent r' 1 -> r = r'.
Proof. intros [L _] [L' _] A B. destruct r as [|a [|b [|? ?]]], r' as [|a' [|b' [|? ?]]]; try discriminate. cbn in A, B. subst. auto. Qed.

Definition accepted (p : pt) (t : R) : pt := Pt (px p) [] (pr p) (D (px p) (pr p)) 0 t (index p) 0%N.
Lemma reject_ok D0 p : inv D0 p -> active p ->
  (exists q, reject_prior_step_q DBL_MAX (residual p) p tol = (q, true) /\ inv D0 q /\ px q = px p /\ index q = index p /\ rejected_to D0 q) \/
  (exists t, 0 < t /\ reject_prior_step_q DBL_MAX (residual p) p tol = (accepted p t, false) /\ D (px p) (pr p) <= D0 /\ (t = tr p \/ t = tr p * 2) /\
     (9 / 10 * dist2p p <= dist2 p - D (px p) (pr p) -> t = tr p * 2)).
Proof.
  intros I A. destruct I as [Bx Tr Fl Cs]. unfold reject_prior_step_q. rewrite resid_sq. set (d2 := D (px p) (pr p)) in *.
  assert (Acc : d2 <= D0 -> 1 / 100 * dist2p p <= dist2 p - d2 -> exists t, 0 < t /\
     (if Rle_dec (9 / 10 * dist2p p) (dist2 p - d2) then (Pt (px p) [] (pr p) d2 0 (tr p * 2) (index p) 0, false) else (Pt (px p) [] (pr p) d2 0 (tr p) (index p) 0, false)) = (accepted p t, false) /\
     d2 <= D0 /\ (t = tr p \/ t = tr p * 2) /\ (9 / 10 * dist2p p <= dist2 p - d2 -> t = tr p * 2)).
  { intros Hd H. destruct (Rle_dec (9 / 10 * dist2p p) (dist2 p - d2)); [exists (tr p * 2)|exists (tr p)]; (split; [lra|]); (split; [reflexivity|]); (split; [auto|]); (split; [auto|]); [auto|]. intros; contradiction. }
  destruct (Rle_dec (1 / 100 * dist2p p) (dist2 p - d2)) as [Ha|Ha].
  - right. apply Acc; auto. destruct Cs as [[? ? ? ? ?]|[[? ? ? ? ? ? ? ? ?]|[? ? ? ? ?]]]; [unfold d2; lra|lra|unfold d2; lra].
  - left. destruct Cs as [[? ? ? ? ?]|[[Sb Sd Sbest Sp Sm So Ss Sh Sc]|[? ? ? Rp ?]]].
    + exfalso. apply Ha. rewrite t_dist0, t_pred0. unfold d2. lra.
    + destruct (Sh A) as (h & Nh & Ch & Eh). set (v0 := Rabs (ent (pr p) 0 - ent (oldr p) 0)). set (v1 := Rabs (ent (pr p) 1 - ent (oldr p) 1)).
      assert (Pos : 0 < (if Rlt_dec v1 v0 then v0 else v1) / 4).
      { assert (0 <= v0) by apply Rabs_pos. assert (0 <= v1) by apply Rabs_pos.
        assert (~ (v0 = 0 /\ v1 = 0)). { intros [Z0 Z1]. apply Ha. assert (E : pr p = oldr p).
          { apply box_ext; auto. - destruct (Req_dec (ent (pr p) 0 - ent (oldr p) 0) 0) as [|N0]; [lra|]. exfalso. apply (Rabs_no_R0 _ N0). exact Z0. - destruct (Req_dec (ent (pr p) 1 - ent (oldr p) 1) 0) as [|N0]; [lra|]. exfalso. apply (Rabs_no_R0 _ N0). exact Z1. }
          rewrite (Ss E), Sd. unfold d2. rewrite E. lra. }
        destruct (Rlt_dec v1 v0); [lra|]. assert (0 < v1 \/ v1 = 0) as [|] by lra; [lra|]. exfalso. apply H1. split; lra. }
      set (f := N.shiftr (flags p) 5) in *.
      assert (Lw : N.land (N.lor f CONVERGED_FLAG) FLAG_MASK = N.lor h CONVERGED_FLAG).
      { rewrite N.land_lor_distr_l, Eh. f_equal. }
      eexists. split; [reflexivity|]. assert (Rj : rejected_to D0 (Pt (px p) (oldr p) (pr p) (dist2 p) (- DBL_MAX) ((if Rlt_dec v1 v0 then v0 else v1) / 4) (index p) (if Rlt_dec (dist2p p) (d2 * tol) then N.lor f CONVERGED_FLAG else f))).
      { constructor; cbn [px pr oldr dist2 dist2p tr index flags]; auto. intros Na. destruct (Rlt_dec (dist2p p) (d2 * tol)) as [Hc|Hc]; [exists (dist2p p); split; [auto|split; auto]|].
        exfalso. apply Na. unfold active, low. cbn [flags]. rewrite Eh. auto. }
      split; [|auto]. constructor; cbn [px pr oldr dist2 dist2p tr index flags]; auto.
      exists h. split; [auto|]. split; [auto|]. unfold low. cbn [flags]. destruct (Rlt_dec (dist2p p) (d2 * tol)); [right|left]; auto.
    + exfalso. apply Ha. rewrite r_dist0, Rp. unfold d2. lra.
Qed.

(** After a step. *)
Lemma after_step D0 p t r d2p f0 (c : bool) : inv D0 p -> active p -> 0 < t -> D (px p) (pr p) <= D0 -> in_box r -> In f0 nine -> constrained f0 r ->
  0 <= d2p -> predicted (px p) (pr p) r d2p -> optimal (px p) (pr p) r -> (r = pr p -> d2p = 0) -> (c = true -> Rabs (ent r 0 - ent (pr p) 0) + Rabs (ent r 1 - ent (pr p) 1) < tol) ->
  let q := set_step (accepted p t) r d2p (N.lor (if c then N.lor f0 CONVERGED_FLAG else f0) (shl (flags p) 5)) in inv D0 q /\ px q = px p /\ index q = index p /\ stepped_to D0 q.
Proof.
  intros I A Ht Hd Br Nf Cf Hp Hm Ho Hs Hc q. destruct (nine_16 f0 Nf) as (N1 & N2 & N3 & N4 & N5 & N6).
  assert (Lq : low q = if c then N.lor f0 CONVERGED_FLAG else f0) by (unfold low, q; cbn [flags set_step]; apply shl5_low; destruct c; auto).
  assert (St : stepped_to D0 q).
  { constructor; unfold q; cbn [px pr oldr dist2 dist2p tr index flags set_step accepted]; auto.
    - apply (i_box _ _ I).
    - intros _. exists (low p). split; [auto|]. split; [apply (active_con D0); auto|]. apply shl5_high. destruct c; auto.
    - intros Na. left. apply Hc. destruct c; [auto|]. exfalso. apply Na. unfold active. fold q. rewrite Lq. auto. }
  split; [|auto]. constructor; unfold q; cbn [px pr oldr dist2 dist2p tr index flags set_step accepted]; auto.
  exists f0. split; [auto|]. split; [auto|]. fold q. rewrite Lq. destruct c; auto.
Qed.

Definition went (D0 : R) (p : pt) (o : res pt) : Prop := exists q, o = Ok q /\ inv D0 q /\ px q = px p /\ index q = index p /\ (stepped_to D0 q \/ rejected_to D0 q).

Lemma area_step D0 p t : inv D0 p -> active p -> 0 < t -> D (px p) (pr p) <= D0 -> went D0 p (newton_area (accepted p t) (jacobian (pr p)) (residual p) p tol).
Proof.
  intros I A Ht Hd. pose proof (i_box _ _ I) as Bx. destruct (newton_area_ok (jacobian (pr p)) (residual p) (Reg _ Bx) (accepted p t) p tol Bx (i_tr _ _ I)) as (dr & fl & St & E). rewrite E.
  destruct St as [S1 S2 S3 S4 S5 S6 S7 _ _ _]. set (r := [ent (pr p) 0 + ent dr 0; ent (pr p) 1 + ent dr 1]) in *.
  destruct (after_step D0 p t r (obj (jacobian (pr p)) (residual p) [0; 0] - obj (jacobian (pr p)) (residual p) dr) fl (if Rlt_dec (Rabs (ent dr 0) + Rabs (ent dr 1)) tol then true else false) I A Ht Hd S3 S2 S4) as (Q1 & Q2 & Q3 & Q4).
  - lra.
  - left. unfold r. cbn [ent nth]. fold (ent (pr p) 0) (ent (pr p) 1). rewrite <- resid_sq. fold (residual p). unfold obj, lin_res. cbn [ent nth]. fold (ent (residual p) 0) (ent (residual p) 1) (ent (pr p) 0) (ent (pr p) 1). 
    replace (ent (pr p) 0 + ent dr 0 - ent (pr p) 0) with (ent dr 0) by ring. replace (ent (pr p) 1 + ent dr 1 - ent (pr p) 1) with (ent dr 1) by ring. fold (residual p). ring.
  - intros Hi. exists (tr p). split; [apply (i_tr _ _ I)|].
    assert (Dr : forall d, (d < 2)%nat -> ent r d - ent (pr p) d = ent dr d) by (intros d Hd2; unfold r; destruct d as [|[|d]]; [cbn [ent nth]; unfold ent; ring|cbn [ent nth]; unfold ent; ring|lia]).
    split; [intros d Hd2; rewrite Dr by auto; auto|]. intros q Bq Hq. unfold lin_model. rewrite !Dr by lia.
    assert (X : forall u, length u = 2%nat -> [ent u 0; ent u 1] = u) by (intros u Lu; destruct u as [|? [|? [|? ?]]]; try discriminate; auto). rewrite X by auto.
    apply (S7 Hi [ent q 0 - ent (pr p) 0; ent q 1 - ent (pr p) 1]). intros d Hd2. pose proof (Hq d Hd2) as Q1. destruct Bq as [_ Bq]. pose proof (Bq d Hd2) as Q2. destruct d as [|[|d]]; [| |lia]; cbn [ent nth]; (split; [exact Q1|]); unfold ent in *; lra.
  - intros Er. assert (E0 : ent r 0 = ent (pr p) 0) by (rewrite Er; auto). assert (E1 : ent r 1 = ent (pr p) 1) by (rewrite Er; auto). unfold r in E0, E1. cbn in E0, E1.
    unfold obj, lin_res. replace (ent dr 0) with 0 by lra. replace (ent dr 1) with 0 by lra. cbn [ent nth]. ring.
  - intros Hc. unfold r. cbn [ent nth]. fold (ent (pr p) 0) (ent (pr p) 1). replace (ent (pr p) 0 + ent dr 0 - ent (pr p) 0) with (ent dr 0) by ring. replace (ent (pr p) 1 + ent dr 1 - ent (pr p) 1) with (ent dr 1) by ring. destruct (Rlt_dec _ tol); [auto|discriminate].
  - eexists. split; [|split; [exact Q1|auto]]. destruct (Rlt_dec _ tol); reflexivity.
Qed.

Lemma edge_step D0 p t de s h : inv D0 p -> active p -> 0 < t -> D (px p) (pr p) <= D0 -> (de < 2)%nat -> is_side s -> ent (pr p) (1 - de) = sg s -> h = rhes fd zd p de ->
  went D0 p (newton_edge (accepted p t) (jacobian (pr p)) h (residual p) de (1 - de) (at_dir s (1 - de)) p tol).
Proof.
  intros I A Ht Hd Hde Hs Es Eh. pose proof (i_box _ _ I) as Bx. destruct (newton_edge_ok (accepted p t) (jacobian (pr p)) h (residual p) de s p tol Hde Hs Bx (i_tr _ _ I)) as (v & f & [S1 S2 S3 S4] & E). rewrite E.
  assert (E1 : ent (upd (pr p) de (ent (pr p) de + v)) de = ent (pr p) de + v) by (rewrite ent_upd, Nat.eqb_refl by (destruct Bx; lia); auto).
  assert (E2 : ent (upd (pr p) de (ent (pr p) de + v)) (1 - de) = ent (pr p) (1 - de)) by (rewrite ent_upd by (destruct Bx; lia); destruct (Nat.eqb_spec (1 - de) de); [lia|auto]).
  assert (All : forall (Q : nat -> Prop), Q de -> Q (1 - de)%nat -> forall d, (d < 2)%nat -> Q d) by (intros Q Qa Qb d Hd'; destruct (Nat.eq_dec d de) as [->|Hn]; [auto|replace d with (1 - de)%nat by lia; auto]).
  assert (Es' : con (at_dir s (1 - de)) (1 - de) = s) by (rewrite con_at, Nat.eqb_refl by (auto; lia); auto).
  assert (Hsg : (s = 1%N /\ sg s = -1) \/ (s = 2%N /\ sg s = 1)) by (destruct Hs as [->| ->]; auto).
  destruct (after_step D0 p t (upd (pr p) de (ent (pr p) de + v)) (- quad (ent (jacobian (pr p)) de * ent (jacobian (pr p)) de + ent (jacobian (pr p)) (2 + de) * ent (jacobian (pr p)) (2 + de) - h)
     (ent (jacobian (pr p)) de * ent (residual p) 0 + ent (jacobian (pr p)) (2 + de) * ent (residual p) 1) v) f (if Rlt_dec (Rabs v) tol then true else false) I A Ht Hd) as (Q1 & Q2 & Q3 & Q4).
  - split; [rewrite upd_length; apply Bx|]. apply All; [rewrite E1; auto|rewrite E2; apply Bx; lia].
  - assert (X : forall u, is_side u -> In (N.lor (at_dir s (1 - de)) (at_dir u de)) nine).
    { intros u Hu. replace (at_dir u de) with (at_dir u (1 - (1 - de))) by (f_equal; lia). apply nine_two; auto; lia. }
    destruct S3 as [->|[[-> _]|[-> _]]]; [apply nine_one; auto; lia|apply X; left; auto|apply X; right; auto].
  - assert (X : forall u, is_side u -> con (N.lor (at_dir s (1 - de)) (at_dir u de)) de = u /\ con (N.lor (at_dir s (1 - de)) (at_dir u de)) (1 - de) = s).
    { intros u Hu. replace (at_dir u de) with (at_dir u (1 - (1 - de))) by (f_equal; lia). rewrite !con_two by (auto; lia). rewrite Nat.eqb_refl. destruct (Nat.eqb_spec de (1 - de)); [lia|auto]. }
    unfold constrained. apply (All (fun d => con f d = 0%N \/ con f d = 1%N /\ ent (upd (pr p) de (ent (pr p) de + v)) d = -1 \/ con f d = 2%N /\ ent (upd (pr p) de (ent (pr p) de + v)) d = 1)).
    + rewrite E1. destruct S3 as [->|[[-> Ev]|[-> Ev]]].
      * left. rewrite con_at by (auto; lia). destruct (Nat.eqb_spec de (1 - de)); [lia|auto].
      * right; left. split; [apply X; left; auto|auto].
      * right; right. split; [apply X; right; auto|auto].
    + rewrite E2, Es. right. assert (C : con f (1 - de) = s) by (destruct S3 as [->|[[-> Ev]|[-> Ev]]]; [auto|apply X; left; auto|apply X; right; auto]). rewrite C. tauto.
  - pose proof (S4 0 ltac:(rewrite Rabs_R0; left; apply (i_tr _ _ I)) ltac:(rewrite Rplus_0_r; apply Bx; auto)) as Q. unfold quad at 2 in Q. lra.
  - right. exists de. split; [auto|]. split; [auto|]. rewrite E1. replace (ent (pr p) de + v - ent (pr p) de) with v by ring. rewrite Eh. reflexivity.
  - intros Hi. exfalso. pose proof (Hi (1 - de)%nat ltac:(lia)) as Q. rewrite Es in Q. unfold sg in Q. destruct (s =? 1)%N; lra.
  - intros Er. assert (v = 0) by (rewrite Er in E1; lra). subst v. unfold quad. ring.
  - intros Hc. assert (X : forall a b, Rabs (ent (upd (pr p) de (ent (pr p) de + v)) a - ent (pr p) a) + Rabs (ent (upd (pr p) de (ent (pr p) de + v)) b - ent (pr p) b) < tol -> Rabs (ent (upd (pr p) de (ent (pr p) de + v)) b - ent (pr p) b) + Rabs (ent (upd (pr p) de (ent (pr p) de + v)) a - ent (pr p) a) < tol) by (intros; lra).
    assert (Y : Rabs (ent (upd (pr p) de (ent (pr p) de + v)) de - ent (pr p) de) + Rabs (ent (upd (pr p) de (ent (pr p) de + v)) (1 - de) - ent (pr p) (1 - de)) < tol).
    { rewrite E1, E2. replace (ent (pr p) de + v - ent (pr p) de) with v by ring. unfold Rminus. rewrite Rplus_opp_r, Rabs_R0. destruct (Rlt_dec (Rabs v) tol); [lra|discriminate]. }
    destruct de as [|[|de]]; [exact Y|apply X; exact Y|lia].
  - eexists. split; [|split; [exact Q1|auto]]. destruct (Rlt_dec _ tol); reflexivity.
Qed.

Notation area1 := (area1 DBL_MAX fd zd).
Notation edge1 := (edge1 DBL_MAX fd zd).
Notation pt1 := (pt1 DBL_MAX fd zd).
(** What happens to a point with the flags f. *)
Definition step1 (f : N) (p : pt) : res pt :=
  if (num_constrained f =? 0)%N then area1 tol p else if (num_constrained f =? 1)%N then edge1 tol (edge_index f / 2) f p else pt1 tol f p.
Lemma rejected_went D0 p q : inv D0 q -> px q = px p -> index q = index p -> rejected_to D0 q -> went D0 p (Ok q).
Proof. intros A B C E. exists q. split; [auto|]. split; [auto|]. split; [auto|]. split; [auto|]. right. auto.  Qed.
Lemma area1_ok D0 p : inv D0 p -> active p -> went D0 p (area1 tol p).
Proof.
  intros I A. unfold FindptsEl2Proof3.area1. destruct (reject_ok D0 p I A) as [(q & E & Q1 & Q2 & Q3 & Q4)|(t & Ht & E & Hd & _)]; rewrite E; [apply rejected_went; auto|apply area_step; auto].
Qed.
Lemma edge1_ok D0 p dn s : inv D0 p -> active p -> (dn < 2)%nat -> is_side s -> low p = at_dir s dn -> went D0 p (edge1 tol dn (at_dir s dn) p).
Proof.
  intros I A Hdn Hs El. unfold FindptsEl2Proof3.edge1. destruct (reject_ok D0 p I A) as [(q & E & Q1 & Q2 & Q3 & Q4)|(t & Ht & E & Hd & _)]; rewrite E; [apply rejected_went; auto|].
  destruct (Rlt_dec _ 0); [apply area_step; auto|]. pose proof (active_con D0 p I A dn Hdn) as C. rewrite El, con_at, Nat.eqb_refl in C by auto.
  assert (Es : ent (pr p) dn = sg s). { destruct Hs as [->| ->]; destruct C as [C|[[C V]|[C V]]]; try discriminate; exact V. }
  assert (X : forall dn', dn' = dn -> went D0 p (newton_edge (accepted p t) (jacobian (pr p)) (rhes fd zd p (1 - dn)) (residual p) (1 - dn) dn' (at_dir s dn') p tol)).
  { intros dn' Edn. replace dn' with (1 - (1 - dn))%nat by lia. apply edge_step; auto; [lia|]. replace (1 - (1 - dn))%nat with dn by lia. auto. }
  apply X. auto.
Qed.
Lemma land_corner s t : is_side s -> is_side t -> N.land (N.lor (at_dir s 0) (at_dir t 1)) (at_dir 3 0) = at_dir s 0 /\ N.land (N.lor (at_dir s 0) (at_dir t 1)) (at_dir 3 1) = at_dir t 1.
Proof. intros [->| ->] [->| ->]; split; reflexivity. Qed.
Lemma pt1_ok D0 p s t : inv D0 p -> active p -> is_side s -> is_side t -> low p = N.lor (at_dir s 0) (at_dir t 1) -> went D0 p (pt1 tol (low p) p).
Proof.
  intros I A Hs Ht El. unfold FindptsEl2Proof3.pt1. destruct (reject_ok D0 p I A) as [(q & E & Q1 & Q2 & Q3 & Q4)|(u & Hu & E & Hd & _)]; rewrite E; [apply rejected_went; auto|].
  assert (C0 : ent (pr p) 0 = sg s). { pose proof (active_con D0 p I A 0%nat ltac:(lia)) as C. rewrite El in C. change 1%nat with (1 - 0)%nat in C. rewrite con_two in C by (auto; lia). cbn [Nat.eqb] in C. destruct Hs as [->| ->]; destruct C as [C|[[C V]|[C V]]]; try discriminate; exact V. }
  assert (C1 : ent (pr p) 1 = sg t). { pose proof (active_con D0 p I A 1%nat ltac:(lia)) as C. rewrite El in C. pose proof (con_two s t 0 1 Hs Ht ltac:(lia) ltac:(lia)) as CT. change (1 - 0)%nat with 1%nat in CT. cbn [Nat.eqb] in CT. rewrite CT in C. destruct Ht as [->| ->]; destruct C as [C|[[C V]|[C V]]]; try discriminate; exact V. }
  rewrite El. destruct (land_corner s t Hs Ht) as [L0 L1]. rewrite L0, L1, <- El.
  destruct (Rlt_dec _ 0) as [H0|H0]; destruct (Rlt_dec _ 0) as [H1|H1].
  - apply area_step; auto.
  - apply (edge_step D0 p u 0 t); auto.
  - apply (edge_step D0 p u 1 s); auto.
  - assert (Lq : N.land (N.lor (low p) CONVERGED_FLAG) FLAG_MASK = N.lor (low p) CONVERGED_FLAG) by (apply (nine_16 _ A)).
    exists (set_step (accepted p u) (pr p) 0 (N.lor (low p) CONVERGED_FLAG)). split; [reflexivity|].
    assert (St : stepped_to D0 (set_step (accepted p u) (pr p) 0 (N.lor (low p) CONVERGED_FLAG))).
    { constructor; cbn [px pr oldr dist2 dist2p tr index flags set_step accepted]; auto.
      - apply (i_box _ _ I).
      - lra.
      - left. unfold obj, lin_res. cbn [ent nth]. unfold D. ring.
      - intros Hi. exfalso. pose proof (Hi 0%nat ltac:(lia)) as Q. rewrite C0 in Q. unfold sg in Q. destruct (s =? 1)%N; lra.
      - intros Na. exfalso. unfold active, low at 1 in Na. cbn [flags set_step] in Na. rewrite Lq in Na. apply (nine_16 _ A) in Na. auto.
      - intros _. right. split; [auto|]. intros d Hd2.
        assert (Sg : forall w, is_side w -> sg w = 1 \/ sg w = -1) by (intros w [->| ->]; [right|left]; reflexivity).
        destruct d as [|[|d]]; [| |lia]; (split; [rewrite ?C0, ?C1; auto|]).
        + unfold FindptsEl2Proof3.residual in H0. cbn [ent nth] in H0. fold (ent (pr p) 0) in H0. unfold ent at 2 4. apply Rnot_lt_le in H0. refine (Rle_trans _ _ _ H0 _). apply Req_le. unfold FindptsEl2Proof3.jacobian, ent. cbn [nth Nat.add]. ring.
        + unfold FindptsEl2Proof3.residual in H1. cbn [ent nth] in H1. apply Rnot_lt_le in H1. refine (Rle_trans _ _ _ H1 _). apply Req_le. unfold FindptsEl2Proof3.jacobian, ent. cbn [nth Nat.add]. ring. }
    split; [|auto]. constructor; cbn [px pr oldr dist2 dist2p tr index flags set_step accepted]; auto.
    + apply (i_box _ _ I).
    + exists (low p). split; [exact A|]. split; [apply (active_con D0); auto|]. right. exact Lq.
Qed.
Lemma nine_kinds f : In f nine -> (num_constrained f = 0%N /\ f = 0%N) \/ (num_constrained f = 1%N /\ exists j dn, (j < 2)%nat /\ (dn < 2)%nat /\ f = at_dir (N.of_nat (j + 1)) dn /\ (edge_index f / 2 = dn)%nat) \/
  (num_constrained f = 2%N /\ exists j i, (j < 2)%nat /\ (i < 2)%nat /\ f = N.lor (at_dir (N.of_nat (i + 1)) 0) (at_dir (N.of_nat (j + 1)) 1)).
Proof.
  intros H. nines H; [left; split; reflexivity|right; left; split; [reflexivity|exists 0%nat, 0%nat]|right; left; split; [reflexivity|exists 1%nat, 0%nat]|right; left; split; [reflexivity|exists 0%nat, 1%nat]|right; right; split; [reflexivity|exists 0%nat, 0%nat]|right; right; split; [reflexivity|exists 0%nat, 1%nat]|right; left; split; [reflexivity|exists 1%nat, 1%nat]|right; right; split; [reflexivity|exists 1%nat, 0%nat]|right; right; split; [reflexivity|exists 1%nat, 1%nat]]; repeat split; try lia; reflexivity.
Qed.
Lemma side_of j : (j < 2)%nat -> is_side (N.of_nat (j + 1)).
Proof. destruct j as [|[|j]]; [left; auto|right; auto|lia]. Qed.
Lemma step_ok D0 p : inv D0 p -> active p -> went D0 p (step1 (low p) p).
Proof.
  intros I A. unfold step1. destruct (nine_kinds _ A) as [[E1 E2]|[[E1 (j & dn & Hj & Hd & E2 & E3)]|[E1 (j & i & Hj & Hi & E2)]]]; rewrite E1; cbn [N.eqb Pos.eqb].
  - apply area1_ok; auto.
  - rewrite E3. rewrite E2 at 1. apply edge1_ok; auto. apply side_of; auto.
  - apply (pt1_ok D0 p (N.of_nat (i + 1)) (N.of_nat (j + 1))); auto using side_of.
Qed.
End Point.
