(** The exact trust region step of findpts_el_2.c. *)
From Verif Require Import Base BaseLemmas Poly FindptsEl2.
From Coq Require Import Reals Lra Psatz NArith.
Open Scope R_scope.

Definition side_bound (lo hi : R) (side : N) : R := if (side =? 1)%N then lo else hi.
Definition sg (side : N) : R := if (side =? 1)%N then -1 else 1.
Definition is_side (s : N) : Prop := s = 1%N \/ s = 2%N.

Lemma edge_index_at s d : is_side s -> (d < 2)%nat -> edge_index (at_dir s d) = (2 * d + N.to_nat s - 1)%nat.
Proof. intros [->| ->] H; destruct d as [|[|d]]; try reflexivity; lia. Qed.
Lemma dn_at s d : is_side s -> (d < 2)%nat -> (edge_index (at_dir s d) / 2 = d)%nat.
Proof. intros [->| ->] H; destruct d as [|[|d]]; try reflexivity; lia. Qed.
Lemma plus_1 d : (d < 2)%nat -> plus_1_mod_2 d = (1 - d)%nat.
Proof. intros H; destruct d as [|[|d]]; try reflexivity; lia. Qed.

Lemma dv_ok a b : b <> 0 -> dv a b = Ok (a / b).
Proof. intros H. unfold dv. destruct (Req_EM_T b 0); [contradiction|auto]. Qed.

Section Alg.
Variable hn he hx : R.
Hypothesis Hn : 0 < hn.
Hypothesis He : 0 < he.
Hypothesis Hd : hx * hx < hn * he.
(** The gradient on the edge minimum has the sign of the normal error. *)
Lemma edge_min_grad en ee : hn * en + hx * (ee - (hx * en + he * ee) / he) = (hn * he - hx * hx) / he * en.
Proof. field. lra. Qed.
Lemma corner_beyond s t en ee : (s = 1 \/ s = -1) -> (t = 1 \/ t = -1) -> 0 < s * en -> s * (hn * en + hx * ee) < 0 -> 0 < t * (hx * en + he * ee) -> 0 < t * ee.
Proof.
  assert (G : forall a b x, x * x < hn * he -> 0 < a -> hn * a + x * b < 0 -> 0 < x * a + he * b -> 0 < b).
  { intros a b x Hx Ha H1 H2. destruct (Rlt_dec 0 b) as [|Hb]; [auto|exfalso]. assert (b <= 0) by lra.
    assert (0 < x) by nra. assert (0 < x * (x * a + he * b)) by nra. assert (he * (hn * a + x * b) < 0) by nra. nra. }
  intros [->| ->] [->| ->] H1 H2 H3.
  - apply (G en (1 * ee) hx); lra.
  - apply (G en (-1 * ee) (- hx)); try lra.
  - apply (G (- en) (1 * ee) (- hx)); try lra.
  - apply (G (- en) (-1 * ee) hx); try lra.
Qed.
End Alg.

Section Area.
Variable jac resid r0 bnd NN : list R.
Notation J := (ent jac).
Notation lo d := (ent bnd (2 * d) - ent r0 d).
Notation hi d := (ent bnd (2 * d + 1) - ent r0 d).
Definition hh (d e : nat) : R := J d * J e + J (2 + d) * J (2 + e).
Definition err (dr : list R) (d : nat) : R := ent NN d - ent dr d.
Definition grad (dr : list R) (d : nat) : R := hh d 0 * err dr 0 + hh d 1 * err dr 1.
Definition obj (dr : list R) : R := let '(a, b) := lin_res jac resid dr in a * a + b * b.
Hypothesis Det : J 0 * J 3 - J 1 * J 2 <> 0.
Hypothesis Sol : lin_res jac resid NN = (0, 0).

Lemma res_err dr : lin_res jac resid dr = (J 0 * err dr 0 + J 1 * err dr 1, J 2 * err dr 0 + J 3 * err dr 1).
Proof. unfold lin_res, err in *. injection Sol as S0 S1. f_equal; lra. Qed.
Lemma obj_err dr : obj dr = hh 0 0 * (err dr 0 * err dr 0) + 2 * hh 0 1 * (err dr 0 * err dr 1) + hh 1 1 * (err dr 1 * err dr 1).
Proof. unfold obj. rewrite res_err. unfold hh. cbn [Nat.add]. ring. Qed.
Lemma det_sq : 0 < hh 0 0 * hh 1 1 - hh 0 1 * hh 0 1.
Proof.
  unfold hh. cbn [Nat.add]. replace ((J 0 * J 0 + J 2 * J 2) * (J 1 * J 1 + J 3 * J 3) - (J 0 * J 1 + J 2 * J 3) * (J 0 * J 1 + J 2 * J 3)) with ((J 0 * J 3 - J 1 * J 2) * (J 0 * J 3 - J 1 * J 2)) by ring.
  destruct (Rdichotomy _ _ Det); nra.
Qed.
Lemma hh_sym d e : hh d e = hh e d. Proof. unfold hh. ring. Qed.
Lemma hh_pos d : (d < 2)%nat -> 0 < hh d d.
Proof.
  intros H. pose proof det_sq as D.
  assert (A : forall a b, a * a + b * b <> 0 -> 0 < a * a + b * b) by (intros a b Hn; assert (0 <= a * a + b * b) by nra; lra).
  destruct d as [|[|d]]; [| |lia]; unfold hh in *; cbn [Nat.add] in *; apply A; intros E.
  - assert (J 0 = 0 /\ J 2 = 0) as [E0 E2] by (split; nra). rewrite E0, E2 in D. lra.
  - assert (J 1 = 0 /\ J 3 = 0) as [E0 E2] by (split; nra). rewrite E0, E2 in D. lra.
Qed.

(** Convexity: the linearised problem. *)
Lemma obj_convex dr dr' : obj dr' >= obj dr - 2 * (grad dr 0 * (ent dr' 0 - ent dr 0) + grad dr 1 * (ent dr' 1 - ent dr 1)).
Proof.
  unfold obj. destruct (lin_res jac resid dr) as [a b] eqn:E. destruct (lin_res jac resid dr') as [a' b'] eqn:E'.
  rewrite res_err in E, E'. injection E as <- <-. injection E' as <- <-.
  unfold grad, hh, err in *. cbn [Nat.add].
  set (u := ent dr' 0 - ent dr 0). set (v := ent dr' 1 - ent dr 1).
  replace (ent NN 0 - ent dr' 0) with (ent NN 0 - ent dr 0 - u) by (unfold u; ring).
  replace (ent NN 1 - ent dr' 1) with (ent NN 1 - ent dr 1 - v) by (unfold v; ring).
  set (p := ent NN 0 - ent dr 0). set (q := ent NN 1 - ent dr 1).
  match goal with |- ?x >= ?y => replace x with (y + ((J 0 * u + J 1 * v) * (J 0 * u + J 1 * v) + (J 2 * u + J 3 * v) * (J 2 * u + J 3 * v))) by ring end.
  pose proof (Rle_0_sqr (J 0 * u + J 1 * v)) as Q1. pose proof (Rle_0_sqr (J 2 * u + J 3 * v)) as Q2. unfold Rsqr in Q1, Q2. lra.
Qed.

Hypothesis Box : forall d, (d < 2)%nat -> lo d <= 0 <= hi d /\ lo d < hi d.
Definition feasible (dr : list R) : Prop := length dr = 2%nat /\ forall d, (d < 2)%nat -> lo d <= ent dr d <= hi d.
Definition beyond (s : N) (d : nat) : Prop := if (s =? 1)%N then ent NN d < lo d else hi d < ent NN d.
Lemma beyond_err s d dr : is_side s -> ent dr d = side_bound (lo d) (hi d) s -> beyond s d -> 0 < sg s * err dr d.
Proof. intros [->| ->] E B; unfold beyond, side_bound, sg, err in *; cbn in *; lra. Qed.
Lemma err_beyond s d dr : is_side s -> ent dr d = side_bound (lo d) (hi d) s -> 0 < sg s * err dr d -> beyond s d.
Proof. intros [->| ->] E B; unfold beyond, side_bound, sg, err in *; cbn in *; lra. Qed.
Lemma bound_sg s d : is_side s -> (d < 2)%nat -> 0 <= sg s * side_bound (lo d) (hi d) s.
Proof. intros [->| ->] H; specialize (Box d H); unfold side_bound, sg; cbn in *; lra. Qed.

Lemma ent_upd dr d e v : (d < length dr)%nat -> ent (upd dr d v) e = if (e =? d)%nat then v else ent dr e.
Proof.
  intros H. unfold ent. destruct (Nat.eqb_spec e d) as [->|Hn].
  - apply nth_error_nth. apply nth_error_upd_eq. auto.
  - destruct (nth_error dr e) eqn:E.
    + rewrite (nth_error_nth dr e 0 E). apply nth_error_nth. rewrite nth_error_upd_ne by auto. auto.
    + apply nth_error_None in E. rewrite !nth_overflow; rewrite ?upd_length; auto.
Qed.

Lemma grad_move dr e t : (e < 2)%nat -> length dr = 2%nat -> let dr' := upd dr e (ent dr e + t) in
  grad dr' e = grad dr e - t * hh e e /\ grad dr' (1 - e) = grad dr (1 - e) - t * hh (1 - e) e /\
  obj dr' = obj dr - 2 * t * grad dr e + t * t * hh e e.
Proof.
  intros He L dr'. unfold dr'. rewrite !obj_err. unfold grad, err.
  destruct e as [|[|e]]; [| |lia]; cbn [Nat.sub]; rewrite !ent_upd by lia; cbn [Nat.eqb]; rewrite ?(hh_sym 1 0); repeat split; ring.
Qed.
Lemma grad_lin dr e : (e < 2)%nat -> let '(a, b) := lin_res jac resid dr in J e * a + J (2 + e) * b = grad dr e.
Proof. intros He. rewrite res_err. unfold grad, hh. change (2 + 0)%nat with 2%nat. change (2 + 1)%nat with 3%nat. ring. Qed.

(** One pass over an edge: the minimum on it, or the corner before it. *)
Lemma edge_ok s dn dr : is_side s -> (dn < 2)%nat -> feasible dr -> let de := (1 - dn)%nat in
  exists dr' fl, area_edge jac resid r0 bnd dr (at_dir s dn) = Ok (dr', fl) /\ feasible dr' /\ ent dr' dn = ent dr dn /\ obj dr' <= obj dr /\
    ((fl = at_dir s dn /\ grad dr' de = 0) \/
     exists t, is_side t /\ fl = N.lor (at_dir s dn) (at_dir t de) /\ ent dr' de = side_bound (lo de) (hi de) t /\
       0 < sg t * grad dr' de /\ 0 < sg t * grad dr de).
Proof.
  intros Hs Hdn [L F] de. assert (Hde : (de < 2)%nat) by (unfold de; lia).
  unfold area_edge. rewrite dn_at, plus_1 by auto. fold de.
  pose proof (grad_lin dr de Hde) as G. destruct (lin_res jac resid dr) as [a b]. rewrite G. clear G.
  change (J de * J de + J (2 + de) * J (2 + de)) with (hh de de). pose proof (hh_pos de Hde) as Hp.
  rewrite dv_ok by lra. cbn [bind]. set (y := grad dr de). set (h := hh de de) in *. set (drc := y / h).
  assert (Hy : y = drc * h) by (unfold drc; field; lra).
  pose proof (F de Hde) as Fde. pose proof (Box de Hde) as Bde.
  assert (Fin : forall fac new, 0 <= fac <= 1 -> lo de <= ent dr de + fac * drc <= hi de ->
    feasible (upd dr de (ent dr de + fac * drc)) /\ ent (upd dr de (ent dr de + fac * drc)) dn = ent dr dn /\
    obj (upd dr de (ent dr de + fac * drc)) <= obj dr /\ grad (upd dr de (ent dr de + fac * drc)) de = (1 - fac) * y /\
    N.lor (at_dir s dn) new = N.lor (at_dir s dn) new).
  { intros fac new Hf Hb. destruct (grad_move dr de (fac * drc) Hde L) as (G1 & _ & G3). split; [|split; [|split; [|split; [|auto]]]].
    - split; [rewrite upd_length; auto|]. intros d Hd. rewrite ent_upd by lia. destruct (Nat.eqb_spec d de) as [->|]; [auto|apply F; auto].
    - rewrite ent_upd by lia. destruct (Nat.eqb_spec dn de); [unfold de in *; lia|auto].
    - rewrite G3. fold y h. rewrite Hy. assert (0 <= drc * drc * h) by nra. assert (0 <= fac * (2 - fac)) by nra.
      replace (- 2 * (fac * drc) * (drc * h)) with (- (2 * fac) * (drc * drc * h)) by ring.
      assert (0 <= fac * (2 - fac) * (drc * drc * h)) by (apply Rmult_le_pos; auto). lra.
    - rewrite G1. fold y h. rewrite Hy. ring. }
  assert (Full : lo de <= ent dr de + drc <= hi de -> exists dr' fl,
    Ok (upd dr de (ent dr de + 1 * drc), N.lor (at_dir s dn) 0) = Ok (dr', fl) /\ feasible dr' /\ ent dr' dn = ent dr dn /\ obj dr' <= obj dr /\
    ((fl = at_dir s dn /\ grad dr' de = 0) \/
     exists t, is_side t /\ fl = N.lor (at_dir s dn) (at_dir t de) /\ ent dr' de = side_bound (lo de) (hi de) t /\
       0 < sg t * grad dr' de /\ 0 < sg t * grad dr de)).
  { intros Hb. destruct (Fin 1 0%N) as (A & B & C & D & _); [lra|lra|]. do 2 eexists. split; [reflexivity|]. split; [auto|]. split; [auto|]. split; [auto|]. left. split; [apply N.lor_0_r|]. rewrite D. ring. }
  set (nr := ent r0 de + (ent dr de + drc)) in *.
  destruct (Rlt_dec ((nr - ent bnd (2 * de)) * (ent bnd (2 * de + 1) - nr)) 0) as [Hout|Hin].
  - destruct (Rlt_dec nr (ent bnd (2 * de))) as [Hl|Hl].
    + assert (drc < 0) by (unfold nr in Hl; lra). rewrite dv_ok by lra. cbn [bind].
      set (f := (ent bnd (2 * de) - (ent r0 de + ent dr de)) / drc).
      assert (Ef : f * drc = ent bnd (2 * de) - (ent r0 de + ent dr de)) by (unfold f; field; lra).
      assert (0 <= f) by (destruct (Rle_dec 0 f) as [|Hc]; [auto|exfalso; assert (0 < (- f) * (- drc)) by (apply Rmult_lt_0_compat; lra); lra]). assert (f < 1) by (destruct (Rlt_dec f 1) as [|Hc]; [auto|exfalso; unfold nr in Hl; assert (0 <= (f - 1) * (- drc)) by (apply Rmult_le_pos; lra); lra]).
      destruct (Rlt_dec f 1); [|lra]. cbn [bind]. destruct (Fin f (at_dir 1 de)) as (A & B & C & D & _); [lra|lra|].
      do 2 eexists. split; [reflexivity|]. split; [auto|]. split; [auto|]. split; [auto|]. right. exists 1%N. split; [left; auto|]. split; [auto|].
      split; [rewrite ent_upd, Nat.eqb_refl by lia; unfold side_bound; cbn [N.eqb Pos.eqb]; lra|]. rewrite D. fold y. unfold sg. cbn [N.eqb Pos.eqb].
      assert (y < 0) by nra. split; nra.
    + assert (Hu : ent bnd (2 * de + 1) < nr) by (destruct (Rlt_dec (ent bnd (2 * de + 1)) nr); [auto|exfalso; nra]).
      assert (0 < drc) by (unfold nr in Hu; lra). rewrite dv_ok by lra. cbn [bind].
      set (f := (ent bnd (2 * de + 1) - (ent r0 de + ent dr de)) / drc).
      assert (Ef : f * drc = ent bnd (2 * de + 1) - (ent r0 de + ent dr de)) by (unfold f; field; lra).
      assert (0 <= f) by (destruct (Rle_dec 0 f) as [|Hc]; [auto|exfalso; assert (0 < (- f) * drc) by (apply Rmult_lt_0_compat; lra); lra]). assert (f < 1) by (destruct (Rlt_dec f 1) as [|Hc]; [auto|exfalso; unfold nr in Hu; assert (0 <= (f - 1) * drc) by (apply Rmult_le_pos; lra); lra]).
      destruct (Rlt_dec f 1); [|lra]. cbn [bind]. destruct (Fin f (at_dir 2 de)) as (A & B & C & D & _); [lra|lra|].
      do 2 eexists. split; [reflexivity|]. split; [auto|]. split; [auto|]. split; [auto|]. right. exists 2%N. split; [right; auto|]. split; [auto|].
      split; [rewrite ent_upd, Nat.eqb_refl by lia; unfold side_bound; cbn [N.eqb Pos.eqb]; lra|]. rewrite D. fold y. unfold sg. cbn [N.eqb Pos.eqb].
      assert (0 < y) by nra. split; nra.
  - cbn [bind]. apply Full. unfold nr in Hin. destruct Fde, Bde as [Bde1 Bde2].
    split; match goal with |- ?a <= ?b => destruct (Rle_dec a b) as [|Hc]; [auto|exfalso; nra] end.
Qed.

Lemma upd_ent (l : list R) d v : v = ent l d -> upd l d v = l.
Proof. intros ->. revert d. induction l as [|x l IH]; intros [|d]; cbn; auto. f_equal. apply IH. Qed.
Lemma con_at s dn d : is_side s -> (dn < 2)%nat -> (d < 2)%nat -> con (at_dir s dn) d = if (d =? dn)%nat then s else 0%N.
Proof. intros [->| ->] H1 H2; destruct dn as [|[|dn]]; try lia; destruct d as [|[|d]]; try lia; reflexivity. Qed.
Lemma con_two s t dn d : is_side s -> is_side t -> (dn < 2)%nat -> (d < 2)%nat ->
  con (N.lor (at_dir s dn) (at_dir t (1 - dn))) d = if (d =? dn)%nat then s else t.
Proof. intros [->| ->] [->| ->] H1 H2; destruct dn as [|[|dn]]; try lia; destruct d as [|[|d]]; try lia; reflexivity. Qed.
Lemma drop_dn s t dn : is_side s -> is_side t -> (dn < 2)%nat -> N.land (N.lor (at_dir s dn) (at_dir t (1 - dn))) (unot (at_dir 3 dn)) = at_dir t (1 - dn).
Proof. intros [->| ->] [->| ->] H1; destruct dn as [|[|dn]]; try lia; reflexivity. Qed.
Definition held (dr : list R) (fl : N) : Prop :=
  forall d, (d < 2)%nat -> con fl d = 0%N \/ is_side (con fl d) /\ ent dr d = side_bound (lo d) (hi d) (con fl d).
Definition relax_dir (dr : list R) (fl : N) (d : nat) : N :=
  if (con fl d =? 0)%N then fl else if Rlt_dec (ent dr d * grad dr d) 0 then N.land fl (unot (at_dir 3 d)) else fl.
Lemma relax_eq dr fl : held dr fl -> area_relax jac resid r0 bnd dr fl = (dr, relax_dir dr (relax_dir dr fl 0) 1).
Proof.
  intros H. unfold area_relax.
  pose proof (grad_lin dr 0 ltac:(lia)) as G0. pose proof (grad_lin dr 1 ltac:(lia)) as G1. destruct (lin_res jac resid dr) as [a b].
  cbn [Nat.add] in G0, G1. rewrite G0, G1. clear G0 G1.
  assert (S : forall d, (d < 2)%nat -> (if (con fl d =? 0)%N then dr else upd dr d (ent bnd (2 * d + N.to_nat (con fl d - 1)) - ent r0 d)) = dr).
  { intros d Hd. destruct (H d Hd) as [->|[[E|E] B]]; [reflexivity| |]; rewrite E in *; cbn [N.eqb Pos.eqb]; apply upd_ent; rewrite B; unfold side_bound; cbn [N.eqb Pos.eqb].
    - change (N.to_nat (1 - 1)) with 0%nat. rewrite Nat.add_0_r. auto.
    - change (N.to_nat (2 - 1)) with 1%nat. auto. }
  rewrite (S 0%nat) by lia. rewrite (S 1%nat) by lia. f_equal.
Qed.
Lemma relax_one s dn dr : is_side s -> (dn < 2)%nat -> ent dr dn = side_bound (lo dn) (hi dn) s -> 0 <= ent dr dn * grad dr dn ->
  area_relax jac resid r0 bnd dr (at_dir s dn) = (dr, at_dir s dn).
Proof.
  intros Hs Hd E G. rewrite relax_eq.
  2:{ intros d Hd'. rewrite con_at by auto. destruct (Nat.eqb_spec d dn) as [->|]; auto. }
  f_equal. assert (X : forall d, (d < 2)%nat -> relax_dir dr (at_dir s dn) d = at_dir s dn).
  { intros d Hd'. unfold relax_dir. rewrite con_at by auto. destruct (Nat.eqb_spec d dn) as [->|]; [|reflexivity].
    destruct (s =? 0)%N; [auto|]. destruct (Rlt_dec (ent dr dn * grad dr dn) 0); [lra|auto]. }
  rewrite !X by lia. auto.
Qed.
Lemma relax_two s t dn dr : is_side s -> is_side t -> (dn < 2)%nat -> ent dr dn = side_bound (lo dn) (hi dn) s -> ent dr (1 - dn) = side_bound (lo (1 - dn)) (hi (1 - dn)) t ->
  0 <= ent dr (1 - dn) * grad dr (1 - dn) -> let fl := N.lor (at_dir s dn) (at_dir t (1 - dn)) in
  area_relax jac resid r0 bnd dr fl = (dr, if Rlt_dec (ent dr dn * grad dr dn) 0 then at_dir t (1 - dn) else fl).
Proof.
  intros Hs Ht Hd E E' G fl. rewrite relax_eq.
  2:{ intros d Hd'. unfold fl. rewrite con_two by auto. right. destruct (Nat.eqb_spec d dn) as [->|]; [auto|]. replace d with (1 - dn)%nat by lia. auto. }
  f_equal.
  assert (S0 : forall x, is_side x -> (x =? 0)%N = false) by (intros x [->| ->]; auto).
  assert (A : forall f, con f (1 - dn) = t -> relax_dir dr f (1 - dn) = f).
  { intros f Hf. unfold relax_dir. rewrite Hf, S0 by auto. destruct (Rlt_dec (ent dr (1 - dn) * grad dr (1 - dn)) 0); [lra|auto]. }
  assert (B : relax_dir dr fl dn = if Rlt_dec (ent dr dn * grad dr dn) 0 then at_dir t (1 - dn) else fl).
  { unfold relax_dir, fl. rewrite con_two, Nat.eqb_refl, S0 by auto. rewrite drop_dn by auto. auto. }
  assert (C1 : con fl (1 - dn) = t) by (unfold fl; rewrite con_two by (auto; lia); destruct (Nat.eqb_spec (1 - dn) dn); [lia|auto]).
  assert (C2 : con (at_dir t (1 - dn)) (1 - dn) = t) by (rewrite con_at by (auto; lia); rewrite Nat.eqb_refl; auto).
  destruct dn as [|[|dn]]; [| |lia]; cbn [Nat.sub] in *.
  - rewrite B. destruct (Rlt_dec (ent dr 0 * grad dr 0) 0); apply A; auto.
  - rewrite (A fl) by auto. auto.
Qed.
Lemma two_not_one s t dn : is_side s -> is_side t -> (dn < 2)%nat -> (at_dir t (1 - dn) =? N.lor (at_dir s dn) (at_dir t (1 - dn)))%N = false.
Proof. intros [->| ->] [->| ->] H1; destruct dn as [|[|dn]]; try lia; reflexivity. Qed.
Lemma num_one t d : is_side t -> (d < 2)%nat -> num_constrained (at_dir t d) = 1%N.
Proof. intros [->| ->] H1; destruct d as [|[|d]]; try lia; reflexivity. Qed.

(** What is known of the final dr and flags. *)
Definition optimal (dr : list R) (fl : N) : Prop :=
  held dr fl /\ (forall d, (d < 2)%nat -> con fl d = 0%N -> grad dr d = 0) /\
  (forall d, (d < 2)%nat -> con fl d <> 0%N -> 0 <= ent dr d * grad dr d).
(** One of the active bounds is one beyond which NN lies; and the other one, if any, is reached outwards. *)
Definition anchored (dr : list R) (fl : N) : Prop :=
  exists d s, is_side s /\ (d < 2)%nat /\ con fl d = s /\ beyond s d /\
    (con fl (1 - d) = 0%N \/ 0 < sg (con fl (1 - d)) * grad dr (1 - d)) /\
    (fl = at_dir s d \/ exists t, is_side t /\ fl = N.lor (at_dir s d) (at_dir t (1 - d))).

Lemma beyond_one s t d : is_side s -> is_side t -> (d < 2)%nat -> beyond s d -> beyond t d -> s = t.
Proof. intros [->| ->] [->| ->] H A B; auto; specialize (Box d H); unfold beyond in *; cbn [N.eqb Pos.eqb] in *; lra. Qed.
Lemma sg_cases s : sg s = 1 \/ sg s = -1. Proof. unfold sg. destruct (s =? 1)%N; auto. Qed.
Lemma outward s d dr : is_side s -> (d < 2)%nat -> ent dr d = side_bound (lo d) (hi d) s -> 0 <= sg s * grad dr d -> 0 <= ent dr d * grad dr d.
Proof. intros Hs Hd E G. pose proof (bound_sg s d Hs Hd) as B. rewrite <- E in B. destruct (sg_cases s) as [X|X]; rewrite X in *; nra. Qed.
Lemma inward s d dr : is_side s -> (d < 2)%nat -> ent dr d = side_bound (lo d) (hi d) s -> ent dr d * grad dr d < 0 -> sg s * grad dr d < 0.
Proof. intros Hs Hd E G. pose proof (bound_sg s d Hs Hd) as B. rewrite <- E in B. destruct (sg_cases s) as [X|X]; rewrite X in *; nra. Qed.
Lemma grad_pair dr d : (d < 2)%nat -> grad dr d = hh d d * err dr d + hh d (1 - d) * err dr (1 - d).
Proof. intros H. unfold grad. destruct d as [|[|d]]; [| |lia]; cbn [Nat.sub]; ring. Qed.
Lemma det_pair d : (d < 2)%nat -> hh d (1 - d) * hh d (1 - d) < hh d d * hh (1 - d) (1 - d).
Proof. intros H. pose proof det_sq. destruct d as [|[|d]]; [| |lia]; cbn [Nat.sub]; rewrite ?(hh_sym 1 0); lra. Qed.

(** One pass: either finished, or at a corner from which the search goes on along the other edge. *)
Lemma pass_ok s dn dr fuel : is_side s -> (dn < 2)%nat -> feasible dr -> ent dr dn = side_bound (lo dn) (hi dn) s -> beyond s dn ->
  (exists dr' fl, area_loop (S fuel) jac resid r0 bnd dr (at_dir s dn) = Ok (dr', fl) /\ feasible dr' /\ obj dr' <= obj dr /\ optimal dr' fl /\ anchored dr' fl) \/
  (exists dr' t, area_loop (S fuel) jac resid r0 bnd dr (at_dir s dn) = area_loop fuel jac resid r0 bnd dr' (at_dir t (1 - dn)) /\ is_side t /\ feasible dr' /\ obj dr' <= obj dr /\
     ent dr' dn = ent dr dn /\ ent dr' (1 - dn) = side_bound (lo (1 - dn)) (hi (1 - dn)) t /\ beyond t (1 - dn) /\ sg s * grad dr' dn < 0 /\ 0 < sg t * grad dr (1 - dn)).
Proof.
  intros Hs Hdn F E B. assert (Hde : (1 - dn < 2)%nat) by lia. cbn [area_loop].
  destruct (edge_ok s dn dr Hs Hdn F) as (dr' & fl & Ea & F' & En & Ho & C). rewrite Ea. cbn [bind].
  pose proof (hh_pos dn Hdn) as Pn. pose proof (hh_pos (1 - dn) Hde) as Pe. pose proof (det_pair dn Hdn) as Dt.
  assert (E' : ent dr' dn = side_bound (lo dn) (hi dn) s) by (rewrite En; auto).
  pose proof (beyond_err s dn dr' Hs E' B) as Be.
  assert (Gn := grad_pair dr' dn Hdn). assert (Ge := grad_pair dr' (1 - dn) Hde). replace (1 - (1 - dn))%nat with dn in Ge by lia.
  rewrite (hh_sym (1 - dn) dn), Rplus_comm in Ge.
  destruct C as [[-> G0]|(t & Ht & -> & Eb & G1 & G2)].
  - left. assert (Gs : 0 <= sg s * grad dr' dn).
    { assert (X : grad dr' dn = (hh dn dn * hh (1 - dn) (1 - dn) - hh dn (1 - dn) * hh dn (1 - dn)) / hh (1 - dn) (1 - dn) * err dr' dn).
      { rewrite <- edge_min_grad with (ee := err dr' (1 - dn)) by auto. rewrite <- Ge, G0. unfold Rdiv. rewrite Rmult_0_l, Rminus_0_r. auto. }
      rewrite X. replace (sg s * (_ * err dr' dn)) with ((hh dn dn * hh (1 - dn) (1 - dn) - hh dn (1 - dn) * hh dn (1 - dn)) / hh (1 - dn) (1 - dn) * (sg s * err dr' dn)) by ring.
      apply Rmult_le_pos; [|lra]. apply Rmult_le_pos; [lra|]. left. apply Rinv_0_lt_compat. auto. }
    pose proof (outward s dn dr' Hs Hdn E' Gs) as O. rewrite relax_one by auto. rewrite N.eqb_refl.
    exists dr', (at_dir s dn). split; [auto|]. split; [auto|]. split; [auto|]. split.
    + split; [|split]; intros d Hd; rewrite con_at by auto; destruct (Nat.eqb_spec d dn) as [->|Hn]; auto.
      * intros ->. destruct Hs; discriminate.
      * intros _. replace d with (1 - dn)%nat by lia. auto.
      * intros X. contradiction.
    + exists dn, s. rewrite !con_at by (auto; lia). rewrite Nat.eqb_refl. destruct (Nat.eqb_spec (1 - dn) dn); [lia|]. auto 8.
  - assert (Gt : 0 <= ent dr' (1 - dn) * grad dr' (1 - dn)) by (eapply outward; eauto; lra).
    rewrite (relax_two s t dn dr') by auto. destruct (Rlt_dec (ent dr' dn * grad dr' dn) 0) as [Hr|Hr].
    + right. rewrite two_not_one, num_one by auto. cbn [N.eqb Pos.eqb].
      pose proof (inward s dn dr' Hs Hdn E' Hr) as Gi.
      exists dr', t. split; [auto|]. split; [auto|]. split; [auto|]. split; [auto|]. split; [auto|]. split; [auto|]. split; [|auto].
      apply (err_beyond t (1 - dn) dr'); auto.
      apply (corner_beyond (hh dn dn) (hh (1 - dn) (1 - dn)) (hh dn (1 - dn)) Pn Pe Dt (sg s) (sg t) (err dr' dn)); auto using sg_cases; [rewrite <- Gn|rewrite <- Ge]; auto.
    + left. rewrite N.eqb_refl. exists dr', (N.lor (at_dir s dn) (at_dir t (1 - dn))). split; [auto|]. split; [auto|]. split; [auto|]. split.
      * split; [|split]; intros d Hd; rewrite con_two by auto; destruct (Nat.eqb_spec d dn) as [->|Hn].
        -- auto.
        -- replace d with (1 - dn)%nat by lia. auto.
        -- intros ->. destruct Hs; discriminate.
        -- intros ->. destruct Ht; discriminate.
        -- intros _. lra.
        -- intros _. replace d with (1 - dn)%nat by lia. auto.
      * exists dn, s. rewrite !con_two by (auto; lia). rewrite Nat.eqb_refl. destruct (Nat.eqb_spec (1 - dn) dn); [lia|]. repeat (split; [auto|]). right. exists t. auto.
Qed.

Lemma loop_ok s dn dr fuel : is_side s -> (dn < 2)%nat -> feasible dr -> ent dr dn = side_bound (lo dn) (hi dn) s -> beyond s dn ->
  exists dr' fl, area_loop (S (S fuel)) jac resid r0 bnd dr (at_dir s dn) = Ok (dr', fl) /\ feasible dr' /\ obj dr' <= obj dr /\ optimal dr' fl /\ anchored dr' fl.
Proof.
  intros Hs Hdn F E B. destruct (pass_ok s dn dr (S fuel) Hs Hdn F E B) as [H|(dr1 & t & El & Ht & F1 & O1 & En & Ee & B1 & G1 & G2)]; [exact H|].
  rewrite El. destruct (pass_ok t (1 - dn) dr1 fuel Ht ltac:(lia) F1 Ee B1) as [(dr2 & fl & A2 & F2 & O2 & P)|(dr2 & u & _ & Hu & _ & _ & _ & _ & Bu & _ & Gu)].
  - exists dr2, fl. split; [auto|]. split; [auto|]. split; [lra|auto].
  - exfalso. replace (1 - (1 - dn))%nat with dn in * by lia. assert (u = s) by (eapply (beyond_one u s dn); auto). subst u. lra.
Qed.
End Area.
