(** newton_face and newton_edge: the step is a minimum of the quadratic model. *)
From Verif Require Import Base BaseLemmas Poly FindptsEl2 FindptsEl2Proof1 FindptsEl2Proof2 FindptsEl3 FindptsEl3Proof1 FindptsEl3Proof2.
From Coq Require Import Reals Lra Psatz NArith.
Open Scope R_scope.

Lemma between x lo hi : lo <= hi -> 0 <= (x - lo) * (hi - x) <-> lo <= x <= hi.
Proof. intros H. split; intros Q; [|apply Rmult_le_pos; lra]. destruct (Rle_dec lo x), (Rle_dec x hi); try lra; exfalso; nra. Qed.

(** A line meets the boundary of an interval, and of a rectangle. *)
Lemma exit1 lo hi x u : lo <= x <= hi -> u <> 0 -> exists t, 0 <= t /\ (x + t * u = lo \/ x + t * u = hi) /\ forall t', 0 <= t' <= t -> lo <= x + t' * u <= hi.
Proof.
  intros H Nu. destruct (Rlt_dec 0 u) as [P|P].
  - exists ((hi - x) / u). assert (E : (hi - x) / u * u = hi - x) by (field; lra). set (t := (hi - x) / u) in *.
    assert (0 <= t) by (destruct (Rle_dec 0 t); [auto|exfalso; nra]). split; [auto|]. split; [right; lra|]. intros t' Ht. split; nra.
  - exists ((lo - x) / u). assert (E : (lo - x) / u * u = lo - x) by (field; lra). set (t := (lo - x) / u) in *.
    assert (0 <= t) by (destruct (Rle_dec 0 t); [auto|exfalso; nra]). split; [auto|]. split; [left; lra|]. intros t' Ht. split; nra.
Qed.

Section Face.
Variable A y : list R.
Variable b0 b1 b2 b3 : R.
Notation ev := (face_eval A y).
Notation A0 := (ent A 0).
Notation A1 := (ent A 1).
Notation A2 := (ent A 2).
Notation y0 := (ent y 0).
Notation y1 := (ent y 1).
Hypothesis B01 : b0 <= b1.
Hypothesis B23 : b2 <= b3.
Definition rect (r s : R) : Prop := b0 <= r <= b1 /\ b2 <= s <= b3.
Definition rim (r s : R) : Prop := rect r s /\ (r = b0 \/ r = b1 \/ s = b2 \/ s = b3).
Lemma exit2 r s u v : rect r s -> u <> 0 \/ v <> 0 -> exists t, 0 <= t /\ rim (r + t * u) (s + t * v).
Proof.
  intros [Hr Hs] N. destruct (Req_dec u 0) as [Zu|Nu].
  - destruct N as [N|Nv]; [contradiction|]. destruct (exit1 b2 b3 s v Hs Nv) as (t & Ht & E & In1). exists t. split; [auto|]. split; [split; [rewrite Zu; lra|apply In1; lra]|]. tauto.
  - destruct (exit1 b0 b1 r u Hr Nu) as (t & Ht & E & In1). destruct (Req_dec v 0) as [Zv|Nv].
    + exists t. split; [auto|]. split; [split; [apply In1; lra|rewrite Zv; lra]|]. tauto.
    + destruct (exit1 b2 b3 s v Hs Nv) as (q & Hq & E' & In2). destruct (Rle_dec t q).
      * exists t. split; [auto|]. split; [split; [apply In1|apply In2]; lra|]. tauto.
      * exists q. split; [auto|]. split; [split; [apply In1|apply In2]; lra|]. tauto.
Qed.
Lemma ev_move r s u v t : ev (r + t * u) (s + t * v) = ev r s + t * (- (y0 * u + y1 * v) + (A0 * r * u + A1 * (r * v + s * u) + A2 * s * v)) + t * t * (A0 * u * u + 2 * A1 * u * v + A2 * v * v) / 2.
Proof. unfold face_eval. field. Qed.
(** Along a direction of non-positive curvature the boundary is reached without going up. *)
Lemma slide r s u v : rect r s -> u <> 0 \/ v <> 0 -> A0 * u * u + 2 * A1 * u * v + A2 * v * v <= 0 -> exists r' s', rim r' s' /\ ev r' s' <= ev r s.
Proof.
  intros Hr N Q. set (g := - (y0 * u + y1 * v) + (A0 * r * u + A1 * (r * v + s * u) + A2 * s * v)).
  destruct (Rle_dec g 0) as [G|G].
  - destruct (exit2 r s u v Hr N) as (t & Ht & Rm). exists (r + t * u), (s + t * v). split; [auto|]. rewrite ev_move. fold g. nra.
  - destruct (exit2 r s (- u) (- v) Hr) as (t & Ht & Rm); [destruct N; [left|right]; lra|]. exists (r + t * - u), (s + t * - v). split; [auto|].
    replace (r + t * - u) with (r + (- t) * u) by ring. replace (s + t * - v) with (s + (- t) * v) by ring. rewrite ev_move. fold g. nra.
Qed.
(** If the matrix is not positive definite, or its minimum is outside, the minimum is on the boundary. *)
Lemma to_rim r s : rect r s -> (A0 + A2 <= 0 \/ A0 * A2 <= A1 * A1 \/
    exists r' s', y0 = A0 * r' + A1 * s' /\ y1 = A1 * r' + A2 * s' /\ 0 < A0 + A2 /\ A1 * A1 < A0 * A2 /\ ~ rect r' s') ->
  exists r' s', rim r' s' /\ ev r' s' <= ev r s.
Proof.
  intros Hr [C|[C|(p & q & E1 & E2 & T & D & Out)]].
  - destruct (Rle_dec A0 0); [apply (slide r s 1 0); auto; lra|]. apply (slide r s 0 1); auto; lra.
  - destruct (Rle_dec A0 0); [apply (slide r s 1 0); auto; lra|]. apply (slide r s (- A1) A0); auto; [right; lra|].
    replace (A0 * - A1 * - A1 + 2 * A1 * - A1 * A0 + A2 * A0 * A0) with (- (A0 * (A1 * A1 - A0 * A2))) by ring. assert (0 <= A0 * (A1 * A1 - A0 * A2)) by (apply Rmult_le_pos; lra). lra.
  - assert (N : p - r <> 0 \/ q - s <> 0).
    { destruct (Req_dec (p - r) 0) as [Z|]; [|auto]. destruct (Req_dec (q - s) 0) as [Z'|]; [|auto]. exfalso. apply Out. replace p with r by lra. replace q with s by lra. auto. }
    destruct (exit2 r s _ _ Hr N) as (t & Ht & Rm). exists (r + t * (p - r)), (s + t * (q - s)). split; [auto|].
    assert (T1 : t <= 1).
    { destruct (Rle_dec t 1) as [|Hc]; [auto|exfalso]. apply Out. destruct Rm as [[X Y] _]. destruct Hr as [X' Y'].
      assert (K : forall lo hi a c, lo <= a <= hi -> lo <= a + t * (c - a) <= hi -> lo <= c <= hi).
      { intros lo hi a c Ha Hb. split; [destruct (Rle_dec lo c) as [|Hn]; [auto|exfalso]|destruct (Rle_dec c hi) as [|Hn]; [auto|exfalso]]; nra. }
      split; [apply (K _ _ r)|apply (K _ _ s)]; auto. }
    rewrite ev_move. set (u := p - r). set (v := q - s). set (h := A0 * u * u + 2 * A1 * u * v + A2 * v * v).
    replace (- (y0 * u + y1 * v) + (A0 * r * u + A1 * (r * v + s * u) + A2 * s * v)) with (- h) by (rewrite E1, E2; unfold h, u, v; ring).
    assert (Ap : 0 < A0) by (destruct (Rlt_dec 0 A0) as [|Hn]; [auto|exfalso; assert (0 < A2) by lra; assert (A0 * A2 <= 0) by nra; pose proof (Rle_0_sqr A1) as Sq; unfold Rsqr in Sq; lra]).
    assert (Hh : 0 <= h).
    { apply (Rmult_le_reg_l A0); [auto|]. rewrite Rmult_0_r. replace (A0 * h) with ((A0 * u + A1 * v) * (A0 * u + A1 * v) + (A0 * A2 - A1 * A1) * (v * v)) by (unfold h; ring).
      pose proof (Rle_0_sqr (A0 * u + A1 * v)) as S1. pose proof (Rle_0_sqr v) as S2. unfold Rsqr in S1, S2. assert (0 <= (A0 * A2 - A1 * A1) * (v * v)) by (apply Rmult_le_pos; lra). lra. }
    assert (0 <= t * (2 - t) * h) by (apply Rmult_le_pos; [apply Rmult_le_pos|]; lra). nra.
Qed.

(** One side: a quadratic c + (a/2) t^2 - z t on an interval. *)
Lemma side_min a z c lo hi (f : R -> R) m : (forall t, f t = c - z * t + a / 2 * (t * t)) -> lo <= hi -> m <= f lo -> m <= f hi ->
  (0 < a -> lo <= z / a <= hi -> m <= f (z / a)) -> forall t, lo <= t <= hi -> m <= f t.
Proof.
  intros F H M1 M2 M3 t Ht. pose proof (F lo) as Fl. pose proof (F hi) as Fh. pose proof (F t) as Ft.
  destruct (Rle_dec a 0) as [Ha|Ha].
  - destruct (Req_dec lo hi) as [E|E]; [replace t with lo by lra; auto|].
    (* concave *)
    assert (Q : f t - ((hi - t) / (hi - lo) * f lo + (t - lo) / (hi - lo) * f hi) = - (a / 2) * ((t - lo) * (hi - t))) by (rewrite Ft, Fl, Fh; field; lra).
    assert (S : (hi - t) / (hi - lo) + (t - lo) / (hi - lo) = 1) by (field; lra).
    assert (U : 0 <= (hi - t) / (hi - lo)) by (apply Rmult_le_pos; [lra|apply Rlt_le, Rinv_0_lt_compat; lra]). assert (V : 0 <= (t - lo) / (hi - lo)) by (apply Rmult_le_pos; [lra|apply Rlt_le, Rinv_0_lt_compat; lra]).
    set (w1 := (hi - t) / (hi - lo)) in *. set (w2 := (t - lo) / (hi - lo)) in *.
    assert (0 <= - (a / 2) * ((t - lo) * (hi - t))) by (apply Rmult_le_pos; [lra|apply Rmult_le_pos; lra]).
    assert (w1 * m <= w1 * f lo) by (apply Rmult_le_compat_l; auto). assert (w2 * m <= w2 * f hi) by (apply Rmult_le_compat_l; auto).
    assert (w1 * m + w2 * m = m) by (rewrite <- Rmult_plus_distr_r, S; ring). lra.
  - assert (Pa : 0 < a) by lra. assert (E : z / a * a = z) by (field; lra). set (k := z / a) in *.
    assert (G : forall x, f x - f k = a / 2 * ((x - k) * (x - k))) by (intros x; rewrite (F x), (F k), <- E; field).
    pose proof (G t) as Gt. pose proof (G lo) as Gl. pose proof (G hi) as Gh.
    destruct (Rle_dec lo k) as [K1|K1]; [destruct (Rle_dec k hi) as [K2|K2]|].
    + specialize (M3 Pa (conj K1 K2)). pose proof (Rle_0_sqr (t - k)) as Sq. unfold Rsqr in Sq. assert (0 <= a / 2 * ((t - k) * (t - k))) by (apply Rmult_le_pos; lra). lra.
    + assert ((hi - k) * (hi - k) <= (t - k) * (t - k)) by nra. assert (a / 2 * ((hi - k) * (hi - k)) <= a / 2 * ((t - k) * (t - k))) by (apply Rmult_le_compat_l; lra). lra.
    + assert ((lo - k) * (lo - k) <= (t - k) * (t - k)) by nra. assert (a / 2 * ((lo - k) * (lo - k)) <= a / 2 * ((t - k) * (t - k))) by (apply Rmult_le_compat_l; lra). lra.
Qed.

(** ** The search on the boundary *)
Definition choice (i : N) (d : nat) (lo hi e : R) : R := if (con i d =? 0)%N then e else if (con i d =? 1)%N then lo else hi.
Definition held (best : R * N * R * R) : Prop := let '(v, i, e0, e1) := best in
  In i nine /\ v = ev (choice i 0 b0 b1 e0) (choice i 1 b2 b3 e1) /\ rect (choice i 0 b0 b1 e0) (choice i 1 b2 b3 e1).
Definition val (best : R * N * R * R) : R := let '(v, _, _, _) := best in v.
Lemma better_ok best tv i e0 e1 : held best -> held (tv, i, e0, e1) -> held (better best tv i e0 e1) /\ val (better best tv i e0 e1) <= val best /\ val (better best tv i e0 e1) <= tv.
Proof. destruct best as [[[v j] f0] f1]. intros H1 H2. unfold better. destruct (Rlt_dec tv v); cbn [val]; (split; [auto|]); lra. Qed.
Lemma try0_ok best b i : held best -> 0 < A0 -> (b = b2 /\ i = 4%N) \/ (b = b3 /\ i = 8%N) ->
  exists best', face_try0 A y b0 b1 best b i = Ok best' /\ held best' /\ val best' <= val best /\ (b0 <= (y0 - A1 * b) / A0 <= b1 -> val best' <= ev ((y0 - A1 * b) / A0) b).
Proof.
  intros H P C. unfold face_try0. rewrite dv_ok by lra. cbn [bind]. destruct best as [[[v j] e0] e1]. set (k := (y0 - A1 * b) / A0).
  destruct (Rle_dec 0 ((k - b0) * (b1 - k))) as [K|K].
  - apply between in K; [|auto]. eexists. split; [reflexivity|].
    destruct (better_ok (v, j, e0, e1) (ev k b) i k e1 H) as (X & Y & Z); [|auto].
    destruct C as [[-> ->]|[-> ->]]; (split; [cbn; tauto|]); (split; [reflexivity|]); split; cbn; lra.
  - eexists. split; [reflexivity|]. split; [auto|]. split; [lra|]. intros Q. exfalso. apply K, between; auto.
Qed.
Lemma try1_ok best b i : held best -> 0 < A2 -> (b = b0 /\ i = 1%N) \/ (b = b1 /\ i = 2%N) ->
  exists best', face_try1 A y b2 b3 best b i = Ok best' /\ held best' /\ val best' <= val best /\ (b2 <= (y1 - A1 * b) / A2 <= b3 -> val best' <= ev b ((y1 - A1 * b) / A2)).
Proof.
  intros H P C. unfold face_try1. rewrite dv_ok by lra. cbn [bind]. destruct best as [[[v j] e0] e1]. set (k := (y1 - A1 * b) / A2).
  destruct (Rle_dec 0 ((k - b2) * (b3 - k))) as [K|K].
  - apply between in K; [|auto]. eexists. split; [reflexivity|].
    destruct (better_ok (v, j, e0, e1) (ev b k) i e0 k H) as (X & Y & Z); [|auto].
    destruct C as [[-> ->]|[-> ->]]; (split; [cbn; tauto|]); (split; [reflexivity|]); split; cbn; lra.
  - eexists. split; [reflexivity|]. split; [auto|]. split; [lra|]. intros Q. exfalso. apply K, between; auto.
Qed.
Lemma best_ok dr0 dr1 : exists best, face_best A y b0 b1 b2 b3 dr0 dr1 = Ok best /\ held best /\ forall r s, rim r s -> val best <= ev r s.
Proof.
  unfold face_best.
  assert (Hc : forall i r s, In (i, r, s) [(5%N, b0, b2); (6%N, b1, b2); (9%N, b0, b3); (10%N, b1, b3)] -> held (ev r s, i, dr0, dr1)).
  { intros i r s Hin. cbn [In] in Hin. destruct Hin as [E|[E|[E|[E|[]]]]]; injection E as <- <- <-; (split; [cbn; tauto|]); (split; [reflexivity|]); split; cbn; lra. }
  set (c0 := (ev b0 b2, 5%N, dr0, dr1)). assert (H0 : held c0) by (apply Hc; cbn; tauto).
  destruct (better_ok c0 (ev b1 b2) 6%N dr0 dr1 H0 (Hc 6%N b1 b2 ltac:(cbn; tauto))) as (H1 & V1 & W1). set (c1 := better c0 (ev b1 b2) 6%N dr0 dr1) in *.
  destruct (better_ok c1 (ev b0 b3) 9%N dr0 dr1 H1 (Hc 9%N b0 b3 ltac:(cbn; tauto))) as (H2 & V2 & W2). set (c2 := better c1 (ev b0 b3) 9%N dr0 dr1) in *.
  destruct (better_ok c2 (ev b1 b3) 10%N dr0 dr1 H2 (Hc 10%N b1 b3 ltac:(cbn; tauto))) as (H3 & V3 & W3). set (c3 := better c2 (ev b1 b3) 10%N dr0 dr1) in *.
  assert (V0 : val c0 = ev b0 b2) by reflexivity.
  assert (Q0 : exists best, (if Rlt_dec 0 A0 then best <- face_try0 A y b0 b1 c3 b2 4%N ;; face_try0 A y b0 b1 best b3 8%N else Ok c3) = Ok best /\ held best /\ val best <= val c3 /\
    (0 < A0 -> (b0 <= (y0 - A1 * b2) / A0 <= b1 -> val best <= ev ((y0 - A1 * b2) / A0) b2) /\ (b0 <= (y0 - A1 * b3) / A0 <= b1 -> val best <= ev ((y0 - A1 * b3) / A0) b3))).
  { destruct (Rlt_dec 0 A0) as [P|P]; [|exists c3; split; [auto|]; split; [auto|]; split; [lra|]; intros; lra].
    destruct (try0_ok c3 b2 4%N H3 P ltac:(auto)) as (d & E & Hd & Vd & Kd). rewrite E. cbn [bind].
    destruct (try0_ok d b3 8%N Hd P ltac:(auto)) as (e & E' & He & Ve & Ke). exists e. split; [auto|]. split; [auto|]. split; [lra|]. intros _. split; [intros X; specialize (Kd X); lra|auto]. }
  destruct Q0 as (d & E & Hd & Vd & Kd). rewrite E. cbn [bind].
  assert (Q1 : exists best, (if Rlt_dec 0 A2 then best <- face_try1 A y b2 b3 d b0 1%N ;; face_try1 A y b2 b3 best b1 2%N else Ok d) = Ok best /\ held best /\ val best <= val d /\
    (0 < A2 -> (b2 <= (y1 - A1 * b0) / A2 <= b3 -> val best <= ev b0 ((y1 - A1 * b0) / A2)) /\ (b2 <= (y1 - A1 * b1) / A2 <= b3 -> val best <= ev b1 ((y1 - A1 * b1) / A2)))).
  { destruct (Rlt_dec 0 A2) as [P|P]; [|exists d; split; [auto|]; split; [auto|]; split; [lra|]; intros; lra].
    destruct (try1_ok d b0 1%N Hd P ltac:(auto)) as (g & E1 & Hg & Vg & Kg). rewrite E1. cbn [bind].
    destruct (try1_ok g b1 2%N Hg P ltac:(auto)) as (e & E2 & He & Ve & Ke). exists e. split; [auto|]. split; [auto|]. split; [lra|]. intros _. split; [intros X; specialize (Kg X); lra|auto]. }
  destruct Q1 as (g & E1 & Hg & Vg & Kg). rewrite E1. exists g. split; [auto|]. split; [auto|].
  intros r s [[Hr Hs] [-> |[-> |[-> | ->]]]].
  - apply (side_min A2 (y1 - A1 * b0) (ev b0 0) b2 b3 (fun t => ev b0 t)); [intros t; unfold face_eval; field|auto|cbv beta; lra|cbv beta; lra|intros P K; apply (Kg P); auto|auto].
  - apply (side_min A2 (y1 - A1 * b1) (ev b1 0) b2 b3 (fun t => ev b1 t)); [intros t; unfold face_eval; field|auto|cbv beta; lra|cbv beta; lra|intros P K; apply (Kg P); auto|auto].
  - apply (side_min A0 (y0 - A1 * b2) (ev 0 b2) b0 b1 (fun t => ev t b2)); [intros t; unfold face_eval; field|auto|cbv beta; lra|cbv beta; lra|intros P K; apply Rle_trans with (val d); [lra|apply (Kd P); auto]|auto].
  - apply (side_min A0 (y0 - A1 * b3) (ev 0 b3) b0 b1 (fun t => ev t b3)); [intros t; unfold face_eval; field|auto|cbv beta; lra|cbv beta; lra|intros P K; apply Rle_trans with (val d); [lra|apply (Kd P); auto]|auto].
Qed.
End Face.

(** ** newton_face *)
Lemma side_of f : f = 0%N \/ is_side f -> f <> 0%N -> is_side f. Proof. tauto. Qed.
Lemma face_bounds_ok tr p0 p1 : exists m0 mask, face_bound tr p0 1 63 = (lbd tr p0 - p0, ubd tr p0 - p0, m0) /\ face_bound tr p1 4 m0 = (lbd tr p1 - p1, ubd tr p1 - p1, mask) /\
  forall f, is_side f -> N.land f (N.shiftr mask (2 * N.of_nat 0)) = N.land f (bmask tr p0) /\ N.land f (N.shiftr mask (2 * N.of_nat 1)) = N.land f (bmask tr p1).
Proof.
  unfold face_bound, lbd, ubd, bmask.
  destruct (Rlt_dec (-1) (p0 - tr)); destruct (Rlt_dec (p0 + tr) 1); destruct (Rlt_dec (-1) (p1 - tr)); destruct (Rlt_dec (p1 + tr) 1);
  (do 2 eexists; split; [apply f_equal2; [apply f_equal2; ring|reflexivity]|]; split; [apply f_equal2; [apply f_equal2; ring|reflexivity]|]; intros f [->| ->]; split; reflexivity).
Qed.
Lemma face_set_ok tr i mask d d3 old e nf : 0 < tr -> -1 <= old <= 1 -> con i d = 0%N \/ is_side (con i d) ->
  (is_side (con i d) -> N.land (con i d) (N.shiftr mask (2 * N.of_nat d)) = N.land (con i d) (bmask tr old)) ->
  let t := choice i d (lbd tr old - old) (ubd tr old - old) e in
  exists nf', face_set tr i mask d d3 old e nf = (old + t, nf') /\ (nf' = nf \/ exists f, is_side f /\ nf' = N.lor nf (at_dir f d3) /\ old + t = sg f).
Proof.
  intros Ht Ho C M t. unfold face_set, t, choice. destruct C as [E|Sd].
  - rewrite E. cbn [N.eqb]. eauto.
  - rewrite (M Sd). clear M. destruct Sd as [E|E]; rewrite E; cbn [N.eqb Pos.eqb]; unfold bmask, lbd, ubd; destruct (Rlt_dec (-1) (old - tr)); destruct (Rlt_dec (old + tr) 1); cbn [N.add N.land N.eqb Pos.land Pos.add];
    (eexists; split; [apply f_equal2; [ring|reflexivity]|]); ((left; reflexivity) || (right; eexists; split; [|split; [reflexivity|]]; [(left; reflexivity) || (right; reflexivity)|unfold sg; cbn [N.eqb Pos.eqb]; ring])).
Qed.

(** The point r' reached from r0, with the flags f. *)
Record moved (r0 r' : list R) (tr : R) (f : N) : Prop := {
  mv_27 : In f all27;
  mv_box : in_box3 r';
  mv_con : constrained3 f r';
  mv_tr : forall d, (d < 3)%nat -> Rabs (ent r' d - ent r0 d) <= tr }.
Lemma upd_len {T} (l : list T) i v : length (upd l i v) = length l.
Proof. apply upd_length. Qed.
Lemma perm3 d1 d2 dn e : (d1 < 3)%nat -> (d2 < 3)%nat -> (dn < 3)%nat -> d1 <> d2 -> d1 <> dn -> d2 <> dn -> (e < 3)%nat -> e = d1 \/ e = d2 \/ e = dn.
Proof. lia. Qed.
Lemma flag_new fl r' d t : In fl all27 -> (d < 3)%nat -> con fl d = 0%N -> constrained3 fl r' ->
  forall nf, (nf = fl \/ exists f, is_side f /\ nf = N.lor fl (at_dir f d) /\ t = sg f) -> ent r' d = t -> In nf all27 /\ constrained3 nf r' /\ forall e, (e < 3)%nat -> e <> d -> con nf e = con fl e.
Proof.
  intros H Hd C Hc nf [->|(f & Hf & -> & Et)] E; [auto|]. destruct (add27 fl f d H Hd C Hf) as [I Ce]. split; [auto|]. split.
  - intros e He. rewrite Ce by auto. destruct (Nat.eqb_spec e d) as [->|]; [right|auto]. rewrite E, Et. destruct Hf as [->| ->]; [left|right]; split; reflexivity.
  - intros e He Ne. rewrite Ce by auto. destruct (Nat.eqb_spec e d); [contradiction|auto].
Qed.
Lemma in_bound tr p u : 0 < tr -> -1 <= p <= 1 -> (Rabs u <= tr /\ -1 <= p + u <= 1) <-> lbd tr p - p <= u <= ubd tr p - p.
Proof.
  intros Ht Hp. unfold lbd, ubd. split.
  - intros [A B]. apply abs_in in A. destruct (Rlt_dec (-1) (p - tr)), (Rlt_dec (p + tr) 1); lra.
  - intros H. split; [apply Rabs_le|]; destruct (Rlt_dec (-1) (p - tr)), (Rlt_dec (p + tr) 1); lra.
Qed.

Lemma newton_face_ok out jac rhes resid d1 d2 dn fl p tol : (d1 < 3)%nat -> (d2 < 3)%nat -> (dn < 3)%nat -> d1 <> d2 -> d1 <> dn -> d2 <> dn ->
  In fl all27 -> con fl d1 = 0%N -> con fl d2 = 0%N -> constrained3 fl (pr p) -> in_box3 (pr p) -> 0 < tr p ->
  let A := [colcol jac d1 d1 - ent rhes 0; colcol jac d1 d2 - ent rhes 1; colcol jac d2 d2 - ent rhes 2] in
  let y := [col jac resid d1; col jac resid d2] in
  exists t1 t2 f, let r' := upd (upd (pr p) d1 (ent (pr p) d1 + t1)) d2 (ent (pr p) d2 + t2) in
    moved (pr p) r' (tr p) f /\
    (forall u1 u2, Rabs u1 <= tr p -> Rabs u2 <= tr p -> -1 <= ent (pr p) d1 + u1 <= 1 -> -1 <= ent (pr p) d2 + u2 <= 1 -> face_eval A y t1 t2 <= face_eval A y u1 u2) /\
    newton_face out jac rhes resid d1 d2 dn fl p tol =
      Ok (set_step out r' (- 2 * face_eval A y t1 t2) (N.lor (if Rlt_dec (Rabs t1 + Rabs t2) tol then N.lor f CONVERGED_FLAG3 else f) (shl (flags p) 7))).
Proof.
  intros H1 H2 Hn N12 N1 N2 Hfl C1 C2 Hc [Lr Br] Ht A y. unfold newton_face. fold A y. set (p0 := ent (pr p) d1). set (p1 := ent (pr p) d2).
  assert (B0 : -1 <= p0 <= 1) by (apply Br; auto). assert (B1 : -1 <= p1 <= 1) by (apply Br; auto).
  destruct (face_bounds_ok (tr p) p0 p1) as (m0 & mask & E0 & E1 & Mk). rewrite E0, E1. clear E0 E1.
  destruct (bd_ok (tr p) Ht p0 B0) as ((Z0 & L0) & _). destruct (bd_ok (tr p) Ht p1 B1) as ((Z1 & L1) & _).
  set (b0 := lbd (tr p) p0 - p0) in *. set (b1 := ubd (tr p) p0 - p0) in *. set (b2 := lbd (tr p) p1 - p1) in *. set (b3 := ubd (tr p) p1 - p1) in *.
  assert (Lu : forall (v : R * R), length (upd (upd (pr p) d1 (fst v)) d2 (snd v)) = 3%nat) by (intros; rewrite !upd_length; auto).
  assert (Ent : forall u v e, (e < 3)%nat -> ent (upd (upd (pr p) d1 u) d2 v) e = if (e =? d2)%nat then v else if (e =? d1)%nat then u else ent (pr p) e).
  { intros u v e He. rewrite ent_upd by (rewrite upd_length; lia). destruct (e =? d2)%nat; [auto|]. rewrite ent_upd by lia. auto. }
  assert (Er : forall u v, upd (upd (upd [0; 0; 0] dn (ent (pr p) dn)) d1 u) d2 v = upd (upd (pr p) d1 u) d2 v).
  { intros u v. destruct (pr p) as [|a [|b [|c [|? ?]]]]; try discriminate. clear - H1 H2 Hn N12 N1 N2. dim3 d1 H1; dim3 d2 H2; try congruence; dim3 dn Hn; try congruence; reflexivity. }
  (* the end of newton_face *)
  assert (Fin : forall t1 t2 nf, rect b0 b1 b2 b3 t1 t2 -> (forall u1 u2, rect b0 b1 b2 b3 u1 u2 -> face_eval A y t1 t2 <= face_eval A y u1 u2) ->
     (exists nf1, (nf1 = fl \/ exists f, is_side f /\ nf1 = N.lor fl (at_dir f d1) /\ p0 + t1 = sg f) /\ (nf = nf1 \/ exists f, is_side f /\ nf = N.lor nf1 (at_dir f d2) /\ p1 + t2 = sg f)) ->
    exists t1' t2' f, let r' := upd (upd (pr p) d1 (p0 + t1')) d2 (p1 + t2') in
    moved (pr p) r' (tr p) f /\
    (forall u1 u2, Rabs u1 <= tr p -> Rabs u2 <= tr p -> -1 <= p0 + u1 <= 1 -> -1 <= p1 + u2 <= 1 -> face_eval A y t1' t2' <= face_eval A y u1 u2) /\
    Ok (set_step out (upd (upd (upd [0; 0; 0] dn (ent (pr p) dn)) d1 (p0 + t1)) d2 (p1 + t2)) (- 2 * face_eval A y t1 t2)
       (N.lor (if Rlt_dec (Rabs (p0 + t1 - p0) + Rabs (p1 + t2 - p1)) tol then N.lor nf CONVERGED_FLAG3 else nf) (shl (flags p) 7))) =
      Ok (set_step out r' (- 2 * face_eval A y t1' t2') (N.lor (if Rlt_dec (Rabs t1' + Rabs t2') tol then N.lor f CONVERGED_FLAG3 else f) (shl (flags p) 7)))).
  { intros t1 t2 nf [R1 R2] Mn (nf1 & F1 & F2). exists t1, t2, nf. cbv zeta.
    apply (in_bound (tr p) p0 t1 Ht B0) in R1. apply (in_bound (tr p) p1 t2 Ht B1) in R2.
    set (r' := upd (upd (pr p) d1 (p0 + t1)) d2 (p1 + t2)).
    assert (X1 : ent r' d1 = p0 + t1) by (unfold r'; rewrite Ent by auto; destruct (Nat.eqb_spec d1 d2); [contradiction|]; rewrite Nat.eqb_refl; auto).
    assert (X2 : ent r' d2 = p1 + t2) by (unfold r'; rewrite Ent, Nat.eqb_refl by auto; auto).
    assert (Xn : forall e, (e < 3)%nat -> e <> d1 -> e <> d2 -> ent r' e = ent (pr p) e).
    { intros e He A1 A2. unfold r'. rewrite Ent by auto. destruct (Nat.eqb_spec e d2); [contradiction|]. destruct (Nat.eqb_spec e d1); [contradiction|auto]. }
    assert (Hc' : constrained3 fl r').
    { intros e He. destruct (Nat.eq_dec e d1) as [->|A1]; [auto|]. destruct (Nat.eq_dec e d2) as [->|A2]; [auto|]. rewrite Xn by auto. apply Hc. auto. }
    destruct (flag_new fl r' d1 (p0 + t1) Hfl H1 C1 Hc' nf1 F1 X1) as (I1 & Hc1 & Cn1).
    destruct (flag_new nf1 r' d2 (p1 + t2) I1 H2 ltac:(rewrite Cn1; auto) Hc1 nf F2 X2) as (I2 & Hc2 & _).
    split; [|split].
    - constructor; auto.
      + split; [apply (Lu (p0 + t1, p1 + t2))|]. intros e He. destruct (Nat.eq_dec e d1) as [->|A1]; [rewrite X1; apply R1|]. destruct (Nat.eq_dec e d2) as [->|A2]; [rewrite X2; apply R2|]. rewrite Xn by auto. apply Br; auto.
      + intros e He. destruct (Nat.eq_dec e d1) as [->|A1]; [rewrite X1; fold p0; replace (p0 + t1 - p0) with t1 by ring; apply R1|]. destruct (Nat.eq_dec e d2) as [->|A2]; [rewrite X2; fold p1; replace (p1 + t2 - p1) with t2 by ring; apply R2|].
        rewrite Xn by auto. rewrite Rminus_diag_eq, Rabs_R0 by auto. lra.
    - intros u1 u2 U1 U2 V1 V2. apply Mn. split; [apply (in_bound (tr p) p0 u1 Ht B0)|apply (in_bound (tr p) p1 u2 Ht B1)]; auto.
    - rewrite Er. replace (p0 + t1 - p0) with t1 by ring. replace (p1 + t2 - p1) with t2 by ring. reflexivity. }
  (* the constrained minimum *)
  assert (Con : forall e0 e1, (ent A 0 + ent A 2 <= 0 \/ ent A 0 * ent A 2 <= ent A 1 * ent A 1 \/
      exists r' s', ent y 0 = ent A 0 * r' + ent A 1 * s' /\ ent y 1 = ent A 1 * r' + ent A 2 * s' /\ 0 < ent A 0 + ent A 2 /\ ent A 1 * ent A 1 < ent A 0 * ent A 2 /\ ~ rect b0 b1 b2 b3 r' s') ->
    exists t1' t2' f, let r' := upd (upd (pr p) d1 (p0 + t1')) d2 (p1 + t2') in
    moved (pr p) r' (tr p) f /\
    (forall u1 u2, Rabs u1 <= tr p -> Rabs u2 <= tr p -> -1 <= p0 + u1 <= 1 -> -1 <= p1 + u2 <= 1 -> face_eval A y t1' t2' <= face_eval A y u1 u2) /\
    ('(v, i, e0, e1) <- face_best A y b0 b1 b2 b3 e0 e1 ;;
      let '(r0, nf) := face_set (tr p) i mask 0 d1 p0 e0 fl in
      let '(r1, nf) := face_set (tr p) i mask 1 d2 p1 e1 nf in
      Ok (set_step out (upd (upd (upd [0; 0; 0] dn (ent (pr p) dn)) d1 r0) d2 r1) (- 2 * v) (N.lor (if Rlt_dec (Rabs (r0 - p0) + Rabs (r1 - p1)) tol then N.lor nf CONVERGED_FLAG3 else nf) (shl (flags p) 7)))) =
      Ok (set_step out r' (- 2 * face_eval A y t1' t2') (N.lor (if Rlt_dec (Rabs t1' + Rabs t2') tol then N.lor f CONVERGED_FLAG3 else f) (shl (flags p) 7)))).
  { intros e0 e1 C. destruct (best_ok A y b0 b1 b2 b3 ltac:(lra) ltac:(lra) e0 e1) as ([[[v i] f0] f1] & Eb & (I9 & Ev & Rc) & Mn). rewrite Eb. cbn [bind]. cbn [val] in Mn.
    assert (S0 : con i 0 = 0%N \/ is_side (con i 0)) by (apply nine_con; auto). assert (S1 : con i 1 = 0%N \/ is_side (con i 1)) by (apply nine_con; auto).
    destruct (face_set_ok (tr p) i mask 0 d1 p0 f0 fl Ht B0 S0 (fun S => proj1 (Mk _ S))) as (nf1 & F1 & Q1). rewrite F1. fold b0 b1 in Q1 |- *.
    destruct (face_set_ok (tr p) i mask 1 d2 p1 f1 nf1 Ht B1 S1 (fun S => proj2 (Mk _ S))) as (nf & F2 & Q2). rewrite F2. fold b2 b3 in Q2 |- *.
    rewrite Ev. apply Fin; [auto| |exists nf1; auto].
    intros u1 u2 Ru. rewrite <- Ev. destruct (to_rim A y b0 b1 b2 b3 u1 u2 Ru C) as (r' & s' & Rm & Le). specialize (Mn r' s' Rm). lra. }
  destruct (Rle_dec (ent A 0 + ent A 2) 0) as [X|X]; [apply Con; auto|].
  destruct (Rle_dec (ent A 0 * ent A 2) (ent A 1 * ent A 1)) as [Y|Y]; [apply Con; auto|].
  unfold lin_solve_sym_2. rewrite dv_ok by lra. cbn [bind].
  set (D := ent A 0 * ent A 2 - ent A 1 * ent A 1). set (k0 := 1 / D * (ent A 2 * ent y 0 - ent A 1 * ent y 1)). set (k1 := 1 / D * (ent A 0 * ent y 1 - ent A 1 * ent y 0)).
  assert (S0 : ent y 0 = ent A 0 * k0 + ent A 1 * k1) by (unfold k0, k1, D; field; lra). assert (S1 : ent y 1 = ent A 1 * k0 + ent A 2 * k1) by (unfold k0, k1, D; field; lra).
  assert (Out : ~ rect b0 b1 b2 b3 k0 k1 -> ent A 0 + ent A 2 <= 0 \/ ent A 0 * ent A 2 <= ent A 1 * ent A 1 \/
      exists r' s', ent y 0 = ent A 0 * r' + ent A 1 * s' /\ ent y 1 = ent A 1 * r' + ent A 2 * s' /\ 0 < ent A 0 + ent A 2 /\ ent A 1 * ent A 1 < ent A 0 * ent A 2 /\ ~ rect b0 b1 b2 b3 r' s').
  { intros Q. right. right. exists k0, k1. repeat (split; [auto; lra|]). auto. }
  destruct (Rle_dec 0 ((k0 - b0) * (b1 - k0))) as [K0|K0]; [|apply Con, Out; intros [Q _]; apply K0, between; lra].
  destruct (Rle_dec 0 ((k1 - b2) * (b3 - k1))) as [K1|K1]; [|apply Con, Out; intros [_ Q]; apply K1, between; lra].
  apply between in K0; [|lra]. apply between in K1; [|lra]. apply Fin; [split; auto| |exists fl; auto].
  intros u1 u2 _. assert (E : face_eval A y u1 u2 - face_eval A y k0 k1 = (ent A 0 * (u1 - k0) * (u1 - k0) + 2 * ent A 1 * (u1 - k0) * (u2 - k1) + ent A 2 * (u2 - k1) * (u2 - k1)) / 2) by (unfold face_eval; rewrite S0, S1; field).
  set (u := u1 - k0) in *. set (v := u2 - k1) in *. set (h := ent A 0 * u * u + 2 * ent A 1 * u * v + ent A 2 * v * v) in *.
  assert (Ap : 0 < ent A 0) by (destruct (Rlt_dec 0 (ent A 0)) as [|Hx]; [auto|exfalso; assert (ent A 0 * ent A 2 <= 0) by nra; pose proof (Rle_0_sqr (ent A 1)) as Sq; unfold Rsqr in Sq; lra]).
  assert (0 <= h).
  { apply (Rmult_le_reg_l (ent A 0)); [auto|]. rewrite Rmult_0_r. replace (ent A 0 * h) with ((ent A 0 * u + ent A 1 * v) * (ent A 0 * u + ent A 1 * v) + D * (v * v)) by (unfold h, D; ring).
    pose proof (Rle_0_sqr (ent A 0 * u + ent A 1 * v)) as Sa. pose proof (Rle_0_sqr v) as Sb. unfold Rsqr in Sa, Sb. assert (0 <= D * (v * v)) by (apply Rmult_le_pos; unfold D; lra). lra. }
  lra.
Qed.

(** ** newton_edge *)
Lemma newton_edge3_ok out jac rhes resid de dn1 dn2 fl p tol : (de < 3)%nat -> (dn1 < 3)%nat -> (dn2 < 3)%nat -> de <> dn1 -> de <> dn2 -> dn1 <> dn2 ->
  In fl all27 -> con fl de = 0%N -> constrained3 fl (pr p) -> in_box3 (pr p) -> 0 < tr p ->
  let A := colcol jac de de - rhes in let y := col jac resid de in
  exists t f, let r' := upd (pr p) de (ent (pr p) de + t) in
    moved (pr p) r' (tr p) f /\
    (forall t', Rabs t' <= tr p -> -1 <= ent (pr p) de + t' <= 1 -> quad A y t <= quad A y t') /\
    newton_edge3 out jac rhes resid de dn1 dn2 fl p tol =
      Ok (set_step out r' (- quad A y t) (N.lor (if Rlt_dec (Rabs t) tol then N.lor f CONVERGED_FLAG3 else f) (shl (flags p) 7))).
Proof.
  intros Hde Hn1 Hn2 N1 N2 N12 Hfl C0 Hc [Lr Br] Ht A y. set (old := ent (pr p) de). pose proof (Br de Hde) as Bo. fold old in Bo.
  assert (Ru : forall v, upd (upd (upd [0; 0; 0] de v) dn1 (ent (pr p) dn1)) dn2 (ent (pr p) dn2) = upd (pr p) de v).
  { intros v. destruct (pr p) as [|a [|b [|c [|? ?]]]]; try discriminate. clear - Hde Hn1 Hn2 N1 N2 N12. dim3 de Hde; dim3 dn1 Hn1; try congruence; dim3 dn2 Hn2; try congruence; reflexivity. }
  assert (Fin : forall t nr nf, nr = old + t -> Rabs t <= tr p -> -1 <= old + t <= 1 ->
     (nf = 0%N \/ exists f, is_side f /\ nf = N.lor fl (at_dir f de) /\ old + t = sg f) ->
     (forall t', Rabs t' <= tr p -> -1 <= old + t' <= 1 -> quad A y t <= quad A y t') ->
     exists t1 f, let r' := upd (pr p) de (old + t1) in moved (pr p) r' (tr p) f /\
       (forall t', Rabs t' <= tr p -> -1 <= old + t' <= 1 -> quad A y t1 <= quad A y t') /\
       Ok (set_step out (upd (upd (upd [0; 0; 0] de nr) dn1 (ent (pr p) dn1)) dn2 (ent (pr p) dn2)) (- quad A y t)
         (N.lor (N.lor fl (if Rlt_dec (Rabs t) tol then N.lor nf CONVERGED_FLAG3 else nf)) (shl (flags p) 7))) =
       Ok (set_step out r' (- quad A y t1) (N.lor (if Rlt_dec (Rabs t1) tol then N.lor f CONVERGED_FLAG3 else f) (shl (flags p) 7)))).
  { intros t nr nf -> T1 T2 F Mn. exists t, (N.lor fl nf). cbv zeta.
    assert (X : ent (upd (pr p) de (old + t)) de = old + t) by (rewrite ent_upd, Nat.eqb_refl by lia; auto).
    assert (Xn : forall e, e <> de -> ent (upd (pr p) de (old + t)) e = ent (pr p) e) by (intros e Ne; rewrite ent_upd by lia; destruct (Nat.eqb_spec e de); [contradiction|auto]).
    assert (Hc' : constrained3 fl (upd (pr p) de (old + t))) by (intros e He; destruct (Nat.eq_dec e de) as [->|Ne]; [auto|rewrite Xn by auto; apply Hc; auto]).
    assert (F' : N.lor fl nf = fl \/ exists f, is_side f /\ N.lor fl nf = N.lor fl (at_dir f de) /\ old + t = sg f).
    { destruct F as [->|(f & Hf & -> & E)]; [left; apply N.lor_0_r|right]. exists f. split; [auto|]. split; [|auto]. rewrite N.lor_assoc, N.lor_diag. auto. }
    destruct (flag_new fl _ de (old + t) Hfl Hde C0 Hc' _ F' X) as (I & Cn & _). split; [|split; [auto|]].
    - constructor; auto.
      + split; [rewrite upd_length; auto|]. intros e He. destruct (Nat.eq_dec e de) as [->|Ne]; [rewrite X; auto|rewrite Xn by auto; auto].
      + intros e He. destruct (Nat.eq_dec e de) as [->|Ne]; [rewrite X; fold old; replace (old + t - old) with t by ring; auto|]. rewrite Xn, Rminus_diag_eq, Rabs_R0 by auto. lra.
    - rewrite Ru. do 2 f_equal. f_equal. destruct (Rlt_dec (Rabs t) tol); [apply N.lor_assoc|auto]. }
  unfold newton_edge3. fold A y old.
  set (ends := let '(nr, dr, nf) := if Rlt_dec (-1) (old - tr p) then (old - tr p, - tr p, 0%N) else (-1, -1 - old, N.lor fl (at_dir 1 de)) in _).
  assert (Ends : (A <= 0 \/ y / A <= lbd (tr p) old - old \/ ubd (tr p) old - old <= y / A) -> exists t f, let r' := upd (pr p) de (old + t) in moved (pr p) r' (tr p) f /\
    (forall t', Rabs t' <= tr p -> -1 <= old + t' <= 1 -> quad A y t <= quad A y t') /\
    ends = Ok (set_step out r' (- quad A y t) (N.lor (if Rlt_dec (Rabs t) tol then N.lor f CONVERGED_FLAG3 else f) (shl (flags p) 7)))).
  { intros C. set (lo := lbd (tr p) old - old) in *. set (hi := ubd (tr p) old - old) in *.
    assert (In1 : forall t', (Rabs t' <= tr p /\ -1 <= old + t' <= 1) <-> lo <= t' <= hi) by (intros t'; apply in_bound; auto).
    assert (Bk : lo <= 0 <= hi) by (apply In1; split; [rewrite Rabs_R0; lra|lra]).
    assert (X1 : exists nf, (if Rlt_dec (-1) (old - tr p) then (old - tr p, - tr p, 0%N) else (-1, -1 - old, N.lor fl (at_dir 1 de))) = (old + lo, lo, nf) /\
      (nf = 0%N \/ exists f, is_side f /\ nf = N.lor fl (at_dir f de) /\ old + lo = sg f)).
    { unfold lo, lbd. destruct (Rlt_dec (-1) (old - tr p)); (eexists; split; [apply f_equal2; [apply f_equal2; ring|reflexivity]|]); [left; auto|right]. exists 1%N. split; [left; auto|]. split; [auto|]. unfold sg. cbn [N.eqb Pos.eqb]. ring. }
    assert (X2 : exists nf, (if Rlt_dec (old + tr p) 1 then (old + tr p, tr p, 0%N) else (1, 1 - old, N.lor fl (at_dir 2 de))) = (old + hi, hi, nf) /\
      (nf = 0%N \/ exists f, is_side f /\ nf = N.lor fl (at_dir f de) /\ old + hi = sg f)).
    { unfold hi, ubd. destruct (Rlt_dec (old + tr p) 1); (eexists; split; [apply f_equal2; [apply f_equal2; ring|reflexivity]|]); [left; auto|right]. exists 2%N. split; [right; auto|]. split; [auto|]. unfold sg. cbn [N.eqb Pos.eqb]. ring. }
    destruct X1 as (n1 & E1 & F1). destruct X2 as (n2 & E2 & F2). unfold ends. rewrite E1, E2.
    pose proof (quad_min A y lo hi ltac:(lra) C) as Q. change ((hi * A - 2 * y) * hi) with (quad A y hi). change ((lo * A - 2 * y) * lo) with (quad A y lo).
    destruct (Rlt_dec (quad A y hi) (quad A y lo)) as [Hl|Hl]; apply Fin; auto; try (apply In1; lra); intros t' T1 T2; specialize (Q t' (proj1 (In1 t') (conj T1 T2))); unfold Rmin in Q; destruct (Rle_dec (quad A y lo) (quad A y hi)); lra. }
  destruct (Rlt_dec 0 A) as [HA|HA]; [|apply Ends; left; lra]. rewrite dv_ok by lra. cbn [bind]. set (t := y / A) in *.
  assert (Far : ~ (lbd (tr p) old - old < t < ubd (tr p) old - old) -> t <= lbd (tr p) old - old \/ ubd (tr p) old - old <= t) by (intros Q; destruct (Rle_dec t (lbd (tr p) old - old)); [auto|right]; destruct (Rle_dec (ubd (tr p) old - old) t); [auto|exfalso; apply Q; lra]).
  destruct (bd_ok (tr p) Ht old Bo) as (_ & Lim & _).
  destruct (Rlt_dec (Rabs t) (tr p)) as [T1|T1]; [destruct (Rlt_dec (Rabs (old + t)) 1) as [T2|T2]|].
  - change ((t * A - 2 * y) * t) with (quad A y t). apply abs_lt in T2. apply Fin; auto; try lra. intros t' _ _. apply quad_top. auto.
  - apply Ends. right. apply Far. intros Q. apply T2, abs_lt. lra.
  - apply Ends. right. apply Far. intros Q. apply T1, abs_lt. lra.
Qed.
