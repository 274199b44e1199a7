(** newton_area and newton_edge. *)
From Verif Require Import Base BaseLemmas Poly FindptsEl2 FindptsEl2Proof1.
From Coq Require Import Reals Lra Psatz NArith.
Open Scope R_scope.

(** The constraints of fl hold at r. *)
Definition constrained (fl : N) (r : list R) : Prop :=
  forall d, (d < 2)%nat -> con fl d = 0%N \/ (con fl d = 1%N /\ ent r d = -1) \/ (con fl d = 2%N /\ ent r d = 1).
Definition in_box (r : list R) : Prop := length r = 2%nat /\ forall d, (d < 2)%nat -> -1 <= ent r d <= 1.

Lemma abs_in x t : Rabs x <= t -> - t <= x <= t.
Proof. intros H. pose proof (Rle_abs x). pose proof (Rle_abs (- x)). rewrite Rabs_Ropp in *. lra. Qed.
(** ** Flags *)
Definition nine : list N := [0; 1; 2; 4; 5; 6; 8; 9; 10]%N.
Ltac nines H := unfold nine in H; cbn [In] in H; repeat (destruct H as [<-|H]; [|]); [..|contradiction].
Lemma nine_one s d : is_side s -> (d < 2)%nat -> In (at_dir s d) nine.
Proof. intros [->| ->] H; destruct d as [|[|d]]; try lia; vm_compute; tauto. Qed.
Lemma nine_two s t d : is_side s -> is_side t -> (d < 2)%nat -> In (N.lor (at_dir s d) (at_dir t (1 - d))) nine.
Proof. intros [->| ->] [->| ->] H; destruct d as [|[|d]]; try lia; vm_compute; tauto. Qed.
Lemma nine_con fl d : In fl nine -> (d < 2)%nat -> con fl d = 0%N \/ is_side (con fl d).
Proof. intros H Hd. unfold is_side. nines H; destruct d as [|[|d]]; try lia; vm_compute; tauto. Qed.
Lemma nine_lt fl : In fl nine -> (fl < 16)%N.
Proof. intros H. nines H; reflexivity. Qed.
Lemma nine_conv fl d : In fl nine -> (d < 2)%nat -> con (N.lor fl CONVERGED_FLAG) d = con fl d.
Proof. intros H Hd. nines H; destruct d as [|[|d]]; try lia; reflexivity. Qed.
Lemma nine_ext f g : In f nine -> In g nine -> con f 0 = con g 0 -> con f 1 = con g 1 -> f = g.
Proof. intros A B. nines A; nines B; intros X Y; vm_compute in X, Y; try discriminate; auto. Qed.

Lemma shl5_low fl h : (fl < 32)%N -> N.land (N.lor fl (shl h 5)) FLAG_MASK = fl.
Proof.
  intros H. change FLAG_MASK with (N.ones 5). rewrite N.land_lor_distr_l. rewrite (N.land_ones fl), N.mod_small by exact H.
  rewrite N.land_ones. unfold shl, u32. rewrite N.shiftl_mul_pow2.
  replace ((h * 2 ^ 5) mod 2 ^ 32 mod 2 ^ 5)%N with 0%N; [apply N.lor_0_r|].
  symmetry. replace (2 ^ 32)%N with (2 ^ 5 * 2 ^ 27)%N by reflexivity. rewrite N.mul_comm. rewrite N.mul_mod_distr_l by discriminate.
  rewrite N.mul_comm. apply N.mod_mul. discriminate.
Qed.
Lemma shl5_high fl h : (fl < 32)%N -> N.land (N.shiftr (N.lor fl (shl h 5)) 5) FLAG_MASK = N.land h FLAG_MASK.
Proof.
  intros H. rewrite N.shiftr_lor. rewrite (N.shiftr_div_pow2 fl), N.div_small by exact H. rewrite N.lor_0_l.
  unfold shl, u32. rewrite N.shiftr_div_pow2, N.shiftl_mul_pow2. change FLAG_MASK with (N.ones 5). rewrite !N.land_ones.
  replace (2 ^ 32)%N with (2 ^ 5 * 2 ^ 27)%N by reflexivity. rewrite (N.mul_comm h). rewrite N.mul_mod_distr_l by discriminate.
  rewrite (N.mul_comm (2 ^ 5)), N.div_mul by discriminate.
  replace (2 ^ 27)%N with (2 ^ 5 * 2 ^ 22)%N by reflexivity. rewrite N.mod_mul_r by discriminate.
  rewrite N.add_comm, N.mul_comm, N.add_comm. rewrite N.mod_add by discriminate. apply N.mod_mod. discriminate.
Qed.

(** ** The bounds *)
Section Bounds.
Variable p q tr : R.
Hypothesis Hp : -1 <= p <= 1.
Hypothesis Hq : -1 <= q <= 1.
Hypothesis Ht : 0 < tr.
Lemma bounds_ok : let r0 := [p; q] in exists bnd mask, area_bounds r0 tr = (bnd, mask) /\
  (forall d, (d < 2)%nat -> ent bnd (2 * d) - ent r0 d <= 0 <= ent bnd (2 * d + 1) - ent r0 d /\ ent bnd (2 * d) - ent r0 d < ent bnd (2 * d + 1) - ent r0 d) /\
  (forall d, (d < 2)%nat -> -1 <= ent bnd (2 * d) /\ ent bnd (2 * d + 1) <= 1 /\ ent r0 d - tr <= ent bnd (2 * d) /\ ent bnd (2 * d + 1) <= ent r0 d + tr) /\
  (forall d, (d < 2)%nat -> (ent bnd (2 * d) = -1 \/ ent bnd (2 * d) = ent r0 d - tr) /\ (ent bnd (2 * d + 1) = 1 \/ ent bnd (2 * d + 1) = ent r0 d + tr)) /\
  forall fl, In fl nine -> In (N.land fl mask) nine /\ forall d, (d < 2)%nat ->
    con (N.land fl mask) d = 0%N \/ (con (N.land fl mask) d = con fl d /\ is_side (con fl d) /\ side_bound (ent bnd (2 * d)) (ent bnd (2 * d + 1)) (con fl d) = sg (con fl d)).
Proof.
  intros r0. unfold area_bounds, r0. cbn [fold_left ent nth Nat.mul Nat.add upd].
  destruct (Rlt_dec (-1) (p - tr)) as [A|A]; destruct (Rlt_dec (p + tr) 1) as [B|B]; destruct (Rlt_dec (-1) (q - tr)) as [C|C]; destruct (Rlt_dec (q + tr) 1) as [D|D];
  (eexists; eexists; split; [reflexivity|]; split; [|split; [|split]]);
  try (intros d Hd; destruct d as [|[|d]]; try lia; cbn [ent nth Nat.mul Nat.add upd]; repeat split; lra).
  all: try (intros d Hd; destruct d as [|[|d]]; try lia; cbn [ent nth Nat.mul Nat.add upd]; split; (left; lra) || (right; lra)).
  all: intros fl Hf; nines Hf; match goal with |- context [N.land ?f ?m] => let v := eval vm_compute in (N.land f m) in change (N.land f m) with v end; (split; [vm_compute; tauto|]).
  all: intros d Hd; destruct d as [|[|d]]; try lia;
    match goal with |- con ?a ?d = _ \/ (_ = con ?b _ /\ _) => let u := eval vm_compute in (con a d) in let v := eval vm_compute in (con b d) in change (con a d) with u; change (con b d) with v end;
    (left; reflexivity) || (right; split; [reflexivity|]; split; [unfold is_side; tauto|]; cbn [ent nth Nat.mul Nat.add upd]; unfold side_bound, sg; cbn [N.eqb Pos.eqb]; lra).
Qed.
End Bounds.

(** ** The first bound *)
Section First.
Variable jac resid r0 bnd NN : list R.
Notation lo d := (ent bnd (2 * d) - ent r0 d).
Notation hi d := (ent bnd (2 * d + 1) - ent r0 d).
Hypothesis Box : forall d, (d < 2)%nat -> lo d <= 0 <= hi d /\ lo d < hi d.
Definition inside (d : nat) : Prop := lo d <= ent NN d <= hi d.
Definition first_step : R * N -> nat -> res (R * N) := fun '(fac, flags) d =>
    let nr := ent r0 d + ent NN d in
    if Rle_dec 0 ((nr - ent bnd (2 * d)) * (ent bnd (2 * d + 1) - nr)) then Ok (fac, flags) else
    if Rlt_dec nr (ent bnd (2 * d)) then
      f <- dv (ent bnd (2 * d) - ent r0 d) (ent NN d) ;;
      Ok (if Rlt_dec f fac then (f, at_dir 1 d) else (fac, flags))
    else
      f <- dv (ent bnd (2 * d + 1) - ent r0 d) (ent NN d) ;;
      Ok (if Rlt_dec f fac then (f, at_dir 2 d) else (fac, flags)).
Lemma first_step_ok fac fl d : (d < 2)%nat -> 0 <= fac <= 1 ->
  (inside d /\ first_step (fac, fl) d = Ok (fac, fl)) \/
  (exists s f, is_side s /\ beyond r0 bnd NN s d /\ 0 <= f < 1 /\ f * ent NN d = side_bound (lo d) (hi d) s /\
     first_step (fac, fl) d = Ok (if Rlt_dec f fac then (f, at_dir s d) else (fac, fl))).
Proof.
  intros Hd Hf. unfold first_step, inside. pose proof (Box d Hd) as B. set (nr := ent r0 d + ent NN d).
  destruct (Rle_dec 0 ((nr - ent bnd (2 * d)) * (ent bnd (2 * d + 1) - nr))) as [H|H].
  - left. split; [|auto]. unfold nr in H. set (l := ent bnd (2 * d)) in *. set (u := ent bnd (2 * d + 1)) in *.
    split; match goal with |- ?a <= ?b => destruct (Rle_dec a b) as [|Hc]; [auto|exfalso] end; nra.
  - right. destruct (Rlt_dec nr (ent bnd (2 * d))) as [Hl|Hl].
    + assert (ent NN d < 0) by (unfold nr in Hl; lra). rewrite dv_ok by lra. cbn [bind].
      set (f := (ent bnd (2 * d) - ent r0 d) / ent NN d). assert (E : f * ent NN d = lo d) by (unfold f; field; lra).
      exists 1%N, f. split; [left; auto|]. split; [unfold beyond, nr in *; cbn [N.eqb Pos.eqb]; lra|]. split; [|split; [unfold side_bound; cbn [N.eqb Pos.eqb]; auto|auto]].
      unfold nr in Hl. split.
      * destruct (Rle_dec 0 f) as [|Hc]; [auto|exfalso]. assert (0 < (- f) * (- ent NN d)) by (apply Rmult_lt_0_compat; lra). lra.
      * destruct (Rlt_dec f 1) as [|Hc]; [auto|exfalso]. assert (0 <= (f - 1) * (- ent NN d)) by (apply Rmult_le_pos; lra). lra.
    + assert (Hu : ent bnd (2 * d + 1) < nr) by (destruct (Rlt_dec (ent bnd (2 * d + 1)) nr); [auto|exfalso; nra]).
      assert (0 < ent NN d) by (unfold nr in Hu; lra). rewrite dv_ok by lra. cbn [bind].
      set (f := (ent bnd (2 * d + 1) - ent r0 d) / ent NN d). assert (E : f * ent NN d = hi d) by (unfold f; field; lra).
      exists 2%N, f. split; [right; auto|]. split; [unfold beyond, nr in *; cbn [N.eqb Pos.eqb]; lra|]. split; [|split; [unfold side_bound; cbn [N.eqb Pos.eqb]; auto|auto]].
      unfold nr in Hu. split.
      * destruct (Rle_dec 0 f) as [|Hc]; [auto|exfalso]. assert (0 < (- f) * (ent NN d)) by (apply Rmult_lt_0_compat; lra). lra.
      * destruct (Rlt_dec f 1) as [|Hc]; [auto|exfalso]. assert (0 <= (f - 1) * (ent NN d)) by (apply Rmult_le_pos; lra). lra.
Qed.
Lemma scale_inside d fac : (d < 2)%nat -> 0 <= fac <= 1 -> inside d -> lo d <= ent NN d * fac <= hi d.
Proof. intros Hd Hf [A B]. pose proof (Box d Hd) as [[B1 B2] _]. split; nra. Qed.
Lemma scale_beyond s d f fac : is_side s -> (d < 2)%nat -> 0 <= fac <= f -> f * ent NN d = side_bound (lo d) (hi d) s -> lo d <= ent NN d * fac <= hi d.
Proof.
  intros Hs Hd Hf E. pose proof (Box d Hd) as [[B1 B2] _]. destruct Hs as [->| ->]; unfold side_bound in E; cbn [N.eqb Pos.eqb] in E;
  destruct (Rle_dec 0 (ent NN d)); split; nra.
Qed.

Lemma first_ok : (inside 0 /\ inside 1 /\ area_first r0 NN bnd = Ok (1, 0%N)) \/
  (exists fac s d, is_side s /\ (d < 2)%nat /\ beyond r0 bnd NN s d /\ 0 <= fac <= 1 /\ area_first r0 NN bnd = Ok (fac, at_dir s d) /\
     ent NN d * fac = side_bound (lo d) (hi d) s /\ forall e, (e < 2)%nat -> lo e <= ent NN e * fac <= hi e).
Proof.
  change (area_first r0 NN bnd) with (foldM first_step [0; 1]%nat (1, 0%N)). cbn [foldM].
  destruct (first_step_ok 1 0%N 0) as [[I0 E0]|(s & f & Hs & B & Hf & Hb & E0)]; [lia|lra| |]; rewrite E0; cbn [bind].
  - destruct (first_step_ok 1 0%N 1) as [[I1 E1]|(s & f & Hs & B & Hf & Hb & E1)]; [lia|lra| |]; rewrite E1; cbn [bind]; [left; auto|].
    destruct (Rlt_dec f 1); [|lra]. right. exists f, s, 1%nat. repeat split; auto; try lra.
    + destruct e as [|[|e]]; [| |lia]; [apply scale_inside; auto; lra|apply (scale_beyond s 1 f f); auto; lra].
    + destruct e as [|[|e]]; [| |lia]; [apply scale_inside; auto; lra|apply (scale_beyond s 1 f f); auto; lra].
  - destruct (Rlt_dec f 1); [|lra].
    destruct (first_step_ok f (at_dir s 0) 1) as [[I1 E1]|(t & g & Hs' & B' & Hg & Hb' & E1)]; [lia|lra| |]; rewrite E1; cbn [bind].
    + right. exists f, s, 0%nat. repeat split; auto; try lra; try lia.
      * destruct e as [|[|e]]; [| |lia]; [apply (scale_beyond s 0 f f); auto; lra|apply scale_inside; auto; lra].
      * destruct e as [|[|e]]; [| |lia]; [apply (scale_beyond s 0 f f); auto; lra|apply scale_inside; auto; lra].
    + right. destruct (Rlt_dec g f).
      * exists g, t, 1%nat. repeat split; auto; try lra.
        -- destruct e as [|[|e]]; [| |lia]; [apply (scale_beyond s 0 f g); auto; lra|apply (scale_beyond t 1 g g); auto; lra].
        -- destruct e as [|[|e]]; [| |lia]; [apply (scale_beyond s 0 f g); auto; lra|apply (scale_beyond t 1 g g); auto; lra].
      * exists f, s, 0%nat. repeat split; auto; try lra; try lia.
        -- destruct e as [|[|e]]; [| |lia]; [apply (scale_beyond s 0 f f); auto; lra|apply (scale_beyond t 1 g f); auto; lra].
        -- destruct e as [|[|e]]; [| |lia]; [apply (scale_beyond s 0 f f); auto; lra|apply (scale_beyond t 1 g f); auto; lra].
Qed.
End First.

(** ** newton_area *)
Section Step.
Variable jac resid : list R.
Notation J := (ent jac).
Notation obj := (obj jac resid).
Hypothesis Det : J 0 * J 3 - J 1 * J 2 <> 0.
(** J^T (resid - J dr). *)
Definition pull (dr : list R) (d : nat) : R := let '(a, b) := lin_res jac resid dr in J d * a + J (2 + d) * b.
Definition newton_dir : list R :=
  let i := 1 / (J 0 * J 3 - J 1 * J 2) in [i * (J 3 * ent resid 0 - J 1 * ent resid 1); i * (J 0 * ent resid 1 - J 2 * ent resid 0)].
Lemma solve_ok : lin_solve_2 jac resid = Ok newton_dir.
Proof. unfold lin_solve_2. rewrite dv_ok by auto. reflexivity. Qed.
Lemma newton_sol : lin_res jac resid newton_dir = (0, 0).
Proof. unfold lin_res, newton_dir, ent. cbn [nth]. fold (J 0) (J 1) (J 2) (J 3) (ent resid 0) (ent resid 1). f_equal; field; auto. Qed.
Lemma pull_grad dr d : (d < 2)%nat -> pull dr d = grad jac newton_dir dr d.
Proof. intros Hd. unfold pull. pose proof (grad_lin jac resid newton_dir newton_sol dr d Hd) as G. destruct (lin_res jac resid dr). exact G. Qed.

(** What a step dr from r0 with the flags fl satisfies. *)
Record stepped (r0 dr : list R) (tr : R) (fl : N) : Prop := {
  st_len : length dr = 2%nat;
  st_nine : In fl nine;
  st_box : in_box [ent r0 0 + ent dr 0; ent r0 1 + ent dr 1];
  st_con : constrained fl [ent r0 0 + ent dr 0; ent r0 1 + ent dr 1];
  st_tr : forall d, (d < 2)%nat -> Rabs (ent dr d) <= tr;
  st_dec : obj dr <= obj [0; 0];
  st_min : (forall d, (d < 2)%nat -> -1 < ent r0 d < 1) -> forall dr', (forall d, (d < 2)%nat -> Rabs (ent dr' d) <= tr /\ -1 <= ent r0 d + ent dr' d <= 1) -> obj dr <= obj dr';
  st_zero : ent dr 0 = 0 -> ent dr 1 = 0 -> (exists d, (d < 2)%nat /\ -1 < ent r0 d < 1) ->
    forall d, (d < 2)%nat -> pull [0; 0] d = 0 \/ (ent r0 d = 1 /\ 0 < pull [0; 0] d) \/ (ent r0 d = -1 /\ pull [0; 0] d < 0);
  st_far : (forall d, (d < 2)%nat -> -1 <= ent r0 d + ent newton_dir d <= 1) ->
    (ent dr 0 = ent newton_dir 0 /\ ent dr 1 = ent newton_dir 1 /\ fl = 0%N) \/ exists d, (d < 2)%nat /\ Rabs (ent dr d) = tr;
  st_near : (forall d, (d < 2)%nat -> Rabs (ent newton_dir d) <= tr /\ -1 <= ent r0 d + ent newton_dir d <= 1) ->
    ent dr 0 = ent newton_dir 0 /\ ent dr 1 = ent newton_dir 1 /\ fl = 0%N }.

Lemma newton_area_ok out p tol : in_box (pr p) -> 0 < tr p ->
  exists dr fl, stepped (pr p) dr (tr p) fl /\
    newton_area out jac resid p tol = Ok (set_step out [ent (pr p) 0 + ent dr 0; ent (pr p) 1 + ent dr 1] (obj [0; 0] - obj dr)
      (N.lor (if Rlt_dec (Rabs (ent dr 0) + Rabs (ent dr 1)) tol then N.lor fl CONVERGED_FLAG else fl) (shl (flags p) 5))).
Proof.
  intros [Lr Br] Ht. destruct (pr p) as [|a [|b [|? ?]]] eqn:Er; try discriminate.
  pose proof (Br 0%nat ltac:(lia)) as Ha. pose proof (Br 1%nat ltac:(lia)) as Hb. cbn in Ha, Hb.
  destruct (bounds_ok a b (tr p) Ha Hb Ht) as (bnd & mask & Eb & Bx & Lim & Alt & Mk). set (r0 := [a; b]) in *.
  set (NN := newton_dir).
  pose proof newton_sol as Sol. fold NN in Sol.
  (* the outcome before the flags are masked *)
  assert (Main : exists dr fl, (
    '(fac, fl) <- area_first r0 NN bnd ;;
    (if (fl =? 0)%N then Ok (NN, fl) else area_loop 4 jac resid r0 bnd [ent NN 0 * fac; ent NN 1 * fac] fl)) = Ok (dr, fl) /\
    feasible r0 bnd dr /\ obj dr <= obj [0; 0] /\ optimal jac r0 bnd NN dr fl /\ In fl nine /\
    ((fl = 0%N /\ dr = NN) \/ (fl <> 0%N /\ anchored jac r0 bnd NN dr fl))).
  { destruct (first_ok r0 bnd NN Bx) as [(I0 & I1 & E)|(fac & s & d & Hs & Hd & By & Hf & E & Eb' & Fe)]; rewrite E; cbn [bind].
    - exists NN, 0%N. split; [reflexivity|]. split; [split; [reflexivity|]; intros d Hd; destruct d as [|[|d]]; [auto|auto|lia]|]. split; [|split; [|split; [vm_compute; tauto|auto]]].
      + unfold FindptsEl2Proof1.obj at 1. rewrite Sol. unfold FindptsEl2Proof1.obj. destruct (lin_res jac resid [0; 0]). nra.
      + split; [|split].
        * intros d Hd. left. destruct d as [|[|d]]; try lia; reflexivity.
        * intros d Hd _. unfold grad, err. lra.
        * intros d Hd X. exfalso. apply X. destruct d as [|[|d]]; try lia; reflexivity.
    - assert (Nz : (at_dir s d =? 0)%N = false) by (destruct Hs as [->| ->]; destruct d as [|[|d]]; try lia; reflexivity). rewrite Nz.
      destruct (loop_ok jac resid r0 bnd NN Det Sol Bx s d [ent NN 0 * fac; ent NN 1 * fac] 2 Hs Hd) as (dr & fl & El & Fd & Ho & Op & An); auto.
      + split; [reflexivity|]. intros e He. specialize (Fe e He). destruct e as [|[|e]]; try lia; exact Fe.
      + destruct d as [|[|d]]; try lia; exact Eb'.
      + exists dr, fl. split; [exact El|]. split; [auto|]. split; [|split; [auto|]].
        * eapply Rle_trans; [exact Ho|]. rewrite !(obj_err jac resid NN Sol). unfold err. cbn [ent nth].
          set (x := ent NN 0). set (y := ent NN 1). change (nth 0 NN 0) with x. change (nth 1 NN 0) with y.
          assert (Q : 0 <= obj [0; 0]) by (unfold FindptsEl2Proof1.obj; destruct (lin_res jac resid [0; 0]); nra).
          rewrite (obj_err jac resid NN Sol) in Q. unfold err in Q. cbn [ent nth] in Q. fold x y in Q.
          match goal with |- ?l <= ?r => replace l with ((1 - fac) * (1 - fac) * r) by ring end.
          change (nth 0 NN 0) with x in *. change (nth 1 NN 0) with y in *.
          assert (0 <= (1 - fac) * (1 - fac) <= 1) by nra. nra.
        * destruct An as (d1 & s1 & Hs1 & Hd1 & C1 & B1 & C2 & FF).
          assert (Nf : In fl nine) by (destruct FF as [->|(t & Ht' & ->)]; [apply nine_one|apply nine_two]; auto).
          split; [auto|]. right. split; [|exists d1, s1; auto 8]. intros ->. destruct Hs1 as [->| ->]; destruct d1 as [|[|d1]]; try lia; discriminate C1. }
  destruct Main as (dr & flU & Em & [Ld Fd] & Ho & (Op1 & Op2 & Op3) & Nu & Cs).
  destruct (Mk flU Nu) as [Nf Cf]. set (fl := N.land flU mask) in *.
  assert (Rset : forall c d, (d < 2)%nat -> let f := if c : bool then N.lor fl CONVERGED_FLAG else fl in
    (if (con f d =? 0)%N then ent r0 d + ent dr d else if (con f d =? 1)%N then -1 else 1) = ent r0 d + ent dr d /\
    (con fl d = 0%N \/ (con fl d = 1%N /\ ent r0 d + ent dr d = -1) \/ (con fl d = 2%N /\ ent r0 d + ent dr d = 1))).
  { intros c d Hd f. replace (con f d) with (con fl d) by (unfold f; destruct c; [symmetry; apply nine_conv; auto|auto]).
    destruct (Cf d Hd) as [Z|(Z & Sd & Bd)]; [rewrite Z; auto|]. destruct (Op1 d Hd) as [Z'|[_ Hb']].
    { exfalso. rewrite Z' in Sd. destruct Sd; discriminate. }
    rewrite Z. destruct Sd as [Sd|Sd]; rewrite Sd in *; unfold side_bound, sg in Bd, Hb'; cbn [N.eqb Pos.eqb] in *; split; lra || (right; (left; split; [auto|lra]) || (right; split; [auto|lra])). }
  assert (Strict : forall d, (d < 2)%nat -> (ent bnd (2 * d) - ent r0 d = 0 -> ent r0 d = -1) /\ (ent bnd (2 * d + 1) - ent r0 d = 0 -> ent r0 d = 1)).
  { intros d Hd. destruct (Alt d Hd) as [[A|A] [A'|A']]; rewrite A, A'; split; intros; lra. }
  assert (Rd : forall d, (d < 2)%nat -> -1 <= ent r0 d <= 1) by (intros d Hd; destruct d as [|[|d]]; try lia; assumption).
  assert (Bd : forall d, (d < 2)%nat -> Rabs (ent dr d) <= tr p /\ -1 <= ent r0 d + ent dr d <= 1).
  { intros d Hd. specialize (Fd d Hd). specialize (Lim d Hd). split; [apply Rabs_le|]; lra. }
  exists dr, fl. split.
  - constructor.
    + auto.
    + auto.
    + split; [auto|]. intros d Hd. destruct d as [|[|d]]; [apply (Bd 0%nat)|apply (Bd 1%nat)|]; lia.
    + intros d Hd. destruct d as [|[|d]]; [apply (Rset true 0%nat)|apply (Rset true 1%nat)|]; lia.
    + intros d Hd. apply Bd. auto.
    + auto.
    + intros Int dr' Hf. pose proof (obj_convex jac resid NN Sol dr dr') as Cx.
      assert (T : forall d, (d < 2)%nat -> grad jac NN dr d * (ent dr' d - ent dr d) <= 0).
      { intros d Hd. destruct (Op1 d Hd) as [Z|[Sd Hb']]; [rewrite (Op2 d Hd Z); lra|]. assert (Z : con flU d <> 0%N) by (destruct Sd as [E|E]; rewrite E; discriminate).
        pose proof (Op3 d Hd Z) as G. destruct (Hf d Hd) as [H1 H2]. apply abs_in in H1. specialize (Lim d Hd). specialize (Int d Hd). destruct (Alt d Hd) as [Al Au]. specialize (Bx d Hd).
        destruct Sd as [E|E]; rewrite E in Hb'; unfold side_bound in Hb'; cbn [N.eqb Pos.eqb] in Hb'; rewrite Hb' in G |- *.
        - assert (ent bnd (2 * d) - ent r0 d < 0) by (destruct Al as [A|A]; rewrite A; lra). assert (grad jac NN dr d <= 0) by nra.
          assert (0 <= ent dr' d - (ent bnd (2 * d) - ent r0 d)) by (destruct Al as [A|A]; rewrite A; lra). nra.
        - assert (0 < ent bnd (2 * d + 1) - ent r0 d) by (destruct Au as [A|A]; rewrite A; lra). assert (0 <= grad jac NN dr d) by nra.
          assert (ent dr' d - (ent bnd (2 * d + 1) - ent r0 d) <= 0) by (destruct Au as [A|A]; rewrite A; lra). nra. }
      pose proof (T 0%nat ltac:(lia)). pose proof (T 1%nat ltac:(lia)). lra.
    + intros Z0 Z1 (e & He & Ie) d Hd.
      assert (Edr : forall g, pull [0; 0] g = pull dr g) by (intros g; unfold pull, lin_res; rewrite Z0, Z1; cbn [ent nth]; f_equal).
      rewrite Edr, pull_grad by auto. fold NN.
      assert (Zd : forall g, (g < 2)%nat -> ent dr g = 0) by (intros g Hg; destruct g as [|[|g]]; auto; lia).
      destruct Cs as [[-> ->]|[Nz (d1 & s1 & Hs1 & Hd1 & C1 & B1 & C2 & _)]]; [left; apply Op2; [auto|]; destruct d as [|[|d]]; try lia; reflexivity|].
      assert (Edge : forall g, (g < 2)%nat -> is_side (con flU g) -> ent r0 g = sg (con flU g)).
      { intros g Hg Sg. destruct (Op1 g Hg) as [Z|[_ Hb']]; [rewrite Z in Sg; destruct Sg; discriminate|]. rewrite (Zd g Hg) in Hb'.
        destruct Sg as [E|E]; rewrite E in *; unfold side_bound, sg in *; cbn [N.eqb Pos.eqb] in *; apply (Strict g Hg); auto. }
      assert (X1 : ent r0 d1 = sg s1) by (rewrite <- C1; apply Edge; auto; rewrite C1; auto).
      assert (Zo : con flU (1 - d1) = 0%N).
      { destruct (Op1 (1 - d1)%nat ltac:(lia)) as [Z|[S2 _]]; [auto|exfalso]. pose proof (Edge (1 - d1)%nat ltac:(lia) S2) as X2.
        destruct (Nat.eq_dec e d1) as [->|Hn]; [rewrite X1 in Ie; unfold sg in Ie; destruct (s1 =? 1)%N; lra|]. replace e with (1 - d1)%nat in Ie by lia. rewrite X2 in Ie. unfold sg in Ie. destruct (con flU (1 - d1) =? 1)%N; lra. }
      pose proof (Op2 (1 - d1)%nat ltac:(lia) Zo) as G0.
      destruct (Nat.eq_dec d d1) as [->|Hn]; [|left; replace d with (1 - d1)%nat by lia; auto]. right.
      assert (Gs : 0 < sg s1 * grad jac NN dr d1).
      { destruct (Op1 d1 Hd1) as [Z|[_ Hb']]; [rewrite Z in C1; subst s1; destruct Hs1; discriminate|]. rewrite C1 in Hb'.
        pose proof (beyond_err r0 bnd NN s1 d1 dr Hs1 Hb' B1) as Be.
        pose proof (hh_pos jac Det (1 - d1) ltac:(lia)) as Pe. pose proof (det_pair jac Det d1 Hd1) as Dt.
        rewrite (grad_pair jac NN dr (1 - d1)) in G0 by lia. replace (1 - (1 - d1))%nat with d1 in G0 by lia. rewrite (hh_sym jac (1 - d1) d1) in G0.
        rewrite (grad_pair jac NN dr d1) by auto. set (x := hh jac d1 (1 - d1)) in *. set (aa := hh jac d1 d1) in *. set (b' := hh jac (1 - d1) (1 - d1)) in *. set (u := err NN dr d1) in *. set (v := err NN dr (1 - d1)) in *.
        assert (Q : b' * (sg s1 * (aa * u + x * v)) = (aa * b' - x * x) * (sg s1 * u)) by (replace (b' * (sg s1 * (aa * u + x * v))) with (sg s1 * (aa * b' * u + x * (b' * v))) by ring; replace (b' * v) with (- (x * u)) by lra; ring).
        assert (0 < (aa * b' - x * x) * (sg s1 * u)) by (apply Rmult_lt_0_compat; lra). rewrite <- Q in H. apply (Rmult_lt_reg_l b'); lra. }
      rewrite X1. unfold sg in *. destruct (s1 =? 1)%N; [right|left]; split; lra.
    + intros Hin. destruct Cs as [[-> ->]|[Nz (d1 & s1 & Hs1 & Hd1 & C1 & B1 & C2 & _)]]; [left; auto|right].
      exists d1. split; [auto|]. specialize (Hin d1 Hd1). fold NN in Hin. destruct (Op1 d1 Hd1) as [Z|[_ Hb']]; [rewrite Z in C1; subst s1; destruct Hs1; discriminate|]. rewrite C1 in Hb'. rewrite Hb'.
      destruct (Alt d1 Hd1) as [Al Au]. destruct Hs1 as [->| ->]; unfold beyond, side_bound in *; cbn [N.eqb Pos.eqb] in *.
      * destruct Al as [A|A]; rewrite A in *; [lra|]. replace (ent r0 d1 - tr p - ent r0 d1) with (- tr p) by ring. rewrite Rabs_Ropp. apply Rabs_right. lra.
      * destruct Au as [A|A]; rewrite A in *; [lra|]. replace (ent r0 d1 + tr p - ent r0 d1) with (tr p) by ring. apply Rabs_right. lra.
    + intros Hin. destruct Cs as [[-> ->]|[Nz (d1 & s1 & Hs1 & Hd1 & C1 & B1 & C2 & _)]]; [auto|exfalso].
      destruct (Hin d1 Hd1) as [H1 H2]. fold NN in H1, H2. apply abs_in in H1. destruct (Alt d1 Hd1) as [Al Au].
      destruct Hs1 as [->| ->]; unfold beyond in *; cbn [N.eqb Pos.eqb] in *; [destruct Al as [A|A]|destruct Au as [A|A]]; rewrite A in *; lra.
  - unfold newton_area. rewrite Er. fold r0. rewrite Eb, solve_ok. cbn [bind]. fold NN.
    destruct (area_first r0 NN bnd) as [[fac f1]| | | ] eqn:E1; cbn [bind] in Em |- *; try discriminate. rewrite Em. cbn [bind]. fold fl.
    destruct (lin_res jac resid dr) as [a' b'] eqn:El. f_equal.
    assert (O0 : ent resid 0 * ent resid 0 + ent resid 1 * ent resid 1 = obj [0; 0]) by (unfold FindptsEl2Proof1.obj, lin_res; cbn [ent nth]; ring).
    assert (O1 : a' * a' + b' * b' = obj dr) by (unfold FindptsEl2Proof1.obj; rewrite El; auto). rewrite O0, O1.
    destruct (Rlt_dec (Rabs (ent dr 0) + Rabs (ent dr 1)) (tol)).
    + rewrite (proj1 (Rset true 0%nat ltac:(lia))), (proj1 (Rset true 1%nat ltac:(lia))). reflexivity.
    + rewrite (proj1 (Rset false 0%nat ltac:(lia))), (proj1 (Rset false 1%nat ltac:(lia))). reflexivity.
Qed.
End Step.

(** ** newton_edge *)
Definition quad (A y t : R) : R := (t * A - 2 * y) * t.
Lemma quad_min A y lo hi : lo <= hi -> (A <= 0 \/ y / A <= lo \/ hi <= y / A) -> forall t, lo <= t <= hi -> Rmin (quad A y lo) (quad A y hi) <= quad A y t.
Proof.
  intros Hb C t Ht. unfold quad.
  assert (K : forall a b, a <= t <= b -> A <= 0 -> (a * A - 2 * y) * a <= (t * A - 2 * y) * t \/ (b * A - 2 * y) * b <= (t * A - 2 * y) * t).
  { intros a b H HA. destruct (Rle_dec ((a * A - 2 * y) * a) ((t * A - 2 * y) * t)) as [|N1]; [auto|]. destruct (Rle_dec ((b * A - 2 * y) * b) ((t * A - 2 * y) * t)) as [|N2]; [auto|exfalso].
    assert (P1 : 0 < (a - t) * (A * (a + t) - 2 * y)) by nra. assert (P2 : 0 < (b - t) * (A * (b + t) - 2 * y)) by nra.
    assert (a < t) by (destruct (Req_dec a t) as [->|]; [nra|lra]). assert (t < b) by (destruct (Req_dec b t) as [->|]; [nra|lra]).
    assert (A * (a + t) - 2 * y < 0) by nra. assert (0 < A * (b + t) - 2 * y) by nra. nra. }
  destruct C as [C|C].
  - destruct (K lo hi Ht C); [eapply Rle_trans; [apply Rmin_l|auto]|eapply Rle_trans; [apply Rmin_r|auto]].
  - destruct (Rle_dec A 0) as [HA|HA].
    + destruct (K lo hi Ht HA); [eapply Rle_trans; [apply Rmin_l|auto]|eapply Rle_trans; [apply Rmin_r|auto]].
    + assert (E : y = (y / A) * A) by (field; lra). set (m := y / A) in *. destruct C as [C|C].
      * eapply Rle_trans; [apply Rmin_l|]. rewrite E. assert (0 <= (t - lo) * (t + lo - 2 * m)) by (apply Rmult_le_pos; lra). nra.
      * eapply Rle_trans; [apply Rmin_r|]. rewrite E. assert (0 <= (hi - t) * (2 * m - t - hi)) by (apply Rmult_le_pos; lra). nra.
Qed.
Lemma quad_top A y : 0 < A -> forall t, quad A y (y / A) <= quad A y t.
Proof. intros H t. unfold quad. assert (E : y = (y / A) * A) by (field; lra). set (m := y / A) in *. rewrite E. pose proof (Rle_0_sqr (t - m)) as S. unfold Rsqr in S. nra. Qed.

Lemma abs_lt x t : Rabs x < t <-> - t < x < t.
Proof. split; [intros H; apply Rabs_def2 in H; lra|]. intros [A B]. apply Rabs_def1; auto. Qed.

(** The step t of newton_edge from r0 along direction de, with the flags f (without the convergence flag). *)
Record slid (A y : R) (r0 : list R) (de : nat) (s : N) (tr t : R) (f : N) : Prop := {
  sl_tr : Rabs t <= tr;
  sl_box : -1 <= ent r0 de + t <= 1;
  sl_flag : f = at_dir s (1 - de) \/ (f = N.lor (at_dir s (1 - de)) (at_dir 1 de) /\ ent r0 de + t = -1) \/ (f = N.lor (at_dir s (1 - de)) (at_dir 2 de) /\ ent r0 de + t = 1);
  sl_min : forall t', Rabs t' <= tr -> -1 <= ent r0 de + t' <= 1 -> quad A y t <= quad A y t' }.

Lemma newton_edge_ok out jac rhes resid de s p tol : let dn := (1 - de)%nat in
  (de < 2)%nat -> is_side s -> in_box (pr p) -> 0 < tr p ->
  let A := ent jac de * ent jac de + ent jac (2 + de) * ent jac (2 + de) - rhes in
  let y := ent jac de * ent resid 0 + ent jac (2 + de) * ent resid 1 in
  exists t f, slid A y (pr p) de s (tr p) t f /\
    newton_edge out jac rhes resid de dn (at_dir s dn) p tol =
      Ok (set_step out (upd (pr p) de (ent (pr p) de + t)) (- quad A y t)
        (N.lor (if Rlt_dec (Rabs t) tol then N.lor f CONVERGED_FLAG else f) (shl (flags p) 5))).
Proof.
  intros dn Hde Hs [Lr Br] Ht A y. set (old := ent (pr p) de). pose proof (Br de Hde) as Bo. fold old in Bo.
  assert (Ru : forall v, upd (upd [0; 0] de v) dn (ent (pr p) dn) = upd (pr p) de v).
  { intros v. destruct (pr p) as [|a [|b [|? ?]]]; try discriminate. unfold dn. destruct de as [|[|de]]; try lia; reflexivity. }
  assert (Fl : forall (c : bool) nf, N.lor (at_dir s dn) (if c then N.lor nf CONVERGED_FLAG else nf) = if c then N.lor (N.lor (at_dir s dn) nf) CONVERGED_FLAG else N.lor (at_dir s dn) nf).
  { intros [|] nf; [apply N.lor_assoc|auto]. }
  assert (Fin : forall t nr nf, nr = old + t -> Rabs t <= tr p -> -1 <= old + t <= 1 ->
     (nf = 0%N \/ (nf = N.lor (at_dir s dn) (at_dir 1 de) /\ old + t = -1) \/ (nf = N.lor (at_dir s dn) (at_dir 2 de) /\ old + t = 1)) ->
     (forall t', Rabs t' <= tr p -> -1 <= old + t' <= 1 -> quad A y t <= quad A y t') ->
     exists t1 f, slid A y (pr p) de s (tr p) t1 f /\
       Ok (set_step out (upd (upd [0; 0] de nr) dn (ent (pr p) dn)) (- quad A y t)
         (N.lor (N.lor (at_dir s dn) (if Rlt_dec (Rabs t) tol then N.lor nf CONVERGED_FLAG else nf)) (shl (flags p) 5))) =
       Ok (set_step out (upd (pr p) de (ent (pr p) de + t1)) (- quad A y t1)
         (N.lor (if Rlt_dec (Rabs t1) tol then N.lor f CONVERGED_FLAG else f) (shl (flags p) 5)))).
  { intros t nr nf -> H1 H2 H3 H4. exists t, (N.lor (at_dir s dn) nf). split.
    - constructor; auto. fold dn old. destruct H3 as [->|[[-> E]|[-> E]]]; [left; apply N.lor_0_r|right; left|right; right]; (split; [|auto]); rewrite N.lor_assoc, N.lor_diag; auto.
    - rewrite Ru. fold old. do 2 f_equal. f_equal. destruct (Rlt_dec (Rabs t) tol); [apply N.lor_assoc|auto]. }
  unfold newton_edge. fold A y old.
  set (ends := let '(nr, dr, nf) := if Rlt_dec (-1) (old - tr p) then (old - tr p, - tr p, 0%N) else (-1, -1 - old, N.lor (at_dir s dn) (at_dir 1 de)) in _).
  assert (Ends : (A <= 0 \/ y / A <= Rmax (- tr p) (-1 - old) \/ Rmin (tr p) (1 - old) <= y / A) -> exists t f, slid A y (pr p) de s (tr p) t f /\
    ends = Ok (set_step out (upd (pr p) de (ent (pr p) de + t)) (- quad A y t)
        (N.lor (if Rlt_dec (Rabs t) tol then N.lor f CONVERGED_FLAG else f) (shl (flags p) 5)))).
  { intros C. set (lo := Rmax (- tr p) (-1 - old)) in *. set (hi := Rmin (tr p) (1 - old)) in *.
    assert (Hlo : lo <= 0) by (unfold lo; apply Rmax_lub; lra). assert (Hhi : 0 <= hi) by (unfold hi; apply Rmin_glb; lra).
    assert (In1 : forall t', Rabs t' <= tr p -> -1 <= old + t' <= 1 -> lo <= t' <= hi).
    { intros t' H1 H2. apply abs_in in H1. unfold lo, hi. split; [apply Rmax_lub; lra|apply Rmin_glb; lra]. }
    assert (In2 : forall t', lo <= t' <= hi -> Rabs t' <= tr p /\ -1 <= old + t' <= 1).
    { intros t' H. assert (- tr p <= lo) by apply Rmax_l. assert (-1 - old <= lo) by apply Rmax_r. assert (hi <= tr p) by apply Rmin_l. assert (hi <= 1 - old) by apply Rmin_r. split; [apply Rabs_le|]; lra. }
    assert (X1 : exists nf, (if Rlt_dec (-1) (old - tr p) then (old - tr p, - tr p, 0%N) else (-1, -1 - old, N.lor (at_dir s dn) (at_dir 1 de))) = (old + lo, lo, nf) /\
      (nf = 0%N \/ (nf = N.lor (at_dir s dn) (at_dir 1 de) /\ old + lo = -1))).
    { unfold lo, Rmax. destruct (Rlt_dec (-1) (old - tr p)), (Rle_dec (- tr p) (-1 - old)); try lra; (exists 0%N; split; [f_equal; f_equal; lra|auto]) || (exists (N.lor (at_dir s dn) (at_dir 1 de)); split; [f_equal; f_equal; lra|right; split; [reflexivity|lra]]). }
    assert (X2 : exists nf, (if Rlt_dec (old + tr p) 1 then (old + tr p, tr p, 0%N) else (1, 1 - old, N.lor (at_dir s dn) (at_dir 2 de))) = (old + hi, hi, nf) /\
      (nf = 0%N \/ (nf = N.lor (at_dir s dn) (at_dir 2 de) /\ old + hi = 1))).
    { unfold hi, Rmin. destruct (Rlt_dec (old + tr p) 1), (Rle_dec (tr p) (1 - old)); try lra; (exists 0%N; split; [f_equal; f_equal; lra|auto]) || (exists (N.lor (at_dir s dn) (at_dir 2 de)); split; [f_equal; f_equal; lra|right; split; [reflexivity|lra]]). }
    destruct X1 as (n1 & E1 & F1). destruct X2 as (n2 & E2 & F2). unfold ends. rewrite E1, E2.
    pose proof (quad_min A y lo hi ltac:(lra) C) as Q. change ((hi * A - 2 * y) * hi) with (quad A y hi). change ((lo * A - 2 * y) * lo) with (quad A y lo).
    destruct (Rlt_dec (quad A y hi) (quad A y lo)) as [Hl|Hl]; apply Fin; auto; try apply In2; try lra; try tauto; intros t' H1 H2; specialize (Q t' (In1 t' H1 H2)); unfold Rmin in Q; destruct (Rle_dec (quad A y lo) (quad A y hi)); lra. }
  destruct (Rlt_dec 0 A) as [HA|HA]; [|apply Ends; left; lra]. rewrite dv_ok by lra. cbn [bind]. set (t := y / A) in *.
  destruct (Rlt_dec (Rabs t) (tr p)) as [H1|H1]; [destruct (Rlt_dec (Rabs (old + t)) 1) as [H2|H2]|].
  - change ((t * A - 2 * y) * t) with (quad A y t). apply abs_lt in H2. apply Fin; auto; try lra. intros t' _ _. apply quad_top. auto.
  - apply Ends. right. assert (~ (-1 < old + t < 1)) by (intros Q; apply H2, abs_lt; auto). destruct (Rle_dec (old + t) (-1)).
    + left. eapply Rle_trans; [|apply Rmax_r]. lra.
    + right. eapply Rle_trans; [apply Rmin_r|]. lra.
  - apply Ends. right. assert (~ (- tr p < t < tr p)) by (intros Q; apply H1, abs_lt; auto). destruct (Rle_dec t (- tr p)).
    + left. eapply Rle_trans; [|apply Rmax_l]. lra.
    + right. eapply Rle_trans; [apply Rmin_l|]. lra.
Qed.
