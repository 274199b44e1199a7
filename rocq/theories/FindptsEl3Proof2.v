(** newton_vol, newton_face and newton_edge. *)
From Verif Require Import Base BaseLemmas Poly FindptsEl2 FindptsEl2Proof1 FindptsEl2Proof2 FindptsEl3 FindptsEl3Proof1.
From Coq Require Import Reals Lra Psatz NArith.
Open Scope R_scope.

(** The constraints of fl hold at r. *)
Definition constrained3 (fl : N) (r : list R) : Prop :=
  forall d, (d < 3)%nat -> con fl d = 0%N \/ (con fl d = 1%N /\ ent r d = -1) \/ (con fl d = 2%N /\ ent r d = 1).
Definition in_box3 (r : list R) : Prop := length r = 3%nat /\ forall d, (d < 3)%nat -> -1 <= ent r d <= 1.
Lemma lt27 fl : In fl all27 -> (fl < 64)%N.
Proof. intros H. flags27 H; reflexivity. Qed.
Lemma conv27 fl d : In fl all27 -> (d < 3)%nat -> con (N.lor fl CONVERGED_FLAG3) d = con fl d.
Proof. intros H Hd. flags27 H; dim3 d Hd; reflexivity. Qed.
Lemma con_land a b d : con (N.land a b) d = N.land (con a d) (con b d).
Proof. unfold con. rewrite N.shiftr_land. apply N.bits_inj. intros k. rewrite !N.land_spec. destruct (N.testbit 3 k); rewrite ?andb_true_r, ?andb_false_r; auto. Qed.
Lemma below64 m : (m < 64)%N -> In m (map N.of_nat (seq 0 64)).
Proof. intros H. apply in_map_iff. exists (N.to_nat m). split; [apply N2Nat.id|]. apply in_seq. lia. Qed.
Lemma mask27 fl m : In fl all27 -> (m < 64)%N -> In (N.land fl m) all27.
Proof.
  intros H Hm. apply below64 in Hm.
  assert (T : forallb (fun f => forallb (fun m => existsb (N.eqb (N.land f m)) all27) (map N.of_nat (seq 0 64))) all27 = true) by (vm_compute; reflexivity).
  rewrite forallb_forall in T. specialize (T fl H). rewrite forallb_forall in T. specialize (T m Hm). apply existsb_exists in T as (x & Hx & E). apply N.eqb_eq in E. rewrite E. auto.
Qed.
Lemma shl7_low fl h : (fl < 128)%N -> N.land (N.lor fl (shl h 7)) FLAG_MASK3 = fl.
Proof.
  intros H. change FLAG_MASK3 with (N.ones 7). rewrite N.land_lor_distr_l. rewrite (N.land_ones fl), N.mod_small by exact H.
  rewrite N.land_ones. unfold shl, u32. rewrite N.shiftl_mul_pow2.
  replace ((h * 2 ^ 7) mod 2 ^ 32 mod 2 ^ 7)%N with 0%N; [apply N.lor_0_r|].
  symmetry. replace (2 ^ 32)%N with (2 ^ 7 * 2 ^ 25)%N by reflexivity. rewrite N.mul_comm. rewrite N.mul_mod_distr_l by discriminate.
  rewrite N.mul_comm. apply N.mod_mul. discriminate.
Qed.
Lemma shl7_high fl h : (fl < 128)%N -> N.land (N.shiftr (N.lor fl (shl h 7)) 7) FLAG_MASK3 = N.land h FLAG_MASK3.
Proof.
  intros H. rewrite N.shiftr_lor. rewrite (N.shiftr_div_pow2 fl), N.div_small by exact H. rewrite N.lor_0_l.
  unfold shl, u32. rewrite N.shiftr_div_pow2, N.shiftl_mul_pow2. change FLAG_MASK3 with (N.ones 7). rewrite !N.land_ones.
  replace (2 ^ 32)%N with (2 ^ 7 * 2 ^ 25)%N by reflexivity. rewrite (N.mul_comm h). rewrite N.mul_mod_distr_l by discriminate.
  rewrite (N.mul_comm (2 ^ 7)), N.div_mul by discriminate.
  replace (2 ^ 25)%N with (2 ^ 7 * 2 ^ 18)%N by reflexivity. rewrite N.mod_mul_r by discriminate.
  rewrite N.add_comm, N.mul_comm, N.add_comm. rewrite N.mod_add by discriminate. apply N.mod_mod. discriminate.
Qed.

(** ** The bounds *)
Section Bounds3.
Variable tr : R.
Definition lbd (p : R) : R := if Rlt_dec (-1) (p - tr) then p - tr else -1.
Definition ubd (p : R) : R := if Rlt_dec (p + tr) 1 then p + tr else 1.
Definition bmask (p : R) : N := ((if Rlt_dec (-1) (p - tr) then 0 else 1) + (if Rlt_dec (p + tr) 1 then 0 else 2))%N.
Lemma vol_bounds_eq a b c : exists mask, vol_bounds [a; b; c] tr = ([lbd a; ubd a; lbd b; ubd b; lbd c; ubd c], mask) /\ (mask < 64)%N /\
  forall d, (d < 3)%nat -> con mask d = bmask (ent [a; b; c] d).
Proof.
  unfold vol_bounds, dims, lbd, ubd, bmask. cbn [fold_left ent nth Nat.mul Nat.add upd].
  destruct (Rlt_dec (-1) (a - tr)) as [A|A]; destruct (Rlt_dec (a + tr) 1) as [B|B]; destruct (Rlt_dec (-1) (b - tr)) as [C|C]; destruct (Rlt_dec (b + tr) 1) as [D|D]; destruct (Rlt_dec (-1) (c - tr)) as [E|E]; destruct (Rlt_dec (c + tr) 1) as [F|F];
  (eexists; split; [reflexivity|]; split; [reflexivity|]; intros d Hd; dim3 d Hd; cbn [nth]).
  all: repeat match goal with |- context [Rlt_dec ?x ?y] => destruct (Rlt_dec x y); try contradiction end; reflexivity.
Qed.
Hypothesis Ht : 0 < tr.
Lemma bd_ok p : -1 <= p <= 1 -> (lbd p - p <= 0 <= ubd p - p /\ lbd p - p < ubd p - p) /\ (-1 <= lbd p /\ ubd p <= 1 /\ p - tr <= lbd p /\ ubd p <= p + tr) /\
  ((lbd p = -1 \/ lbd p = p - tr) /\ (ubd p = 1 \/ ubd p = p + tr)) /\
  forall f, f = 0%N \/ is_side f -> N.land f (bmask p) = 0%N \/ (N.land f (bmask p) = f /\ is_side f /\ side_bound (lbd p) (ubd p) f = sg f).
Proof.
  intros H. unfold lbd, ubd, bmask. destruct (Rlt_dec (-1) (p - tr)); destruct (Rlt_dec (p + tr) 1); repeat split; try lra; try (left; lra); try (right; lra);
  intros f [->|[->| ->]]; cbn; auto; right; unfold is_side; repeat split; auto.
Qed.
End Bounds3.

(** ** The first bound *)
Section First3.
Variable r0 bnd NN : list R.
Notation lo d := (ent bnd (2 * d) - ent r0 d).
Notation hi d := (ent bnd (2 * d + 1) - ent r0 d).
Hypothesis Box : forall d, (d < 3)%nat -> lo d <= 0 <= hi d /\ lo d < hi d.
Definition inside3 (d : nat) : Prop := lo d <= ent NN d <= hi d.
Definition first_step3 : R * N -> nat -> res (R * N) := fun '(fac, flags) d =>
    let nr := ent r0 d + ent NN d in
    if Rle_dec 0 ((nr - ent bnd (2 * d)) * (ent bnd (2 * d + 1) - nr)) then Ok (fac, flags) else
    if Rlt_dec nr (ent bnd (2 * d)) then
      f <- dv (ent bnd (2 * d) - ent r0 d) (ent NN d) ;;
      Ok (if Rlt_dec f fac then (f, at_dir 1 d) else (fac, flags))
    else
      f <- dv (ent bnd (2 * d + 1) - ent r0 d) (ent NN d) ;;
      Ok (if Rlt_dec f fac then (f, at_dir 2 d) else (fac, flags)).
Lemma first_step3_ok fac fl d : (d < 3)%nat -> 0 <= fac <= 1 ->
  (inside3 d /\ first_step3 (fac, fl) d = Ok (fac, fl)) \/
  (exists s f, is_side s /\ beyond r0 bnd NN s d /\ 0 <= f < 1 /\ f * ent NN d = side_bound (lo d) (hi d) s /\
     first_step3 (fac, fl) d = Ok (if Rlt_dec f fac then (f, at_dir s d) else (fac, fl))).
Proof.
  intros Hd Hf. unfold first_step3, inside3. pose proof (Box d Hd) as B. set (nr := ent r0 d + ent NN d).
  destruct (Rle_dec 0 ((nr - ent bnd (2 * d)) * (ent bnd (2 * d + 1) - nr))) as [H|H].
  - left. split; [|auto]. unfold nr in H. set (l := ent bnd (2 * d)) in *. set (u := ent bnd (2 * d + 1)) in *.
    split; match goal with |- ?a <= ?b => destruct (Rle_dec a b) as [|Hc]; [auto|exfalso] end; nra.
  - right. destruct (Rlt_dec nr (ent bnd (2 * d))) as [Hl|Hl].
    + assert (ent NN d < 0) by (unfold nr in Hl; lra). rewrite dv_ok by lra. cbn [bind].
      set (f := (ent bnd (2 * d) - ent r0 d) / ent NN d). assert (E : f * ent NN d = lo d) by (unfold f; field; lra).
      exists 1%N, f. split; [left; auto|]. split; [unfold beyond, nr in *; cbn [N.eqb Pos.eqb]; lra|]. split; [|split; [unfold side_bound; cbn [N.eqb Pos.eqb]; auto|auto]].
      unfold nr in Hl. split.
      * destruct (Rle_dec 0 f) as [|Hc]; [auto|exfalso]. assert (0 < (- f) * (- ent NN d)) by (apply Rmult_lt_0_compat; lra). lra.
      * destruct (Rlt_dec f 1) as [|Hc]; [auto|exfalso]. assert (0 <= (f - 1) * (- ent NN d)) by (apply Rmult_le_pos; lra). lra.
    + assert (Hu : ent bnd (2 * d + 1) < nr) by (destruct (Rlt_dec (ent bnd (2 * d + 1)) nr); [auto|exfalso; nra]).
      assert (0 < ent NN d) by (unfold nr in Hu; lra). rewrite dv_ok by lra. cbn [bind].
      set (f := (ent bnd (2 * d + 1) - ent r0 d) / ent NN d). assert (E : f * ent NN d = hi d) by (unfold f; field; lra).
      exists 2%N, f. split; [right; auto|]. split; [unfold beyond, nr in *; cbn [N.eqb Pos.eqb]; lra|]. split; [|split; [unfold side_bound; cbn [N.eqb Pos.eqb]; auto|auto]].
      unfold nr in Hu. split.
      * destruct (Rle_dec 0 f) as [|Hc]; [auto|exfalso]. assert (0 < (- f) * (ent NN d)) by (apply Rmult_lt_0_compat; lra). lra.
      * destruct (Rlt_dec f 1) as [|Hc]; [auto|exfalso]. assert (0 <= (f - 1) * (ent NN d)) by (apply Rmult_le_pos; lra). lra.
Qed.
Lemma scale3_inside d fac : (d < 3)%nat -> 0 <= fac <= 1 -> inside3 d -> lo d <= ent NN d * fac <= hi d.
Proof. intros Hd Hf [A B]. pose proof (Box d Hd) as [[B1 B2] _]. split; nra. Qed.
Lemma scale3_beyond s d f fac : is_side s -> (d < 3)%nat -> 0 <= fac <= f -> f * ent NN d = side_bound (lo d) (hi d) s -> lo d <= ent NN d * fac <= hi d.
Proof.
  intros Hs Hd Hf E. pose proof (Box d Hd) as [[B1 B2] _]. destruct Hs as [->| ->]; unfold side_bound in E; cbn [N.eqb Pos.eqb] in E;
  destruct (Rle_dec 0 (ent NN d)); split; nra.
Qed.


(** The state after the directions l. *)
Definition first_inv (l : list nat) (fac : R) (fl : N) : Prop := 0 <= fac <= 1 /\ (forall e, In e l -> (e < 3)%nat -> lo e <= ent NN e * fac <= hi e) /\
  ((fl = 0%N /\ fac = 1) \/ (exists s d, is_side s /\ (d < 3)%nat /\ beyond r0 bnd NN s d /\ fl = at_dir s d /\ ent NN d * fac = side_bound (lo d) (hi d) s)).
Lemma first_inv_step l fac fl d : (d < 3)%nat -> first_inv l fac fl -> exists fac' fl', first_step3 (fac, fl) d = Ok (fac', fl') /\ first_inv (d :: l) fac' fl'.
Proof.
  intros Hd (Hf & In1 & Cs). destruct (first_step3_ok fac fl d Hd Hf) as [[I E]|(s & f & Hs & B & Hff & Hb & E)].
  - exists fac, fl. split; [auto|]. split; [auto|]. split; [|auto]. intros e [<-|He] Hx; [apply scale3_inside; auto|auto].
  - rewrite E. destruct (Rlt_dec f fac) as [Hlt|Hge].
    + exists f, (at_dir s d). split; [auto|]. split; [lra|]. split.
      * intros e [<-|He] Hx; [apply (scale3_beyond s d f f); auto; lra|]. specialize (In1 e He Hx). destruct In1 as [X Y]. pose proof (Box e Hx) as [[B1 B2] _].
        assert (Q : 0 <= f <= fac) by lra. destruct (Rle_dec 0 (ent NN e)) as [P|P]; [assert (0 <= ent NN e * (fac - f)) by (apply Rmult_le_pos; lra); assert (0 <= ent NN e * f) by (apply Rmult_le_pos; lra)|assert (0 <= (- ent NN e) * (fac - f)) by (apply Rmult_le_pos; lra); assert (0 <= (- ent NN e) * f) by (apply Rmult_le_pos; lra)]; split; lra.
      * right. exists s, d. split; [auto|]. split; [auto|]. split; [auto|]. split; [auto|]. lra.
    + exists fac, fl. split; [auto|]. split; [auto|]. split; [|auto]. intros e [<-|He] Hx; [apply (scale3_beyond s d f fac); auto; lra|auto].
Qed.
Lemma vol_first_ok : (vol_first r0 NN bnd = Ok (1, 0%N) /\ forall d, (d < 3)%nat -> inside3 d) \/
  (exists fac s d, is_side s /\ (d < 3)%nat /\ beyond r0 bnd NN s d /\ 0 <= fac <= 1 /\ vol_first r0 NN bnd = Ok (fac, at_dir s d) /\
     ent NN d * fac = side_bound (lo d) (hi d) s /\ forall e, (e < 3)%nat -> lo e <= ent NN e * fac <= hi e).
Proof.
  change (vol_first r0 NN bnd) with (foldM first_step3 dims (1, 0%N)). unfold dims. cbn [foldM].
  assert (I0 : first_inv [] 1 0%N) by (split; [lra|]; split; [intros e []|auto]).
  destruct (first_inv_step [] 1 0%N 0 ltac:(lia) I0) as (fa & na & -> & Ia). cbn [bind].
  destruct (first_inv_step [0%nat] fa na 1 ltac:(lia) Ia) as (fb & nb & -> & Ib). cbn [bind].
  destruct (first_inv_step [1; 0]%nat fb nb 2 ltac:(lia) Ib) as (fc & nc & -> & Ic). cbn [bind].
  destruct Ic as (Hf & In1 & Cs). assert (All : forall e, (e < 3)%nat -> lo e <= ent NN e * fc <= hi e) by (intros e He; apply In1; [dim3 e He; cbn; tauto|auto]).
  destruct Cs as [[-> ->]|(s & d & Hs & Hd & B & -> & E)]; [left|right].
  - split; [auto|]. intros d Hd. unfold inside3. specialize (All d Hd). rewrite Rmult_1_r in All. auto.
  - exists fc, s, d. split; [auto|]. split; [auto|]. split; [auto|]. split; [auto|]. split; [auto|]. split; [auto|]. exact All.
Qed.
End First3.

(** ** newton_vol *)
Section Step3.
Variable jac resid : list R.
Notation J := (ent jac).
Notation obj := (obj3 jac resid).
Hypothesis Det : det3 jac <> 0.
(** The full Newton step. *)
Definition newton_dir3 : list R :=
  let i := 1 / det3 jac in
  [i * ((J 4 * J 8 - J 5 * J 7) * ent resid 0 + (J 2 * J 7 - J 1 * J 8) * ent resid 1 + (J 1 * J 5 - J 2 * J 4) * ent resid 2);
   i * ((J 5 * J 6 - J 3 * J 8) * ent resid 0 + (J 0 * J 8 - J 2 * J 6) * ent resid 1 + (J 2 * J 3 - J 0 * J 5) * ent resid 2);
   i * ((J 3 * J 7 - J 4 * J 6) * ent resid 0 + (J 1 * J 6 - J 0 * J 7) * ent resid 1 + (J 0 * J 4 - J 1 * J 3) * ent resid 2)].
Lemma solve3_ok : lin_solve_3 jac resid = Ok newton_dir3.
Proof. unfold lin_solve_3. cbv zeta. fold (det3 jac). rewrite dv_ok by auto. reflexivity. Qed.
Lemma newton3_sol : lin_res3 jac resid newton_dir3 = [0; 0; 0].
Proof.
  unfold lin_res3, newton_dir3, dims. cbv zeta. cbn [map ent nth Nat.mul Nat.add]. fold (J 0) (J 1) (J 2) (J 3) (J 4) (J 5) (J 6) (J 7) (J 8) (ent resid 0) (ent resid 1) (ent resid 2).
  unfold det3 in *. repeat f_equal; field; auto.
Qed.
Lemma lin_ent dr k : (k < 3)%nat -> ent (lin_res3 jac resid dr) k = ent resid k - (J (3 * k) * ent dr 0 + J (3 * k + 1) * ent dr 1 + J (3 * k + 2) * ent dr 2).
Proof. intros H. dim3 k H; reflexivity. Qed.
Lemma lin_ent0 k : (k < 3)%nat -> ent (lin_res3 jac resid [0; 0; 0]) k = ent resid k.
Proof. intros H. rewrite lin_ent by auto. change (ent [0; 0; 0] 0) with 0. change (ent [0; 0; 0] 1) with 0. change (ent [0; 0; 0] 2) with 0. ring. Qed.
Definition add3 (r dr : list R) : list R := map (fun d => ent r d + ent dr d) dims.
Lemma add3_ent r dr d : (d < 3)%nat -> ent (add3 r dr) d = ent r d + ent dr d.
Proof. intros H. dim3 d H; reflexivity. Qed.

Record stepped3 (r0 dr : list R) (tr : R) (fl : N) : Prop := {
  s3_len : length dr = 3%nat;
  s3_27 : In fl all27;
  s3_box : in_box3 (add3 r0 dr);
  s3_con : constrained3 fl (add3 r0 dr);
  s3_tr : forall d, (d < 3)%nat -> Rabs (ent dr d) <= tr;
  s3_dec : obj dr <= obj [0; 0; 0];
  s3_near : (forall d, (d < 3)%nat -> Rabs (ent newton_dir3 d) <= tr /\ -1 <= ent r0 d + ent newton_dir3 d <= 1) -> dr = newton_dir3 /\ fl = 0%N }.

Lemma more27_len : length more27 = 20%nat.
Proof. reflexivity. Qed.
Lemma newton_vol_ok out p tol : in_box3 (pr p) -> 0 < tr p ->
  exists dr fl, stepped3 (pr p) dr (tr p) fl /\
    newton_vol out jac resid p tol = Ok (set_step out (add3 (pr p) dr) (obj [0; 0; 0] - obj dr)
      (N.lor (if Rlt_dec (Rabs (ent dr 0) + Rabs (ent dr 1) + Rabs (ent dr 2)) tol then N.lor fl CONVERGED_FLAG3 else fl) (shl (flags p) 7))).
Proof.
  intros [Lr Br] Ht. set (r0 := pr p) in *. set (NN := newton_dir3).
  assert (Er : r0 = [ent r0 0; ent r0 1; ent r0 2]) by (apply list3; auto).
  destruct (vol_bounds_eq (tr p) (ent r0 0) (ent r0 1) (ent r0 2)) as (mask & Eb & M64 & Cm). rewrite <- Er in Eb, Cm.
  set (bnd := [lbd (tr p) (ent r0 0); ubd (tr p) (ent r0 0); lbd (tr p) (ent r0 1); ubd (tr p) (ent r0 1); lbd (tr p) (ent r0 2); ubd (tr p) (ent r0 2)]) in *.
  assert (B0 : forall d, (d < 3)%nat -> ent bnd (2 * d) = lbd (tr p) (ent r0 d) /\ ent bnd (2 * d + 1) = ubd (tr p) (ent r0 d)) by (intros d Hd; dim3 d Hd; split; reflexivity).
  assert (Bk : forall d, (d < 3)%nat -> _) by (intros d Hd; exact (bd_ok (tr p) Ht (ent r0 d) (Br d Hd))). cbn beta in Bk.
  assert (Box : forall d, (d < 3)%nat -> ent bnd (2 * d) - ent r0 d <= 0 <= ent bnd (2 * d + 1) - ent r0 d /\ ent bnd (2 * d) - ent r0 d < ent bnd (2 * d + 1) - ent r0 d).
  { intros d Hd. destruct (B0 d Hd) as [-> ->]. apply (Bk d Hd). }
  (* before the flags are masked *)
  assert (Main : exists dr fl, (
    '(fac, fl) <- vol_first r0 NN bnd ;;
    (if (fl =? 0)%N then Ok (NN, fl) else vol_loop 21 jac resid r0 bnd true (map (fun d => ent NN d * fac) dims) fl)) = Ok (dr, fl) /\
    feasible3 r0 bnd dr /\ obj dr <= obj [0; 0; 0] /\ held3 r0 bnd dr fl /\ In fl all27 /\
    ((fl = 0%N /\ dr = NN) \/ exists s d, is_side s /\ (d < 3)%nat /\ beyond r0 bnd NN s d)).
  { destruct (vol_first_ok r0 bnd NN Box) as [[E Ins]|(fac & s & d & Hs & Hd & By & Hf & E & Eb' & Fe)]; rewrite E; cbn [bind].
    - exists NN, 0%N. split; [reflexivity|]. split; [split; [reflexivity|exact Ins]|]. split; [|split; [|split; [left; reflexivity|auto]]].
      + unfold obj3 at 1, NN. rewrite newton3_sol. unfold obj3, norm2. cbn [ent nth].
        set (a := ent (lin_res3 jac resid [0; 0; 0]) 0). set (b := ent (lin_res3 jac resid [0; 0; 0]) 1). set (c := ent (lin_res3 jac resid [0; 0; 0]) 2). nra.
      + intros d Hd N0. exfalso. apply N0. dim3 d Hd; reflexivity.
    - set (dr0 := map (fun d => ent NN d * fac) dims). assert (Ed : forall e, (e < 3)%nat -> ent dr0 e = ent NN e * fac) by (intros e He; dim3 e He; reflexivity).
      destruct (one27 s d Hs Hd) as (I1 & _ & C1).
      destruct (N.eqb_spec (at_dir s d) 0) as [E0|_]; [exfalso; specialize (C1 d Hd); rewrite E0, Nat.eqb_refl in C1; destruct Hs as [->| ->]; dim3 d Hd; discriminate C1|].
      assert (O0 : obj dr0 = (1 - fac) * (1 - fac) * obj [0; 0; 0]).
      { assert (Q : forall k, (k < 3)%nat -> ent (lin_res3 jac resid dr0) k = (1 - fac) * ent resid k).
        { intros k Hk. assert (S0 : ent (lin_res3 jac resid NN) k = 0) by (unfold NN; rewrite newton3_sol; dim3 k Hk; reflexivity).
          rewrite lin_ent in S0 |- * by auto. rewrite !Ed by lia. apply Rminus_diag_uniq in S0. rewrite S0. ring. }
        assert (Z : forall k, (k < 3)%nat -> ent (lin_res3 jac resid [0; 0; 0]) k = ent resid k) by (intros k Hk; apply lin_ent0; auto).
        unfold obj3, norm2. rewrite !Q, !Z by lia. ring. }
      destruct (vol_loop_ok jac resid r0 bnd Det Box 21 more27 true dr0 (at_dir s d) (obj dr0 + 1)) as (dr & fl & A & B & C & D & Ob).
      + rewrite more27_len. lia.
      + auto.
      + split; [reflexivity|]. intros e He. rewrite Ed by auto. auto.
      + intros e He Ne. rewrite C1 in Ne |- * by auto. destruct (Nat.eqb_spec e d) as [->|]; [|contradiction]. rewrite Ed by auto. auto.
      + exists d. split; [auto|]. intros e He. unfold free. rewrite C1 by auto. destruct (Nat.eqb_spec e d); [destruct Hs as [->| ->]; reflexivity|reflexivity].
      + intros F dr1 HF Nf. contradiction.
      + left. lra.
      + exists dr, fl. split; [exact A|]. split; [auto|]. split.
        { assert (0 <= obj [0; 0; 0]) by (unfold obj3, norm2; set (a := ent (lin_res3 jac resid [0; 0; 0]) 0); set (b := ent (lin_res3 jac resid [0; 0; 0]) 1); set (c := ent (lin_res3 jac resid [0; 0; 0]) 2); nra).
          assert ((1 - fac) * (1 - fac) <= 1) by nra. rewrite O0 in Ob. nra. }
        split; [auto|]. split; [auto|]. right. exists s, d. auto. }
  destruct Main as (dr & flU & Em & [Ld Fd] & Ob & Hh & I27 & Cs).
  set (fl := N.land flU mask).
  assert (Ifl : In fl all27) by (apply mask27; auto).
  assert (Cfl : forall d, (d < 3)%nat -> con fl d = 0%N \/ (is_side (con fl d) /\ ent r0 d + ent dr d = sg (con fl d))).
  { intros d Hd. unfold fl. rewrite con_land, (Cm d Hd). destruct (Bk d Hd) as (_ & _ & _ & Fm). destruct (Fm (con flU d) (con27 flU d I27 Hd)) as [Z|(Z & S & V)]; [left; auto|right]. rewrite Z. split; [auto|].
    assert (Nz : con flU d <> 0%N) by (destruct S as [X|X]; rewrite X; discriminate). pose proof (Hh d Hd Nz) as X. destruct (B0 d Hd) as [Ea Ec]. rewrite Ea, Ec in X.
    destruct S as [Y|Y]; rewrite Y in *; unfold side_bound, sg in *; cbn [N.eqb Pos.eqb] in *; lra. }
  assert (Bd : forall d, (d < 3)%nat -> Rabs (ent dr d) <= tr p /\ -1 <= ent r0 d + ent dr d <= 1).
  { intros d Hd. specialize (Fd d Hd). destruct (B0 d Hd) as [Ea Ec]. rewrite Ea, Ec in Fd. destruct (Bk d Hd) as (_ & Lim & _). split; [apply Rabs_le|]; lra. }
  exists dr, fl. split.
  - constructor; auto.
    + split; [reflexivity|]. intros d Hd. rewrite add3_ent by auto. apply Bd. auto.
    + intros d Hd. rewrite add3_ent by auto. destruct (Cfl d Hd) as [Z|[[S|S] V]]; [auto|right; left|right; right]; rewrite S in *; auto.
    + intros d Hd. apply Bd. auto.
    + intros Hin. fold NN in Hin. destruct Cs as [[-> ->]|(s & d & Hs & Hd & By)]; [auto|exfalso].
      destruct (Hin d Hd) as [X Y]. apply abs_in in X. destruct (Bk d Hd) as (_ & _ & [Al Au] & _). destruct (B0 d Hd) as [Ea Ec].
      destruct Hs as [->| ->]; unfold beyond in By; cbn [N.eqb Pos.eqb] in By; rewrite ?Ea, ?Ec in By; [destruct Al as [A|A]|destruct Au as [A|A]]; rewrite A in By; lra.
  - unfold newton_vol. fold r0. rewrite Eb, solve3_ok. cbn [bind]. fold NN.
    destruct (vol_first r0 NN bnd) as [[fac f1]| | | ] eqn:E1; cbn [bind] in Em |- *; try discriminate. rewrite Em. cbn [bind]. fold fl.
    assert (O0 : norm2 resid = obj [0; 0; 0]) by (unfold obj3, norm2; rewrite !lin_ent0 by lia; auto). rewrite O0. fold (obj dr). f_equal.
    assert (Rs : forall (g : N) d, (d < 3)%nat -> con g d = con fl d -> (if (con g d =? 0)%N then ent r0 d + ent dr d else if (con g d =? 1)%N then -1 else 1) = ent r0 d + ent dr d).
    { intros g d Hd ->. destruct (Cfl d Hd) as [->|[[S|S] V]]; [reflexivity| |]; rewrite S in *; unfold sg in V; cbn [N.eqb Pos.eqb] in V |- *; auto. }
    f_equal. unfold add3, dims. cbn [map]. destruct (Rlt_dec (Rabs (ent dr 0) + Rabs (ent dr 1) + Rabs (ent dr 2)) tol).
    + rewrite !Rs by (auto using conv27; lia). reflexivity.
    + rewrite !Rs by (auto; lia). reflexivity.
Qed.
End Step3.
