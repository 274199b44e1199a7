(** Rectangles, and a parallelogram for which the search stops at the wrong place. *)
From Verif Require Import Base BaseLemmas Tensor TensorSpec TensorProof Poly PolySpec PolyProof1 PolyProof2 PolyProof3 LobBndSpec FindptsEl2 FindptsEl2Spec FindptsEl2Proof1 FindptsEl2Proof2 FindptsEl2Proof3 FindptsEl2Proof4 FindptsEl2Proof5 FindptsEl2Proof6 FindptsEl2Proof7 FindptsEl2Proof8 FindptsEl2Proof9 FindptsEl2Proof10.
From Coq Require Import Reals Lra Psatz NArith.
Open Scope R_scope.
Notation get := PolySpec.get.

Section Par.
Variable DBL_MAX : R.
Hypothesis HM : 0 < DBL_MAX.
Variable nr ns : nat.
Variable zr zs : arr.
Variable npt : nat.
Variable e : shape.
Variable fd : el.
Variable s : st.
Variable Qd : nat -> arr -> Prop.
Notation zd := (pair2 zr zs).
Hypothesis K : known nr ns zr zs npt e fd s Qd.
Variable ax bx cx ay by' cy : R.
Hypothesis Pg : parallelogram e ax bx cx ay by' cy.
Let Hux : length (ux fd) = 2%nat. Proof. rewrite (k_ux _ _ _ _ _ _ _ _ _ K). auto. Qed.
Let Hel := k_dir _ _ _ _ _ _ _ _ _ K.
Let N0 : nn fd 0 = s_nr e. Proof. rewrite <- (k_sh _ _ _ _ _ _ _ _ _ K). auto. Qed.
Let N1 : nn fd 1 = s_ns e. Proof. rewrite <- (k_sh _ _ _ _ _ _ _ _ _ K). auto. Qed.
Lemma par_aff d i j : (d < 2)%nat -> (i < nn fd 0)%nat -> (j < nn fd 1)%nat -> get (arr_at (ux fd) d) (j * nn fd 0 + i) = pair2 ax ay d + pair2 bx by' d * get (zd 0%nat) i + pair2 cx cy d * get (zd 1%nat) j.
Proof.
  intros Hd Hi Hj. rewrite N0 in *. rewrite N1 in *. pose proof (pg_x _ _ _ _ _ _ _ Pg i j Hi Hj) as X. pose proof (pg_y _ _ _ _ _ _ _ Pg i j Hi Hj) as Y.
  assert (Zr : s_zr e = zr) by (rewrite <- (k_sh _ _ _ _ _ _ _ _ _ K); auto). assert (Zs : s_zs e = zs) by (rewrite <- (k_sh _ _ _ _ _ _ _ _ _ K); auto). rewrite Zr, Zs in X, Y.
  rewrite (k_ux _ _ _ _ _ _ _ _ _ K). destruct d as [|[|d]]; [exact X|exact Y|lia].
Qed.
Let Det : pair2 bx by' 0%nat * pair2 cx cy 1%nat - pair2 cx cy 0%nat * pair2 bx by' 1%nat <> 0. Proof. apply (pg_det _ _ _ _ _ _ _ Pg). Qed.
Lemma par_regular : regular e.
Proof.
  rewrite <- (k_sh _ _ _ _ _ _ _ _ _ K). intros r t xr xs yr ys _ _ Hp. destruct (partials_are fd zd Qd Hel Hux r t _ _ _ _ Hp) as (-> & -> & -> & ->).
  pose proof (aff_jac fd zd Qd Hel Hux _ _ _ par_aff [r; t] eq_refl) as J. unfold jacobian in J. injection J as -> -> -> ->. apply (pg_det _ _ _ _ _ _ _ Pg).
Qed.
Lemma par_image r t : image_x e r t = ax + bx * r + cx * t /\ image_y e r t = ay + by' * r + cy * t.
Proof.
  rewrite <- (k_sh _ _ _ _ _ _ _ _ _ K). unfold image_x, image_y.
  pose proof (T_value fd zd Hux 0 [r; t]) as T0. pose proof (T_value fd zd Hux 1 [r; t]) as T1. cbn [ent nth] in T0, T1.
  rewrite (aff_T fd zd Qd Hel Hux _ _ _ par_aff 0 [r; t] ltac:(lia)) in T0. rewrite (aff_T fd zd Qd Hel Hux _ _ _ par_aff 1 [r; t] ltac:(lia)) in T1. cbn [ent nth pair2 Nat.eqb] in T0, T1. cbn [s_x s_y sh]. rewrite <- T0, <- T1. auto.
Qed.

(** ** Rectangles *)
Hypothesis Orth : bx * cx + by' * cy = 0.
Variable x : list R.
Variable r t : R.
Hypothesis Hr : -1 <= r <= 1.
Hypothesis Ht : -1 <= t <= 1.
Hypothesis Hx : nth 0 x 0 = image_x e r t.
Hypothesis Hy : nth 1 x 0 = image_y e r t.
Variable tol : R.
Hypothesis Htol : 0 < tol.
Hypothesis Hreach : reachable DBL_MAX e x.
Hypothesis Hin : forall d i, (d < 2)%nat -> (i < nn fd d)%nat -> -1 <= get (zd d) i <= 1.
Lemma sq_le u v : 0 <= v -> u * u <= v * v -> - v <= u <= v.
Proof. intros. split; nra. Qed.
Lemma par_dist i j : (i < nn fd 0)%nat -> (j < nn fd 1)%nat -> D fd zd x (node zd i j) = (bx * bx + by' * by') * ((r - get zr i) * (r - get zr i)) + (cx * cx + cy * cy) * ((t - get zs j) * (t - get zs j)).
Proof.
  intros Hi Hj. unfold D, ent. rewrite !(aff_T fd zd Qd Hel Hux _ _ _ par_aff) by lia. rewrite Hx, Hy. destruct (par_image r t) as [-> ->]. unfold node. cbn [ent nth pair2 Nat.eqb].
  set (p := r - get zr i). set (q := t - get zs j). replace (ax + bx * r + cx * t - (ax + bx * get zr i + cx * get zs j)) with (bx * p + cx * q) by (unfold p, q; ring).
  replace (ay + by' * r + cy * t - (ay + by' * get zr i + cy * get zs j)) with (by' * p + cy * q) by (unfold p, q; ring).
  transitivity ((bx * bx + by' * by') * (p * p) + (cx * cx + cy * cy) * (q * q) + 2 * (bx * cx + by' * cy) * (p * q)); [ring|rewrite Orth; ring].
Qed.
Lemma sum_pos u v : u <> 0 \/ v <> 0 -> 0 < u * u + v * v.
Proof. intros [H|H]; [assert (0 < u * u) by nra|assert (0 < v * v) by nra]; nra. Qed.
Lemma closest w z : -1 <= w <= 1 -> (w - z) * (w - z) <= (w - -1) * (w - -1) -> (w - z) * (w - z) <= (w - 1) * (w - 1) -> Rabs (w - z) <= 1.
Proof.
  intros Hw A B. apply Rabs_le. destruct (Rle_dec w 0) as [H|H].
  - pose proof (sq_le (w - z) (w - -1) ltac:(lra) A). lra.
  - assert (B' : (w - z) * (w - z) <= (1 - w) * (1 - w)) by lra. pose proof (sq_le (w - z) (1 - w) ltac:(lra) B'). lra.
Qed.
Lemma rect_near i j : (i < nn fd 0)%nat -> (j < nn fd 1)%nat -> (forall i' j', (i' < nn fd 0)%nat -> (j' < nn fd 1)%nat -> D fd zd x (node zd i j) <= D fd zd x (node zd i' j')) ->
  forall d, (d < 2)%nat -> Rabs (ent [r; t] d - ent (node zd i j) d) <= 1.
Proof.
  intros Hi Hj Hmin d Hd. pose proof (Hel 0%nat ltac:(lia)) as E0. pose proof (Hel 1%nat ltac:(lia)) as E1. pose proof (el_n _ _ _ _ E0) as L0. pose proof (el_n _ _ _ _ E1) as L1.
  pose proof (el_first _ _ _ _ E0) as F0. pose proof (el_first _ _ _ _ E1) as F1. pose proof (el_last _ _ _ _ E0) as G0. pose proof (el_last _ _ _ _ E1) as G1. cbn [pair2 Nat.eqb] in F0, F1, G0, G1.
  pose proof (pg_det _ _ _ _ _ _ _ Pg) as Dt.
  assert (Pb : 0 < bx * bx + by' * by') by (apply sum_pos; destruct (Req_dec bx 0) as [->|]; [right; intros ->; apply Dt; ring|auto]).
  assert (Pc : 0 < cx * cx + cy * cy) by (apply sum_pos; destruct (Req_dec cx 0) as [->|]; [right; intros ->; apply Dt; ring|auto]).
  pose proof (Hmin 0%nat j ltac:(lia) Hj) as A1. pose proof (Hmin (nn fd 0 - 1)%nat j ltac:(lia) Hj) as A2. pose proof (Hmin i 0%nat Hi ltac:(lia)) as A3. pose proof (Hmin i (nn fd 1 - 1)%nat Hi ltac:(lia)) as A4.
  rewrite !par_dist in A1 by lia. rewrite !par_dist in A2 by lia. rewrite !par_dist in A3 by lia. rewrite !par_dist in A4 by lia. rewrite F0 in A1. rewrite G0 in A2. rewrite F1 in A3. rewrite G1 in A4.
  assert (Can : forall k u v, 0 < k -> k * u <= k * v -> u <= v) by (intros k u v Hk Hl; apply (Rmult_le_reg_l k); auto).
  destruct d as [|[|d]]; [| |lia]; unfold node; cbn [ent nth pair2 Nat.eqb].
  - apply closest; [auto| |]; apply (Can _ _ _ Pb); lra.
  - apply closest; [auto| |]; apply (Can _ _ _ Pc); lra.
Qed.
Lemma rect_run k i : exists q, run1 DBL_MAX fd zd tol (S (S k)) (first DBL_MAX fd i x) = Ok q /\ pr q = [r; t] /\ low q = CONVERGED_FLAG.
Proof.
  destruct (exact_run DBL_MAX fd zd Qd Hel Hux tol _ _ _ par_aff Det x [r; t]) with (k := k) (i := i) as (q & E & A & B & _); auto.
  - split; [auto|]. intros d Hd. destruct d as [|[|d]]; [exact Hr|exact Ht|lia].
  - intros d Hd. destruct (par_image r t) as [I1 I2]. unfold ent at 1. destruct d as [|[|d]]; [rewrite Hx; exact I1|rewrite Hy; exact I2|lia].
  - pose proof (k_sh _ _ _ _ _ _ _ _ _ K) as Es. apply (reachable_node DBL_MAX fd zd Hux). rewrite Es. auto.
  - intros i0 j0. apply rect_near.
  - exists q. auto.
Qed.
End Par.

Lemma rectangle_ok M P nodes_n nr ns zr zs npt e fd s xs tol : 0 < M -> good R 0 Rplus Rmult P -> el_points nodes_n nr zr -> el_points nodes_n ns zs ->
  history M P nodes_n nr ns zr zs npt e fd s -> rectangle e -> 0 < tol -> (length xs <= npt)%nat -> (forall x, In x xs -> reachable M e x) ->
  exists out s', findpts_el_2 M P fd s xs tol = Ok (out, s') /\
    forall i x r t, nth_error xs i = Some x -> -1 <= r <= 1 -> -1 <= t <= 1 -> nth 0 x 0 = image_x e r t -> nth 1 x 0 = image_y e r t ->
      exists p, nth_error out i = Some p /\ found e tol i x p /\ pr p = [r; t] /\ flags p = 16%N.
Proof.
  intros HM G Hr Hs H (ax & bx & cx & ay & by' & cy & Pg & Orth) Htol Hn Hx.
  destruct (history_known M HM P G nodes_n nr ns zr zs Hr Hs npt e fd s H) as (Q & K).
  pose proof (par_regular nr ns zr zs npt e fd s Q K _ _ _ _ _ _ Pg) as Rg.
  destruct (search_known M HM P G nodes_n nr ns zr zs Hr Hs npt e fd s Q xs tol K Rg Hn Hx) as (out & s' & E & _ & _ & V). exists out, s'. split; [auto|].
  intros i x r t Hi H1 H2 H3 H4. destruct (V i x Hi) as (p & V1 & V2 & V3). exists (masked p). split; [auto|]. split; [auto|].
  destruct (rect_run M nr ns zr zs npt e fd s Q K _ _ _ _ _ _ Pg Orth x r t H1 H2 H3 H4 tol Htol) with (k := 48%nat) (i := i) as (q & E1 & E2 & E3).
  - apply Hx. apply (nth_error_In _ _ Hi).
  - intros d k. apply (node_in nodes_n nr ns zr zs Hr Hs fd). apply (k_n _ _ _ _ _ _ _ _ _ K).
  - rewrite V3 in E1. injection E1 as <-. split; [exact E2|exact E3].
Qed.
