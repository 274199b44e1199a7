(** The evaluation of the element's map and its derivatives in findpts_el_3.c: volume, faces. *)
From Verif Require Import Base BaseLemmas Tensor TensorSpec TensorProof Poly PolySpec PolyProof1 PolyProof2 PolyProof3 PolyGll LobBndSpec LobBndProof1 LobBndProof3 FindptsEl2 FindptsEl2Proof3 FindptsEl3 FindptsEl3Proof1.
From Coq Require Import Reals Lra NArith.
Open Scope R_scope.
Notation nx := plus_1_mod_3.
Notation pv := plus_2_mod_3.
Ltac cyc := change (nx 0) with 1%nat in *; change (nx 1) with 2%nat in *; change (nx 2) with 0%nat in *; change (pv 0) with 2%nat in *; change (pv 1) with 0%nat in *; change (pv 2) with 1%nat in *.
Lemma nx_lt d : (d < 3)%nat -> (nx d < 3)%nat. Proof. intros H. apply plus1. auto. Qed.
Lemma pv_lt d : (d < 3)%nat -> (pv d < 3)%nat. Proof. intros H. apply plus2. auto. Qed.
Lemma nx_nx d : (d < 3)%nat -> nx (nx d) = pv d. Proof. intros H. dim3 d H; reflexivity. Qed.
Lemma nx_pv d : (d < 3)%nat -> nx (pv d) = d. Proof. intros H. dim3 d H; reflexivity. Qed.
Lemma pv_nx d : (d < 3)%nat -> pv (nx d) = d. Proof. intros H. dim3 d H; reflexivity. Qed.
Lemma pv_pv d : (d < 3)%nat -> pv (pv d) = nx d. Proof. intros H. dim3 d H; reflexivity. Qed.

Lemma triple n m q (a b c : nat -> R) (u : nat -> nat -> nat -> R) :
  rsum n (fun i => a i * rsum m (fun j => b j * rsum q (fun k => u i j k * c k))) = rsum n (fun i => rsum m (fun j => rsum q (fun k => a i * b j * c k * u i j k))).
Proof.
  apply rsum_ext. intros i _. rewrite rsum_scale. apply rsum_ext. intros j _. rewrite !rsum_scale. apply rsum_ext. intros k _. ring.
Qed.
Lemma double m q (b c : nat -> R) (u : nat -> nat -> R) : rsum m (fun j => b j * rsum q (fun k => u j k * c k)) = rsum m (fun j => rsum q (fun k => b j * c k * u j k)).
Proof. apply rsum_ext. intros j _. rewrite rsum_scale. apply rsum_ext. intros k _. ring. Qed.

Lemma NoDup_app_dis_ {A} (l1 l2 : list A) : NoDup l1 -> NoDup l2 -> (forall x, In x l1 -> ~ In x l2) -> NoDup (l1 ++ l2).
Proof.
  intros H1 H2 H. induction H1 as [|x l1 Hx H1 IH]; cbn [app]; auto. constructor.
  - rewrite in_app_iff. intros [A1|A1]; [auto|]. apply (H x); [left; auto|auto].
  - apply IH. intros y Hy. apply H. right. auto.
Qed.
Lemma NoDup_prod {A B} (l : list A) (m : list B) : NoDup l -> NoDup m -> NoDup (list_prod l m).
Proof.
  intros Hl Hm. induction Hl as [|x l Hx Hl IH]; cbn [list_prod]; [constructor|]. apply NoDup_app_dis_; auto.
  - apply FinFun.Injective_map_NoDup; auto. intros a b E. congruence.
  - intros [a b] H1 H2. apply in_map_iff in H1. destruct H1 as (y & E & _). injection E as <- <-. apply in_prod_iff in H2. tauto.
Qed.
Lemma NoDup_map_inj {A B} (f : A -> B) l : (forall x y, In x l -> In y l -> f x = f y -> x = y) -> NoDup l -> NoDup (map f l).
Proof.
  intros H Nd. induction Nd as [|x l Hx Nd IH]; cbn [map]; constructor.
  - intros A1. apply in_map_iff in A1. destruct A1 as (y & E & A1). assert (y = x) by (apply H; [right; auto|left; auto|auto]). subst. auto.
  - apply IH. intros y z Hy Hz. apply H; right; auto.
Qed.
Section El3.
Variable DBL_MAX : R.
Variable P : products R.
Variable G : good R 0 Rplus Rmult P.
Variable fd : el.
Variable zd : nat -> arr.
Variable Qd : nat -> arr -> Prop.
Hypothesis Hel : forall d, (d < 3)%nat -> elem_dir fd zd Qd d.
Notation nr := (nn fd 0).
Notation ns := (nn fd 1).
Notation nt := (nn fd 2).
Hypothesis Hux : length (ux fd) = 3%nat.
Hypothesis Hx : forall d, (d < 3)%nat -> (nr * ns * nt <= length (arr_at (ux fd) d))%nat.

(** The value of coordinate d at the node with the index an in direction dn and a1, a2 in the two
    directions after it. *)
Definition node_at (dn an a1 a2 : nat) : nat :=
  match dn with 0%nat => an + nr * (a1 + ns * a2) | 1%nat => a2 + nr * (an + ns * a1) | _ => a1 + nr * (a2 + ns * an) end.
Definition node (dn d an a1 a2 : nat) : R := get (arr_at (ux fd) d) (node_at dn an a1 a2).
Definition bs (d k a : nat) (x : R) : R := bas (zd d) (nn fd d) k a x.
(** Evaluated in the direction dn (derivative of order l), then in the direction before de. *)
Definition FF (dn l d a1 a2 : nat) (s : R) : R := rsum (nn fd dn) (fun an => node dn d an a1 a2 * bs dn l an s).
Definition EE (de l1 l2 d k : nat) (s1 s2 : R) : R := rsum (nn fd (nx de)) (fun a1 => bs (nx de) l1 a1 s1 * FF (pv de) l2 d k a1 s2).
(** The derivative of orders ks of coordinate d at r. *)
Definition T (ks : list nat) (d : nat) (r : list R) : R := rsum nr (fun i => bs 0 (nth 0 ks 0%nat) i (ent r 0) * EE 0 (nth 1 ks 0%nat) (nth 2 ks 0%nat) d i (ent r 1) (ent r 2)).
Lemma T_dir de ks d r : (de < 3)%nat -> T ks d r = rsum (nn fd de) (fun k => bs de (nth de ks 0%nat) k (ent r de) * EE de (nth (nx de) ks 0%nat) (nth (pv de) ks 0%nat) d k (ent r (nx de)) (ent r (pv de))).
Proof.
  intros H. unfold T, EE, FF, node, node_at. dim3 de H; cyc; [reflexivity| |]; rewrite !triple.
  - (* order s, t, r *)
    rewrite rsum_swap. apply rsum_ext. intros j _. rewrite rsum_swap. apply rsum_ext. intros k _. apply rsum_ext. intros i _. ring.
  - (* order t, r, s *)
    rewrite (rsum_swap nt). apply rsum_ext. intros i _. rewrite rsum_swap. apply rsum_ext. intros k _. apply rsum_ext. intros j _. ring.
Qed.
Lemma E_alt de l1 l2 d k s1 s2 : (de < 3)%nat -> EE de l1 l2 d k s1 s2 = rsum (nn fd (pv de)) (fun a2 => bs (pv de) l2 a2 s2 * FF (nx de) l1 d a2 k s1).
Proof.
  intros H. unfold EE, FF, node, node_at. rewrite !double. dim3 de H; cyc; rewrite rsum_swap; apply rsum_ext; intros a _; apply rsum_ext; intros b _; ring.
Qed.
Lemma node_len dn d an a1 a2 : (dn < 3)%nat -> (d < 3)%nat -> (an < nn fd dn)%nat -> (a1 < nn fd (nx dn))%nat -> (a2 < nn fd (pv dn))%nat -> (node_at dn an a1 a2 < length (arr_at (ux fd) d))%nat.
Proof.
  intros H Hd A B C. pose proof (Hx d Hd) as L. eapply Nat.lt_le_trans; [|exact L]. unfold node_at.
  assert (K : forall i j k, (i < nr)%nat -> (j < ns)%nat -> (k < nt)%nat -> (i + nr * (j + ns * k) < nr * ns * nt)%nat).
  { intros i j k X Y Z. assert (j + ns * k + 1 <= ns * nt)%nat by nia. nia. }
  dim3 dn H; cyc; apply K; auto.
Qed.
Lemma bs_end d j a : (d < 3)%nat -> (j < 2)%nat -> (a < nn fd d)%nat -> bs d 0 a (side_r j) = if (j * (nn fd d - 1) =? a)%nat then 1 else 0.
Proof.
  intros Hd Hj Ha. destruct (Hel d Hd) as [H1 H2 H3 H4 ? ? ? ? ? ?]. unfold bs. cbn [bas].
  assert (Ee : side_r j = get (zd d) (j * (nn fd d - 1))).
  { destruct j as [|[|j]]; [| |lia]; unfold side_r; cbn [Nat.eqb]; [rewrite Nat.mul_0_l; auto|rewrite Nat.mul_1_l; auto]. }
  rewrite Ee. apply basis_node_; auto. destruct j as [|[|j]]; lia.
Qed.
Lemma n2 d : (d < 3)%nat -> (2 <= nn fd d)%nat. Proof. intros H. apply (el_n _ _ _ d (Hel d H)). Qed.
Lemma end_lt d j : (d < 3)%nat -> (j < 2)%nat -> (j * (nn fd d - 1) < nn fd d)%nat.
Proof. intros Hd Hj. pose proof (n2 d Hd). destruct j as [|[|j]]; lia. Qed.
Lemma F_end dn d a1 a2 j : (dn < 3)%nat -> (j < 2)%nat -> FF dn 0 d a1 a2 (side_r j) = node dn d (j * (nn fd dn - 1)) a1 a2.
Proof.
  intros Hd Hj. unfold FF. rewrite <- (rsum_delta (nn fd dn) (j * (nn fd dn - 1)) (fun an => node dn d an a1 a2)) by (apply end_lt; auto).
  apply rsum_ext. intros a Ha. rewrite bs_end by auto. auto.
Qed.
Lemma E_end de l2 d k j s2 : (de < 3)%nat -> (j < 2)%nat -> EE de 0 l2 d k (side_r j) s2 = FF (pv de) l2 d k (j * (nn fd (nx de) - 1)) s2.
Proof.
  intros Hd Hj. pose proof (nx_lt de Hd) as Hn. unfold EE. rewrite <- (rsum_delta (nn fd (nx de)) (j * (nn fd (nx de) - 1)) (fun a1 => FF (pv de) l2 d k a1 s2)) by (apply end_lt; auto).
  apply rsum_ext. intros a Ha. rewrite bs_end by auto. ring.
Qed.

(** ** What is computed for a point *)
Definition ord (e : nat) : list nat := upd [0; 0; 0]%nat e 1%nat.
Definition ord2 (e f : nat) : list nat := upd (ord e) f (1 + nth f (ord e) 0)%nat.
Definition residual (p : pt) : list R := map (fun d => ent (px p) d - T [0; 0; 0]%nat d (pr p)) dims.
Definition jacobian (r : list R) : list R := concat (map (fun d => map (fun e => T (ord e) d r) dims) dims).
(** The residual times the second derivatives. *)
Definition hess (p : pt) (e f : nat) : R := ent (residual p) 0 * T (ord2 e f) 0 (pr p) + ent (residual p) 1 * T (ord2 e f) 1 (pr p) + ent (residual p) 2 * T (ord2 e f) 2 (pr p).
Definition fstep (out p : pt) (tol : R) (d1 d2 dn : nat) (fl : N) : res pt :=
  newton_face out (jacobian (pr p)) [hess p d1 d1; hess p d1 d2; hess p d2 d2] (residual p) d1 d2 dn fl p tol.
Definition estep (out p : pt) (tol : R) (de dn1 dn2 : nat) (fl : N) : res pt :=
  newton_edge3 out (jacobian (pr p)) (hess p de de) (residual p) de dn1 dn2 fl p tol.
Definition vstep (out p : pt) (tol : R) : res pt := newton_vol out (jacobian (pr p)) (residual p) p tol.
(** The product of the gradient and the coordinate. *)
Definition steep (p : pt) (d : nat) : R := col (jacobian (pr p)) (residual p) d * ent (pr p) d.
Definition after (p : pt) (tol : R) (k : pt -> res pt) : res pt :=
  let '(out, rejected) := reject_prior_step_q3 DBL_MAX (residual p) p tol in if rejected then Ok out else k out.
Definition vol1 (tol : R) (p : pt) : res pt := after p tol (fun out => vstep out p tol).
Definition face1 (tol : R) (dn : nat) (fl : N) (p : pt) : res pt := after p tol (fun out =>
  if Rlt_dec (steep p dn) 0 then vstep out p tol else fstep out p tol (nx dn) (pv dn) dn fl).
Definition edge1 (tol : R) (de : nat) (fl : N) (p : pt) : res pt := after p tol (fun out =>
  let dn1 := nx de in let dn2 := pv de in
  if Rlt_dec (steep p dn1) 0 then
    if Rlt_dec (steep p dn2) 0 then vstep out p tol else fstep out p tol de dn1 dn2 (N.land fl (at_dir 3 dn2))
  else if Rlt_dec (steep p dn2) 0 then fstep out p tol dn2 de dn1 (N.land fl (at_dir 3 dn1))
  else estep out p tol de dn1 dn2 fl).
Definition pt1 (tol : R) (fl : N) (p : pt) : res pt := after p tol (fun out =>
  let face d1 d2 dn := fstep out p tol d1 d2 dn (N.land fl (at_dir 3 dn)) in
  let edge de := estep out p tol de (nx de) (pv de) (N.land fl (unot (at_dir 3 de))) in
  if Rlt_dec (steep p 0) 0 then
    if Rlt_dec (steep p 1) 0 then if Rlt_dec (steep p 2) 0 then vstep out p tol else face 0%nat 1%nat 2%nat
    else if Rlt_dec (steep p 2) 0 then face 2%nat 0%nat 1%nat else edge 0%nat
  else if Rlt_dec (steep p 1) 0 then if Rlt_dec (steep p 2) 0 then face 1%nat 2%nat 0%nat else edge 1%nat
  else if Rlt_dec (steep p 2) 0 then edge 2%nat
  else Ok (set_step out (pr p) 0 (N.lor fl CONVERGED_FLAG3))).

(** ** The state *)
Definition face_right (f : gface) (dn j : nat) : Prop := forall d, (d < 3)%nat ->
  (nn fd (nx dn) * nn fd (pv dn) <= length (arr_at (fx f) d))%nat /\ (nn fd (nx dn) * nn fd (pv dn) <= length (arr_at (fdxdn f) d))%nat /\
  forall a1 a2, (a1 < nn fd (nx dn))%nat -> (a2 < nn fd (pv dn))%nat ->
    get (arr_at (fx f) d) (a1 + a2 * nn fd (nx dn)) = FF dn 0 d a1 a2 (side_r j) /\ get (arr_at (fdxdn f) d) (a1 + a2 * nn fd (nx dn)) = FF dn 1 d a1 a2 (side_r j).
(** The edge in direction de at the sides j and i of the next two directions. *)
Definition edge_right (e : gedge3) (de i j : nat) : Prop := forall d, (d < 3)%nat ->
  let ok (a : list arr) l1 l2 := (nn fd de <= length (arr_at a d))%nat /\ forall k, (k < nn fd de)%nat -> get (arr_at a d) k = EE de l1 l2 d k (side_r j) (side_r i) in
  ok (ex3 e) 0%nat 0%nat /\ ok (dxdn1 e) 1%nat 0%nat /\ ok (dxdn2 e) 0%nat 1%nat /\ ok (d2xdn1 e) 2%nat 0%nat /\ ok (d2xdn2 e) 0%nat 2%nat.
Definition corner (k : nat) : list R := [side_r (k mod 2); side_r ((k / 2) mod 2); side_r (k / 4)].
Definition pt_right (g : gpt) (k : nat) : Prop :=
  gx g = map (fun d => T [0; 0; 0]%nat d (corner k)) dims /\ gjac g = jacobian (corner k) /\
  ghes g = concat (map (fun d => map (fun ks => T ks d (corner k)) [[2; 0; 0]; [1; 1; 0]; [1; 0; 1]; [0; 2; 0]; [0; 1; 1]; [0; 0; 2]]%nat) dims).
Record good_st (s : st3) : Prop := {
  gs_len : length (lag_data3 s) = 3%nat;
  gs_lag : forall d, (d < 3)%nat -> Qd d (arr_at (lag_data3 s) d);
  gs_faces : length (faces s) = 6%nat;
  gs_edges : length (edges3 s) = 12%nat;
  gs_pts : length (pts3 s) = 8%nat;
  gs_face : forall dn j, (dn < 3)%nat -> (j < 2)%nat -> N.land (side_init3 s) (shl 1 (N.of_nat dn)) <> 0%N -> exists f, nth_error (faces s) (2 * dn + j) = Some f /\ face_right f dn j;
  gs_edge : forall de i j, (de < 3)%nat -> (i < 2)%nat -> (j < 2)%nat -> N.land (side_init3 s) (shl 8 (N.of_nat de)) <> 0%N -> exists e, nth_error (edges3 s) (4 * de + (2 * i + j)) = Some e /\ edge_right e de i j;
  gs_pt : forall k, (k < 8)%nat -> N.land (side_init3 s) 64 <> 0%N -> exists g, nth_error (pts3 s) k = Some g /\ pt_right g k }.

Lemma lag_dir3_ok s d der rs : good_st s -> (d < 3)%nat -> (der <= 2)%nat ->
  exists w s', lag_dir3 fd s d der rs = Ok (w, s') /\ good_st s' /\ (side_init3 s' = side_init3 s /\ faces s' = faces s /\ edges3 s' = edges3 s) /\ length w = (length rs * ((der + 1) * nn fd d))%nat /\
    forall i k a, (i < length rs)%nat -> (k <= der)%nat -> (a < nn fd d)%nat -> get w (i * ((der + 1) * nn fd d) + k * nn fd d + a) = bs d k a (nth i rs 0).
Proof.
  intros S Hd Hder. destruct (Hel d Hd) as [? ? ? ? ? ? F ? ? ?]. destruct (lag_all_ok _ _ _ _ der F el_dist Hder rs _ (gs_lag _ S d Hd)) as (w & data & E & Qw & Lw & H).
  unfold lag_dir3. rewrite E. cbn [bind]. eexists; eexists. split; [reflexivity|]. split; [|auto].
  destruct S as [S1 S2 S3 S4 S5 S6 S7 S8]. constructor; cbn [lag_data3 side_init3 faces edges3 pts3]; auto.
  - rewrite upd_length. auto.
  - intros e He. unfold arr_at. destruct (Nat.eq_dec d e) as [->|Hn].
    + rewrite (nth_error_nth _ _ [] (nth_error_upd_eq (lag_data3 s) e data ltac:(lia))). auto.
    + destruct (nth_error (lag_data3 s) e) as [x|] eqn:Ee; [|apply nth_error_None in Ee; lia].
      rewrite (nth_error_nth _ _ [] (eq_trans (nth_error_upd_ne (lag_data3 s) d e data Hn) Ee)). rewrite <- (nth_error_nth _ _ [] Ee). apply S2. auto.
Qed.

(** ** The work array *)
Lemma have3_all : (forall pn, pn <= npt_max fd -> (12 + 2 * (nr + ns + nt + nr * ns)) * pn + (if ns <? 2 * nr then 2 * nr else ns) <= have3 fd)%nat /\ (2 * (nt + nr * ns) <= have3 fd)%nat /\ (4 * (nr + ns * nt) <= have3 fd)%nat /\
  (forall d e, d < 3 -> e < 3 -> d <> e -> 4 * (nn fd d + nn fd e) <= have3 fd)%nat /\
  (forall pn d e, pn <= npt_max fd -> d < 3 -> e < 3 -> d <> e -> (15 + 3 * (2 * nn fd d + nn fd e)) * pn <= have3 fd)%nat.
Proof.
  assert (Nm : exists m1 m2, (if (ns <? nr)%nat then if (nt <? nr)%nat then (nr, if (nt <? ns)%nat then ns else nt) else (nt, nr) else if (nt <? ns)%nat then (ns, if (nt <? nr)%nat then nr else nt) else (nt, ns)) = (m1, m2) /\
     forall d e, (d < 3 -> e < 3 -> d <> e -> nn fd d + nn fd e <= m1 + m2 /\ 2 * nn fd d + nn fd e <= 2 * m1 + m2)%nat).
  { do 2 eexists. split; [apply surjective_pairing|]. intros d e Hd He Ne.
    destruct (Nat.ltb_spec ns nr); [destruct (Nat.ltb_spec nt nr); [destruct (Nat.ltb_spec nt ns)|]|destruct (Nat.ltb_spec nt ns); [destruct (Nat.ltb_spec nt nr)|]]; cbn [fst snd]; dim3 d Hd; dim3 e He; try congruence; lia. }
  destruct Nm as (m1 & m2 & Em & Nm). unfold have3, work_size3. rewrite Em.
  set (dm := fun wsize x : nat => if (wsize <? x)%nat then x else wsize).
  assert (D : forall a b, (a <= dm a b /\ b <= dm a b)%nat) by (intros a b; unfold dm; destruct (Nat.ltb_spec a b); lia).
  set (w0 := ((12 + 2 * (nr + ns + nt + nr * ns)) * npt_max fd + (if ns <? 2 * nr then 2 * nr else ns))%nat).
  change (if (w0 <? 2 * (nt + nr * ns))%nat then (2 * (nt + nr * ns))%nat else w0) with (dm w0 (2 * (nt + nr * ns))%nat). set (w1 := dm w0 (2 * (nt + nr * ns))%nat).
  change (if (w1 <? 4 * (nr + ns * nt))%nat then (4 * (nr + ns * nt))%nat else w1) with (dm w1 (4 * (nr + ns * nt))%nat). set (w2 := dm w1 (4 * (nr + ns * nt))%nat).
  change (if (w2 <? 4 * (m1 + m2))%nat then (4 * (m1 + m2))%nat else w2) with (dm w2 (4 * (m1 + m2))%nat). set (w3 := dm w2 (4 * (m1 + m2))%nat).
  change (if (w3 <? npt_max fd * (15 + 3 * (2 * m1 + m2)))%nat then (npt_max fd * (15 + 3 * (2 * m1 + m2)))%nat else w3) with (dm w3 (npt_max fd * (15 + 3 * (2 * m1 + m2)))%nat). set (w4 := dm w3 (npt_max fd * (15 + 3 * (2 * m1 + m2)))%nat).
  destruct (D w0 (2 * (nt + nr * ns))%nat) as [A1 B1]. destruct (D w1 (4 * (nr + ns * nt))%nat) as [A2 B2]. destruct (D w2 (4 * (m1 + m2))%nat) as [A3 B3]. destruct (D w3 (npt_max fd * (15 + 3 * (2 * m1 + m2)))%nat) as [A4 B4].
  fold w1 in A1, B1. fold w2 in A2, B2. fold w3 in A3, B3. fold w4 in A4, B4. clearbody w1 w2 w3 w4. clear D Em.
  split; [|split; [lia|split; [lia|split]]].
  - intros pn H. transitivity w0; [|lia]. unfold w0. apply Nat.add_le_mono_r. apply Nat.mul_le_mono_l. auto.
  - intros d e Hd He Ne. destruct (Nm d e Hd He Ne). lia.
  - intros pn d e H Hd He Ne. destruct (Nm d e Hd He Ne) as [_ N2]. transitivity (npt_max fd * (15 + 3 * (2 * m1 + m2)))%nat; [|lia]. rewrite Nat.mul_comm. apply Nat.mul_le_mono; [auto|lia].
Qed.

Lemma mapM_three {B} (f : nat -> res B) (g : nat -> B) : (forall d, (d < 3)%nat -> f d = Ok (g d)) -> mapM f dims = Ok (map g dims).
Proof. intros H. unfold dims. cbn [mapM map]. rewrite !H by lia. reflexivity. Qed.
Lemma arr_at_map (g : nat -> arr) d : (d < 3)%nat -> arr_at (map g dims) d = g d.
Proof. intros H. dim3 d H; reflexivity. Qed.
Lemma nth_map_dims {B} (g : nat -> B) d x : (d < 3)%nat -> nth d (map g dims) x = g d.
Proof. intros H. dim3 d H; reflexivity. Qed.
Lemma sum_rs n f : sum R 0 Rplus n f = rsum n f.
Proof. apply sum_is. Qed.
Lemma apply2_rs X n Y m u : apply2 R 0 Rplus Rmult X n Y m u = rsum n (fun i => X i * rsum m (fun j => get u (i + j * n) * Y j)).
Proof. rewrite <- (fold2 R 0 1 Rplus Rmult Rminus Ropp RTheory). rewrite sum_rs. apply rsum_ext. intros i _. rewrite sum_rs. auto. Qed.

Lemma vol_eq s ps tol : good_st s -> (length ps <= npt_max fd)%nat -> exists s', good_st s' /\
  findpt_vol DBL_MAX P fd s ps tol = (out <- mapM (vol1 tol) ps ;; Ok (out, s')).
Proof.
  intros S Hp. unfold findpt_vol. rewrite need_ok by (apply (proj1 have3_all); auto). cbn [bind].
  destruct (lag_dir3_ok s 0 1 (map (fun p => ent (pr p) 0) ps) S ltac:(lia) ltac:(lia)) as (wtr & s1 & E1 & S1 & _ & L1' & W1). rewrite E1. cbn [bind].
  destruct (lag_dir3_ok s1 1 1 (map (fun p => ent (pr p) 1) ps) S1 ltac:(lia) ltac:(lia)) as (wts & s2 & E2 & S2 & _ & L2' & W2). rewrite E2. cbn [bind].
  destruct (lag_dir3_ok s2 2 1 (map (fun p => ent (pr p) 2) ps) S2 ltac:(lia) ltac:(lia)) as (wtt & s3 & E3 & S3 & _ & L3' & W3). rewrite E3. cbn [bind].
  rewrite map_length in L1', L2', L3', W1, W2, W3. exists s3. split; [auto|]. set (pn := length ps) in *. set (tn := if (ns <? 2 * nr)%nat then (2 * nr)%nat else ns). set (nrs := (nr * ns)%nat).
  assert (Tn : (2 * nr <= tn /\ ns <= tn)%nat) by (unfold tn; destruct (Nat.ltb_spec ns (2 * nr)); lia).
  pose proof (n2 0 ltac:(lia)) as N0. pose proof (n2 1 ltac:(lia)) as N1.
  assert (Row : forall d, (d < 3)%nat -> (slice <- mxm R P (repeat 0 (2 * nrs * pn)) nrs (arr_at (ux fd) d) nt wtt (2 * pn) ;;
     mapM (fun '(i, p) =>
      let wtr_i := from wtr (2 * i * nr) in let wts_i := from wts (2 * i * ns) in let slice_i := from slice (2 * i * nrs) in
      '(v, g) <- tensor_ig2 R 0 Rplus Rmult P wtr_i nr wts_i ns slice_i (repeat 0 tn) ;;
      j2 <- tensor_i2 R 0 Rplus Rmult P wtr_i nr wts_i ns (from slice_i nrs) (repeat 0 tn) ;;
      Ok (ent (px p) d - v, [ent g 0; ent g 1; j2])) (numbered ps)) =
     Ok (map (fun p => (ent (px p) d - T [0; 0; 0]%nat d (pr p), [T [1; 0; 0]%nat d (pr p); T [0; 1; 0]%nat d (pr p); T [0; 0; 1]%nat d (pr p)])) ps)).
  { intros d Hd. pose proof (Hx d Hd) as Lx. fold nrs in Lx.
    destruct (good_mxm _ _ _ _ _ G (repeat 0 (2 * nrs * pn)) nrs (arr_at (ux fd) d) nt wtt (2 * pn)) as (C & EC & LC & WC & _); [rewrite repeat_length; lia|auto|lia|].
    rewrite EC. cbn [bind]. rewrite repeat_length in LC.
    rewrite <- (map_numbered (fun p => (ent (px p) d - T [0; 0; 0]%nat d (pr p), [T [1; 0; 0]%nat d (pr p); T [0; 1; 0]%nat d (pr p); T [0; 0; 1]%nat d (pr p)]))).
    apply mapM_ok. intros [i p] Hin. apply in_numbered in Hin. pose proof (nth_error_Some_lt _ _ _ Hin) as Hi. fold pn in Hi. cbn [snd].
    assert (Lr : forall k, nth i (map (fun p => ent (pr p) k) ps) 0 = ent (pr p) k) by (intros k; apply nth_error_nth; rewrite nth_error_map, Hin; auto).
    assert (Wr : forall k a, (k <= 1)%nat -> (a < nr)%nat -> get wtr (2 * i * nr + k * nr + a) = bs 0 k a (ent (pr p) 0)) by (intros k a Hk Ha; rewrite <- Lr, <- W1 by (auto; lia); f_equal; lia).
    assert (Ws : forall k a, (k <= 1)%nat -> (a < ns)%nat -> get wts (2 * i * ns + k * ns + a) = bs 1 k a (ent (pr p) 1)) by (intros k a Hk Ha; rewrite <- Lr, <- W2 by (auto; lia); f_equal; lia).
    assert (Wt : forall k a, (k <= 1)%nat -> (a < nt)%nat -> get wtt (2 * i * nt + k * nt + a) = bs 2 k a (ent (pr p) 2)) by (intros k a Hk Ha; rewrite <- Lr, <- W3 by (auto; lia); f_equal; lia).
    assert (Sl : forall l a b, (l <= 1)%nat -> (a < nr)%nat -> (b < ns)%nat -> get C (2 * i * nrs + l * nrs + (a + b * nr)) = FF 2 l d a b (ent (pr p) 2)).
    { intros l a b Hl Ha Hb. assert (a + b * nr < nrs)%nat by (unfold nrs; nia). replace (2 * i * nrs + l * nrs + (a + b * nr))%nat with ((a + b * nr) + (2 * i + l) * nrs)%nat by lia. etransitivity; [apply WC; lia|]. unfold MB, FF, node, node_at. rewrite sum_rs. apply rsum_ext. intros j Hj.
      f_equal; [apply gget; unfold nrs; lia|]. rewrite <- Wt by auto. apply gget. lia. }
    assert (2 * i * nrs + 2 * nrs <= 2 * nrs * pn)%nat by nia. assert (2 * i * nr + 2 * nr <= 2 * nr * pn)%nat by nia. assert (2 * i * ns + 2 * ns <= 2 * ns * pn)%nat by nia.
    unfold from. rewrite (ig2_ok R 0 1 Rplus Rmult Rminus Ropp RTheory P G) by (rewrite ?skipn_length, ?repeat_length; fold nrs; lia). cbn [bind].
    rewrite (i2_ok R 0 1 Rplus Rmult Rminus Ropp RTheory P G) by (rewrite ?skipn_length, ?repeat_length; fold nrs; lia). cbn [bind]. cbn [ent nth].
    assert (Key : forall X Y u k0 k1 k2, (k2 <= 1)%nat -> (forall a, (a < nr)%nat -> X a = bs 0 k0 a (ent (pr p) 0)) -> (forall b, (b < ns)%nat -> Y b = bs 1 k1 b (ent (pr p) 1)) ->
      (forall a b, (a < nr)%nat -> (b < ns)%nat -> get u (a + b * nr) = FF 2 k2 d a b (ent (pr p) 2)) -> apply2 R 0 Rplus Rmult X nr Y ns u = T [k0; k1; k2] d (pr p)).
    { intros X Y u k0 k1 k2 Hk HX HY Hu. rewrite apply2_rs. unfold T, EE. cyc. cbn [nth]. apply rsum_ext. intros a Ha. rewrite HX by auto. f_equal. apply rsum_ext. intros b Hb. rewrite HY, Hu by auto. ring. }
    f_equal. f_equal; [f_equal|repeat (apply f_equal2; [|try reflexivity])]; apply Key; try lia; intros a Ha; try intros b Hb; unfold row; rewrite ?skipn_skipn; try (etransitivity; [apply (get_skipn R 0)|]).
    - rewrite <- (Wr 0%nat a) by lia. apply gget. lia.
    - rewrite <- (Ws 0%nat a) by lia. apply gget. lia.
    - rewrite <- (Sl 0%nat a Ha) by lia. try (etransitivity; [apply (get_skipn R 0)|]). apply gget. lia.
    - rewrite <- (Wr 1%nat a) by lia. apply gget. lia.
    - rewrite <- (Ws 0%nat a) by lia. apply gget. lia.
    - rewrite <- (Sl 0%nat a Ha) by lia. try (etransitivity; [apply (get_skipn R 0)|]). apply gget. lia.
    - rewrite <- (Wr 0%nat a) by lia. apply gget. lia.
    - rewrite <- (Ws 1%nat a) by lia. apply gget. lia.
    - rewrite <- (Sl 0%nat a Ha) by lia. try (etransitivity; [apply (get_skipn R 0)|]). apply gget. lia.
    - rewrite <- (Wr 0%nat a) by lia. apply gget. lia.
    - rewrite <- (Ws 0%nat a) by lia. apply gget. lia.
    - rewrite <- (Sl 1%nat a Ha) by lia. try (etransitivity; [apply (get_skipn R 0)|]). apply gget. lia. }
  match goal with |- context [mapM ?f dims] => rewrite (mapM_three f _ Row) end. cbn [bind].
  rewrite <- mapM_numbered. f_equal. apply mapM_ext_in. intros [i p] Hin. apply in_numbered in Hin. cbn [snd].
  rewrite !nth_map_dims by lia. rewrite !(rd_ok _ i _ (map_nth_error _ _ _ Hin)). cbn [bind]. reflexivity.
Qed.

(** ** Faces *)
Lemma choice3 {B} (f : nat -> res B) (Q : nat -> B -> Prop) : (forall d, (d < 3)%nat -> exists w, f d = Ok w /\ Q d w) -> exists W : nat -> B, mapM f dims = Ok (map W dims) /\ forall d, (d < 3)%nat -> Q d (W d).
Proof.
  intros H. destruct (H 0%nat ltac:(lia)) as (a & Ea & Qa). destruct (H 1%nat ltac:(lia)) as (b & Eb & Qb). destruct (H 2%nat ltac:(lia)) as (c & Ec & Qc).
  exists (fun d => match d with 0%nat => a | 1%nat => b | _ => c end). split; [unfold dims; cbn [mapM map]; rewrite Ea, Eb, Ec; reflexivity|]. intros d Hd. dim3 d Hd; auto.
Qed.
Lemma ends_ok d o c o1 o2 c1 : (d < 3)%nat -> (o + c <= 3)%nat -> o1 = (o * nn fd d)%nat -> o2 = ((3 + o) * nn fd d)%nat -> c1 = (c * nn fd d)%nat ->
  exists a b, part (arr_at (wtend fd) d) o1 c1 = Ok a /\ part (arr_at (wtend fd) d) o2 c1 = Ok b /\ length (a ++ b) = (2 * c * nn fd d)%nat /\
    forall j l k, (j < 2)%nat -> (l < c)%nat -> (k < nn fd d)%nat -> get (a ++ b) (k + (c * j + l) * nn fd d) = bs d (o + l) k (side_r j).
Proof.
  intros Hd Hoc -> -> ->. destruct (Hel d Hd) as [Hn _ _ _ _ _ _ Wl W _]. set (n := nn fd d) in *.
  assert (o * n + c * n <= 3 * n)%nat by nia. rewrite !part_ok by lia. do 2 eexists. split; [reflexivity|]. split; [reflexivity|].
  set (a := firstn (c * n) (skipn (o * n) (arr_at (wtend fd) d))). set (b := firstn (c * n) (skipn ((3 + o) * n) (arr_at (wtend fd) d))).
  assert (La : length a = (c * n)%nat) by (apply len_part; lia). assert (Lb : length b = (c * n)%nat) by (apply len_part; lia). split; [rewrite app_length; lia|].
  intros j l k Hj Hl Hk. unfold bs. fold n. rewrite <- (W j (o + l)%nat k) by (auto; lia). rewrite get_add, La. assert (l * n + n <= c * n)%nat by nia. destruct j as [|[|j]]; [| |lia].
  - rewrite (proj2 (Nat.ltb_lt _ _)) by lia. unfold a. rewrite get_part by lia. f_equal. lia.
  - destruct (Nat.ltb_spec (k + (c * 1 + l) * n) (c * n)); [lia|]. unfold b. rewrite get_part by lia. f_equal. lia.
Qed.
Lemma map_skip (l : list arr) o d : length l = 3%nat -> (d < 3)%nat -> arr_at (map (skipn o) l) d = skipn o (arr_at l d).
Proof. intros L Hd. destruct l as [|a [|b [|c [|? ?]]]]; try discriminate. dim3 d Hd; reflexivity. Qed.
Lemma lay_lt a1 a2 m1 m2 : (a1 < m1)%nat -> (a2 < m2)%nat -> (a1 + a2 * m1 < m1 * m2)%nat.
Proof. intros. assert (a2 + 1 <= m2)%nat by lia. nia. Qed.
Definition faces_ok (s s' : st3) (dn : nat) : Prop := exists f0 f1, s' = set_faces s dn f0 f1 /\ face_right f0 dn 0 /\ face_right f1 dn 1.
Lemma face_rs_ok s : exists s', compute_face_data_rs P fd s = Ok s' /\ faces_ok s s' 2.
Proof.
  unfold compute_face_data_rs. pose proof have3_all as (_ & H1 & _ & _ & _). rewrite need_ok by lia. cbn [bind].
  destruct (ends_ok 2 1 1 nt (4 * nt) nt) as (a & b & Ea & Eb & Lab & AB); try lia. rewrite Ea, Eb. cbn [bind]. pose proof (n2 2 ltac:(lia)) as N2. set (nrs := (nr * ns)%nat).
  edestruct (choice3 (fun d => w <- mxm R P (repeat 0 (2 * nrs)) nrs (arr_at (ux fd) d) nt (a ++ b) 2 ;; u <- part w 0 nrs ;; v <- part w nrs nrs ;; Ok (u, v))
    (fun d w => forall j u, (j < 2)%nat -> u = (if (j =? 0)%nat then fst w else snd w) -> length u = nrs /\ forall a1 a2, (a1 < nr)%nat -> (a2 < ns)%nat -> get u (a1 + a2 * nr) = FF 2 1 d a1 a2 (side_r j))) as (W & EW & QW).
  { intros d Hd. pose proof (Hx d Hd) as Lx. fold nrs in Lx.
    destruct (good_mxm _ _ _ _ _ G (repeat 0 (2 * nrs)) nrs (arr_at (ux fd) d) nt (a ++ b) 2) as (C & EC & LC & WC & _); [rewrite repeat_length; lia|lia|lia|].
    rewrite EC. cbn [bind]. rewrite repeat_length in LC. rewrite !part_ok by lia. cbn [bind]. eexists. split; [reflexivity|]. cbn [fst snd].
    assert (Main : forall j, (j < 2)%nat -> length (firstn nrs (skipn (j * nrs) C)) = nrs /\ forall a1 a2, (a1 < nr)%nat -> (a2 < ns)%nat -> get (firstn nrs (skipn (j * nrs) C)) (a1 + a2 * nr) = FF 2 1 d a1 a2 (side_r j)).
    { intros j Hj. assert (j * nrs + nrs <= 2 * nrs)%nat by nia. split; [apply len_part; lia|]. intros a1 a2 H2 H3. pose proof (lay_lt a1 a2 nr ns H2 H3). fold nrs in H0. rewrite get_part by auto.
      replace (j * nrs + (a1 + a2 * nr))%nat with ((a1 + a2 * nr) + j * nrs)%nat by lia. etransitivity; [apply WC; lia|]. unfold MB, FF, node, node_at. rewrite sum_rs. apply rsum_ext. intros k Hk. f_equal.
      - apply gget. unfold nrs. lia.
      - etransitivity; [|apply (AB j 0%nat k); lia]. apply gget. lia. }
    intros j u Hj ->. destruct j as [|[|j]]; [| |lia]; cbn [Nat.eqb].
    - apply (Main 0%nat); lia.
    - replace (skipn nrs C) with (skipn (1 * nrs) C) by (rewrite Nat.mul_1_l; auto). apply (Main 1%nat); lia. }
  rewrite EW. cbn [bind]. eexists. split; [reflexivity|]. do 2 eexists. split; [reflexivity|].
  assert (Main : forall j, (j < 2)%nat -> face_right (Face (if (j =? 0)%nat then ux fd else map (skipn (nrs * (nt - 1))) (ux fd)) (if (j =? 0)%nat then map fst (map W dims) else map snd (map W dims))) 2 j).
  { intros j Hj d Hd. cbn [fx fdxdn]. cyc. pose proof (Hx d Hd) as Lx. fold nrs in Lx.
    assert (Ed : arr_at (if (j =? 0)%nat then map fst (map W dims) else map snd (map W dims)) d = (if (j =? 0)%nat then fst (W d) else snd (W d))) by (destruct (j =? 0)%nat; rewrite map_map; apply arr_at_map; auto).
    rewrite Ed. destruct (QW d Hd j _ Hj eq_refl) as [L1 V1]. assert (nrs * (nt - 1) + nrs <= nrs * nt)%nat by nia.
    fold nrs. split; [|split; [lia|]].
    - destruct j as [|[|j]]; [| |lia]; cbn [Nat.eqb]; [nia|]. rewrite map_skip, skipn_length by auto. lia.
    - intros a1 a2 Ha1 Ha2. split; [|apply V1; auto]. rewrite F_end by auto. unfold node, node_at. destruct j as [|[|j]]; [| |lia]; cbn [Nat.eqb].
      + f_equal. lia.
      + rewrite map_skip by auto. etransitivity; [apply (get_skipn R 0)|]. apply gget. unfold nrs. lia. }
  split; [apply (Main 0%nat); lia|apply (Main 1%nat); lia].
Qed.
(** Four arrays one after the other: both faces and their normal derivatives. *)
Lemma four_faces dn (W : nat -> arr) s : (dn < 3)%nat -> let m := (nn fd (nx dn) * nn fd (pv dn))%nat in
  (forall d, (d < 3)%nat -> length (W d) = (4 * m)%nat /\ forall j l a1 a2, (j < 2)%nat -> (l < 2)%nat -> (a1 < nn fd (nx dn))%nat -> (a2 < nn fd (pv dn))%nat ->
     get (W d) ((2 * j + l) * m + (a1 + a2 * nn fd (nx dn))) = FF dn l d a1 a2 (side_r j)) ->
  exists s', (x0 <- mapM (fun w => part w 0 m) (map W dims) ;; n0 <- mapM (fun w => part w m m) (map W dims) ;; x1 <- mapM (fun w => part w (2 * m) m) (map W dims) ;; n1 <- mapM (fun w => part w (3 * m) m) (map W dims) ;;
    Ok (set_faces s dn (Face x0 n0) (Face x1 n1))) = Ok s' /\ faces_ok s s' dn.
Proof.
  intros Hdn m H. assert (Pm : forall o k, (k < 4)%nat -> o = (k * m)%nat -> mapM (fun w => part w o m) (map W dims) = Ok (map (fun d => firstn m (skipn (k * m) (W d))) dims)).
  { intros o k Hk ->. assert (k * m + m <= 4 * m)%nat by nia. unfold dims. cbn [map mapM]. rewrite !part_ok by (destruct (H 0%nat ltac:(lia)), (H 1%nat ltac:(lia)), (H 2%nat ltac:(lia)); lia). reflexivity. }
  rewrite (Pm 0%nat 0%nat), (Pm m 1%nat), (Pm (2 * m)%nat 2%nat), (Pm (3 * m)%nat 3%nat) by lia. cbn [bind]. eexists. split; [reflexivity|]. do 2 eexists. split; [reflexivity|].
  assert (Main : forall j, (j < 2)%nat -> face_right (Face (map (fun d => firstn m (skipn ((2 * j + 0) * m) (W d))) dims) (map (fun d => firstn m (skipn ((2 * j + 1) * m) (W d))) dims)) dn j).
  { intros j Hj d Hd. cbn [fx fdxdn]. rewrite !arr_at_map by auto. destruct (H d Hd) as [L V]. fold m.
    assert ((2 * j + 1) * m + m <= 4 * m)%nat by nia. rewrite !len_part by lia. split; [lia|]. split; [lia|]. intros a1 a2 H1 H2. pose proof (lay_lt _ _ _ _ H1 H2) as Hl. fold m in Hl. rewrite !get_part by lia. split; apply V; auto. }
  split; [apply (Main 0%nat); lia|apply (Main 1%nat); lia].
Qed.
Lemma face_st_ok s : exists s', compute_face_data_st fd s = Ok s' /\ faces_ok s s' 0.
Proof.
  unfold compute_face_data_st. pose proof have3_all as (_ & _ & H1 & _ & _). rewrite need_ok by lia. cbn [bind].
  destruct (ends_ok 0 0 2 0 (3 * nr) (2 * nr)) as (a & b & Ea & Eb & Lab & AB); try lia. rewrite Ea, Eb. cbn [bind]. pose proof (n2 0 ltac:(lia)) as N2. set (nst := (ns * nt)%nat).
  edestruct (choice3 (fun d => tensor_mtxm R 0 Rplus Rmult (repeat 0 (4 * nst)) nst (arr_at (ux fd) d) nr (a ++ b) 4)
    (fun d w => length w = (4 * nst)%nat /\ forall j l a1 a2, (j < 2)%nat -> (l < 2)%nat -> (a1 < ns)%nat -> (a2 < nt)%nat -> get w ((2 * j + l) * nst + (a1 + a2 * ns)) = FF 0 l d a1 a2 (side_r j))) as (W & EW & QW).
  { intros d Hd. pose proof (Hx d Hd) as Lx. replace (nr * ns * nt)%nat with (nst * nr)%nat in Lx by (unfold nst; lia).
    destruct (tensor_mtxm_ok R 0 1 Rplus Rmult Rminus Ropp RTheory (repeat 0 (4 * nst)) nst (arr_at (ux fd) d) nr (a ++ b) 4) as (C & EC & LC & WC & _); [rewrite repeat_length; lia|lia|lia|].
    rewrite repeat_length in LC. exists C. split; [auto|]. split; [auto|]. intros j l a1 a2 Hj Hl H2 H3. pose proof (lay_lt a1 a2 ns nt H2 H3) as H4. fold nst in H4.
    rewrite Nat.add_comm. etransitivity; [apply WC; lia|]. unfold MtB, FF, node, node_at. rewrite sum_rs. apply rsum_ext. intros k Hk. f_equal.
    - apply gget. lia.
    - etransitivity; [|apply (AB j l k); lia]. apply gget. lia. }
  rewrite EW. cbn [bind]. apply (four_faces 0 W s); auto.
Qed.
(** Numbers written to distinct places. *)
Lemma scatter {B} (g : B -> nat) (f : B -> R) (v : B -> res R) l : forall out : arr, NoDup (map g l) -> (forall x, In x l -> v x = Ok (f x) /\ (g x < length out)%nat) ->
  exists out', foldM (fun out x => y <- v x ;; wr out (g x) y) l out = Ok out' /\ length out' = length out /\ (forall x, In x l -> get out' (g x) = f x) /\ forall k, ~ In k (map g l) -> get out' k = get out k.
Proof.
  induction l as [|x l IH]; intros out Nd H; cbn [foldM].
  - exists out. split; [reflexivity|]. split; [auto|]. split; [intros x []|auto].
  - destruct (H x (or_introl eq_refl)) as [Ev Lg]. rewrite Ev. cbn [bind]. rewrite wr_ok by auto. cbn [bind]. cbn [map] in Nd. apply NoDup_cons_iff in Nd. destruct Nd as [Ni Nd].
    destruct (IH (upd out (g x) (f x)) Nd) as (out' & E & L & V & O); [intros y Hy; rewrite upd_length; apply H; right; auto|]. exists out'. rewrite upd_length in L. split; [auto|]. split; [auto|]. split.
    + intros y [<-|Hy]; [|auto]. rewrite O by auto. rewrite get_upd by auto. rewrite Nat.eqb_refl. auto.
    + intros k Hk. cbn [map In] in Hk. rewrite O by tauto. rewrite get_upd by auto. destruct (Nat.eqb_spec k (g x)); [subst; tauto|auto].
Qed.
Lemma face_tr_ok s : exists s', compute_face_data_tr P fd s = Ok s' /\ faces_ok s s' 1.
Proof.
  unfold compute_face_data_tr. pose proof have3_all as (_ & _ & _ & H1 & _). pose proof (H1 1 0 ltac:(lia) ltac:(lia) ltac:(lia))%nat as H1'. rewrite need_ok by lia. cbn [bind].
  destruct (ends_ok 1 0 2 0 (3 * ns) (2 * ns)) as (a & b & Ea & Eb & Lab & AB); try lia. rewrite Ea, Eb. cbn [bind]. pose proof (n2 1 ltac:(lia)) as N2. set (ntr := (nt * nr)%nat). set (nrs := (nr * ns)%nat).
  edestruct (choice3 (fun d => foldM (fun out k =>
      w <- mxm R P (repeat 0 (4 * nr)) nr (from (arr_at (ux fd) d) (k * nrs)) ns (a ++ b) 4 ;;
      foldM (fun out '(m, i) => v <- rd w (m * nr + i) ;; wr out (m * ntr + (k + i * nt)) v)
        (list_prod (seq 0 4) (seq 0 nr)) out) (seq 0 nt) (repeat 0 (4 * ntr)))
    (fun d w => length w = (4 * ntr)%nat /\ forall j l a1 a2, (j < 2)%nat -> (l < 2)%nat -> (a1 < nt)%nat -> (a2 < nr)%nat -> get w ((2 * j + l) * ntr + (a1 + a2 * nt)) = FF 1 l d a1 a2 (side_r j))) as (W & EW & QW).
  { intros d Hd. pose proof (Hx d Hd) as Lx. fold nrs in Lx.
    match goal with |- exists w, foldM ?f (seq 0 nt) ?s0 = Ok w /\ _ => destruct (foldM_inv (fun k out => length out = (4 * ntr)%nat /\ forall j l a1 a2, (j < 2)%nat -> (l < 2)%nat -> (a1 < k)%nat -> (a2 < nr)%nat -> get out ((2 * j + l) * ntr + (a1 + a2 * nt)) = FF 1 l d a1 a2 (side_r j)) f nt s0) as (w & Ew & Qw) end.
    - split; [apply repeat_length|]. intros; lia.
    - intros k out Hk [Lo Vo]. assert (k * nrs + nrs <= nrs * nt)%nat by nia.
      destruct (good_mxm _ _ _ _ _ G (repeat 0 (4 * nr)) nr (from (arr_at (ux fd) d) (k * nrs)) ns (a ++ b) 4) as (w & Ew & Lw & Ww & _); [rewrite repeat_length; lia|unfold from; rewrite skipn_length; fold nrs; lia|lia|].
      rewrite Ew. cbn [bind]. rewrite repeat_length in Lw.
      destruct (scatter (fun mi : nat * nat => fst mi * ntr + (k + snd mi * nt))%nat (fun mi => get w (fst mi * nr + snd mi)) (fun mi => rd w (fst mi * nr + snd mi)) (list_prod (seq 0 4) (seq 0 nr)) out) as (out' & Eo & Lo' & V & O).
      + apply NoDup_map_inj.
        * intros [m i] [m' i'] A B E. cbn [fst snd] in E. apply in_prod_iff in A, B. rewrite !in_seq in A, B. pose proof (lay_lt k i nt nr ltac:(lia) ltac:(lia)) as K1. pose proof (lay_lt k i' nt nr ltac:(lia) ltac:(lia)) as K2. fold ntr in K1, K2. assert (m = m') by nia. subst m'. f_equal. nia.
        * apply NoDup_prod; apply seq_NoDup.
      + intros [m i] A. cbn [fst snd]. apply in_prod_iff in A. rewrite !in_seq in A. pose proof (lay_lt k i nt nr ltac:(lia) ltac:(lia)) as K1. fold ntr in K1. split; [apply rd_get; nia|]. rewrite Lo. nia.
      + exists out'. split.
        { rewrite <- Eo. clear. generalize out. induction (list_prod (seq 0 4) (seq 0 nr)) as [|[m i] l IH]; intros o; cbn [foldM fst snd]; [reflexivity|].
          destruct (rd w (m * nr + i)); cbn [bind]; auto. destruct (wr o (m * ntr + (k + i * nt)) a); cbn [bind]; auto. }
        split; [lia|]. intros j l a1 a2 Hj Hl H2 H3. assert ((2 * j + l) < 4)%nat by lia. destruct (Nat.eq_dec a1 k) as [->|Hne].
        * assert (HI : In (2 * j + l, a2)%nat (list_prod (seq 0 4) (seq 0 nr))) by (apply in_prod; apply in_seq; lia). pose proof (V _ HI) as Vk. cbn [fst snd] in Vk. rewrite Vk.
          replace ((2 * j + l) * nr + a2)%nat with (a2 + (2 * j + l) * nr)%nat by lia. etransitivity; [apply Ww; lia|]. unfold MB, FF, node, node_at. rewrite sum_rs. apply rsum_ext. intros q Hq. f_equal.
          -- unfold from. etransitivity; [apply (get_skipn R 0)|]. apply gget. unfold nrs. lia.
          -- etransitivity; [|apply (AB j l q); lia]. apply gget. lia.
        * rewrite O; [apply Vo; lia|]. intros A. apply in_map_iff in A. destruct A as ([m i] & E & A). cbn [fst snd] in E. apply in_prod_iff in A. rewrite !in_seq in A.
          pose proof (lay_lt k i nt nr ltac:(lia) ltac:(lia)) as K1. pose proof (lay_lt a1 a2 nt nr ltac:(lia) ltac:(lia)) as K2. fold ntr in K1, K2. assert (m = 2 * j + l)%nat by nia. subst m. assert (i = a2) by nia. lia.
    - exists w. split; [exact Ew|]. exact Qw. }
  rewrite EW. cbn [bind]. apply (four_faces 1 W s); auto.
Qed.
Lemma get_face_ok s dn j : good_st s -> (dn < 3)%nat -> (j < 2)%nat -> exists f s', get_face P fd s (2 * dn + j) = Ok (f, s') /\ good_st s' /\ face_right f dn j /\
   (N.land (side_init3 s') (shl 1 (N.of_nat dn)) <> 0)%N /\ (forall m, N.land (side_init3 s) m <> 0 -> N.land (side_init3 s') m <> 0)%N.
Proof.
  intros S Hdn Hj. unfold get_face. replace ((2 * dn + j) / 2)%nat with dn by (apply (Nat.div_unique _ 2 dn j); lia).
  destruct (N.eqb_spec (N.land (side_init3 s) (shl 1 (N.of_nat dn))) 0) as [Z|Z].
  - assert (X : exists s', (if (dn =? 0)%nat then compute_face_data_st fd s else if (dn =? 1)%nat then compute_face_data_tr P fd s else compute_face_data_rs P fd s) = Ok s' /\ faces_ok s s' dn).
    { dim3 dn Hdn; cbn [Nat.eqb]; [apply face_st_ok|apply face_tr_ok|apply face_rs_ok]. }
    destruct X as (s' & Ex & f0 & f1 & -> & R0 & R1). rewrite Ex. cbn [bind]. unfold set_faces, set_init. cbn [lag_data3 side_init3 faces edges3 pts3].
    destruct S as [S1 S2 S3 S4 S5 S6 S7 S8].
    assert (Rd : forall i, (i < 2)%nat -> exists e, nth_error (upd (upd (faces s) (2 * dn) f0) (2 * dn + 1) f1) (2 * dn + i) = Some e /\ face_right e dn i).
    { intros i Hi. destruct i as [|[|i]]; [| |lia].
      - exists f0. rewrite Nat.add_0_r. split; [|auto]. rewrite nth_error_upd_ne by lia. apply nth_error_upd_eq. lia.
      - exists f1. split; [|auto]. apply nth_error_upd_eq. rewrite upd_length. lia. }
    destruct (Rd j Hj) as (e & Ee & Re). rewrite (rd_ok _ _ _ Ee). cbn [bind]. eexists; eexists. split; [reflexivity|]. split; [|split; [exact Re|]].
    + constructor; cbn [lag_data3 side_init3 faces edges3 pts3]; auto.
      * rewrite !upd_length. auto.
      * intros dn' j' Hdn' Hj' Hb. destruct (Nat.eq_dec dn dn') as [<-|Hn]; [apply Rd; auto|]. rewrite !nth_error_upd_ne by lia. apply S6; auto.
        rewrite land_lor_bit in Hb; auto. dim3 dn Hdn; dim3 dn' Hdn'; try lia; reflexivity.
      * intros de i' j' Hde Hi' Hj' Hb. apply S7; auto. rewrite land_lor_bit in Hb; auto. dim3 dn Hdn; dim3 de Hde; reflexivity.
      * intros k Hk Hb. apply S8; auto. rewrite land_lor_bit in Hb; auto. dim3 dn Hdn; reflexivity.
    + cbn [side_init3]. split.
      * rewrite N.land_lor_distr_l, N.land_diag. intros E. apply N.lor_eq_0_iff in E. destruct E as [_ E]. dim3 dn Hdn; discriminate E.
      * intros m Hm E. rewrite N.land_lor_distr_l in E. apply N.lor_eq_0_iff in E. tauto.
  - cbn [bind]. destruct (gs_face _ S dn j Hdn Hj Z) as (e & Ee & Re). rewrite (rd_ok _ _ _ Ee). cbn [bind]. eexists; eexists. split; [reflexivity|]. auto.
Qed.

(** ** Edges *)
Lemma map_skip' (l : list arr) o d : arr_at (map (fun x => from x o) l) d = skipn o (arr_at l d).
Proof. unfold arr_at, from. rewrite <- (map_nth (skipn o)). rewrite skipn_nil. reflexivity. Qed.
Lemma edge_slice d f i u : (d < 3)%nat -> (i < 2)%nat -> face_right f (pv d) i -> length u = (4 * nn fd (nx d))%nat ->
  (forall j l k, (j < 2)%nat -> (l < 2)%nat -> (k < nn fd (nx d))%nat -> get u (k + (2 * j + l) * nn fd (nx d)) = bs (nx d) (1 + l) k (side_r j)) ->
  exists W, mapM (fun xd => mxm R P (repeat 0 (4 * nn fd d)) (nn fd d) (arr_at (fx f) xd) (nn fd (nx d)) u 4) dims = Ok (map W dims) /\
    forall xd, (xd < 3)%nat -> length (W xd) = (4 * nn fd d)%nat /\ forall j l k, (j < 2)%nat -> (l < 2)%nat -> (k < nn fd d)%nat -> get (W xd) ((2 * j + l) * nn fd d + k) = EE d (1 + l) 0 xd k (side_r j) (side_r i).
Proof.
  intros Hd Hi Rf Lu Vu. apply (choice3 _ (fun xd w => length w = (4 * nn fd d)%nat /\ forall j l k, (j < 2)%nat -> (l < 2)%nat -> (k < nn fd d)%nat -> get w ((2 * j + l) * nn fd d + k) = EE d (1 + l) 0 xd k (side_r j) (side_r i))). intros xd Hxd. destruct (Rf xd Hxd) as (L & _ & V). rewrite nx_pv, pv_pv in L, V by auto.
  destruct (good_mxm _ _ _ _ _ G (repeat 0 (4 * nn fd d)) (nn fd d) (arr_at (fx f) xd) (nn fd (nx d)) u 4) as (C & EC & LC & WC & _); [rewrite repeat_length; lia|auto|lia|].
  rewrite repeat_length in LC. exists C. split; [auto|]. split; [auto|]. intros j l k Hj Hl Hk. rewrite Nat.add_comm. etransitivity; [apply WC; lia|].
  unfold MB, EE. rewrite sum_rs. apply rsum_ext. intros a1 Ha. rewrite Rmult_comm. f_equal.
  - etransitivity; [|apply (Vu j l a1); auto]. apply gget. lia.
  - etransitivity; [|apply (V k a1); auto]. apply gget. lia.
Qed.
Lemma edge_hess d f j u : (d < 3)%nat -> (j < 2)%nat -> face_right f (nx d) j -> length u = (2 * nn fd (pv d))%nat ->
  (forall i k, (i < 2)%nat -> (k < nn fd (pv d))%nat -> get u (k + i * nn fd (pv d)) = bs (pv d) 2 k (side_r i)) ->
  exists W, mapM (fun xd => tensor_mtxm R 0 Rplus Rmult (repeat 0 (2 * nn fd d)) (nn fd d) (arr_at (fx f) xd) (nn fd (pv d)) u 2) dims = Ok (map W dims) /\
    forall xd, (xd < 3)%nat -> length (W xd) = (2 * nn fd d)%nat /\ forall i k, (i < 2)%nat -> (k < nn fd d)%nat -> get (W xd) (i * nn fd d + k) = EE d 0 2 xd k (side_r j) (side_r i).
Proof.
  intros Hd Hj Rf Lu Vu. apply (choice3 _ (fun xd w => length w = (2 * nn fd d)%nat /\ forall i k, (i < 2)%nat -> (k < nn fd d)%nat -> get w (i * nn fd d + k) = EE d 0 2 xd k (side_r j) (side_r i))). intros xd Hxd. destruct (Rf xd Hxd) as (L & _ & V). rewrite nx_nx, pv_nx in L, V by auto.
  destruct (tensor_mtxm_ok R 0 1 Rplus Rmult Rminus Ropp RTheory (repeat 0 (2 * nn fd d)) (nn fd d) (arr_at (fx f) xd) (nn fd (pv d)) u 2) as (C & EC & LC & WC & _); [rewrite repeat_length; lia|lia|lia|].
  rewrite repeat_length in LC. exists C. split; [auto|]. split; [auto|]. intros i k Hi Hk. rewrite Nat.add_comm. etransitivity; [apply WC; lia|].
  rewrite E_alt by auto. unfold MtB. rewrite sum_rs. apply rsum_ext. intros a2 Ha. rewrite Rmult_comm. f_equal.
  - etransitivity; [|apply (Vu i a2); auto]. apply gget. lia.
  - etransitivity; [|apply (V a2 k); auto]. apply gget. lia.
Qed.
Lemma parts3 (W : nat -> arr) o m : (forall d, (d < 3)%nat -> (o + m <= length (W d))%nat) -> mapM (fun w => part w o m) (map W dims) = Ok (map (fun d => firstn m (skipn o (W d))) dims).
Proof. intros H. unfold dims. cbn [map mapM]. rewrite !part_ok by (apply H; lia). reflexivity. Qed.
Lemma mono_edges s d es : good_st s -> (d < 3)%nat -> length es = 4%nat -> (forall i j, (i < 2)%nat -> (j < 2)%nat -> exists e, nth_error es (2 * i + j) = Some e /\ edge_right e d i j) ->
  good_st (St3 (lag_data3 s) (N.lor (side_init3 s) (shl 8 (N.of_nat d))) (faces s) (fold_left (fun l '(k, e) => upd l (4 * d + k)%nat e) (combine (seq 0 4) es) (edges3 s)) (pts3 s)).
Proof.
  intros S Hd Le H. destruct es as [|e0 [|e1 [|e2 [|e3 [|? ?]]]]]; try discriminate. cbn [seq combine fold_left].
  destruct S as [S1 S2 S3 S4 S5 S6 S7 S8]. constructor; cbn [lag_data3 side_init3 faces edges3 pts3]; auto.
  - rewrite !upd_length. auto.
  - intros dn j Hdn Hj Hb. apply S6; auto. rewrite land_lor_bit in Hb; auto. dim3 dn Hdn; dim3 d Hd; reflexivity.
  - intros de i j Hde Hi Hj Hb. destruct (Nat.eq_dec d de) as [<-|Hn].
    + destruct (H i j Hi Hj) as (e & Ee & Re). exists e. split; [|auto].
      destruct i as [|[|i]]; [| |lia]; (destruct j as [|[|j]]; [| |lia]); cbn [Nat.mul Nat.add nth_error] in Ee |- *; injection Ee as <-;
        repeat (first [rewrite nth_error_upd_eq by (rewrite ?upd_length; lia); reflexivity | rewrite nth_error_upd_ne by lia]).
    + rewrite !nth_error_upd_ne by lia. apply S7; auto. rewrite land_lor_bit in Hb; auto. dim3 d Hd; dim3 de Hde; try lia; reflexivity.
  - intros k Hk Hb. apply S8; auto. rewrite land_lor_bit in Hb; auto. dim3 d Hd; reflexivity.
Qed.
Lemma edge_data_ok s d : good_st s -> (d < 3)%nat -> exists s', compute_edge_data P fd s d = Ok s' /\ good_st (set_init s' (N.lor (side_init3 s') (shl 8 (N.of_nat d)))) /\
  (forall m, N.land (side_init3 s) m <> 0 -> N.land (side_init3 s') m <> 0)%N.
Proof.
  intros S Hd. unfold compute_edge_data. pose proof (nx_lt d Hd) as H1. pose proof (pv_lt d Hd) as H2. pose proof (n2 d Hd) as N0. pose proof (n2 _ H1) as N1. pose proof (n2 _ H2) as N2.
  destruct (get_face_ok s (pv d) 0 S H2 ltac:(lia)) as (a0 & s1 & E1 & S1 & Ra0 & B1 & M1). rewrite Nat.add_0_r in E1. rewrite E1. cbn [bind].
  destruct (get_face_ok s1 (nx d) 0 S1 H1 ltac:(lia)) as (c0 & s2 & E2 & S2 & Rc0 & B2 & M2). rewrite Nat.add_0_r in E2. rewrite E2. cbn [bind].
  destruct (gs_face _ S2 (pv d) 1 H2 ltac:(lia) (M2 _ B1)) as (a1 & Ea1 & Ra1). destruct (gs_face _ S2 (nx d) 1 H1 ltac:(lia) B2) as (c1 & Ec1 & Rc1).
  rewrite (rd_ok _ _ _ Ea1), (rd_ok _ _ _ Ec1). cbn [bind].
  pose proof have3_all as (_ & _ & _ & Hh & _). pose proof (Hh (nx d) d H1 Hd ltac:(dim3 d Hd; discriminate)) as K1. pose proof (Hh (pv d) d H2 Hd ltac:(dim3 d Hd; discriminate)) as K2.
  rewrite !need_ok by lia. cbn [bind].
  destruct (ends_ok (nx d) 1 2 (nn fd (nx d)) (4 * nn fd (nx d)) (2 * nn fd (nx d))) as (u & v & Eu & Ev & Luv & UV); try lia; auto. rewrite Eu, Ev. cbn [bind mapM].
  destruct (edge_slice d a0 0 (u ++ v) Hd ltac:(lia) Ra0 ltac:(lia) UV) as (W0 & EW0 & VW0). destruct (edge_slice d a1 1 (u ++ v) Hd ltac:(lia) Ra1 ltac:(lia) UV) as (W1 & EW1 & VW1).
  rewrite EW0, EW1. cbn [bind].
  destruct (ends_ok (pv d) 2 1 (2 * nn fd (pv d)) (5 * nn fd (pv d)) (nn fd (pv d))) as (u2 & v2 & Eu2 & Ev2 & Luv2 & UV2); try lia; auto. rewrite Eu2, Ev2. cbn [bind].
  assert (UV2' : forall i k, (i < 2)%nat -> (k < nn fd (pv d))%nat -> get (u2 ++ v2) (k + i * nn fd (pv d)) = bs (pv d) 2 k (side_r i)).
  { intros i k Hi Hk. etransitivity; [|apply (UV2 i 0%nat k); lia]. f_equal. lia. }
  destruct (edge_hess d c0 0 (u2 ++ v2) Hd ltac:(lia) Rc0 ltac:(lia) UV2') as (V0 & EV0 & VV0). destruct (edge_hess d c1 1 (u2 ++ v2) Hd ltac:(lia) Rc1 ltac:(lia) UV2') as (V1 & EV1 & VV1).
  rewrite EV0, EV1. cbn [bind nth].
  rewrite !parts3 by (intros xd Hxd; first [rewrite (proj1 (VW0 xd Hxd)); lia|rewrite (proj1 (VW1 xd Hxd)); lia|rewrite (proj1 (VV0 xd Hxd)); lia|rewrite (proj1 (VV1 xd Hxd)); lia]). cbn [bind].
  eexists. split; [reflexivity|]. split; [|cbn [side_init3]; auto]. unfold set_init. cbn [lag_data3 side_init3 faces edges3 pts3].
  set (n := nn fd d) in *. set (n1 := nn fd (nx d)) in *.
  assert (Main : forall i j f (W V : nat -> arr) lf, (i < 2)%nat -> (j < 2)%nat -> face_right f (pv d) i -> lf = f ->
     (forall xd, (xd < 3)%nat -> length (W xd) = (4 * n)%nat /\ forall j l k, (j < 2)%nat -> (l < 2)%nat -> (k < n)%nat -> get (W xd) ((2 * j + l) * n + k) = EE d (1 + l) 0 xd k (side_r j) (side_r i)) ->
     (forall xd, (xd < 3)%nat -> length (V xd) = (2 * n)%nat /\ forall i k, (i < 2)%nat -> (k < n)%nat -> get (V xd) (i * n + k) = EE d 0 2 xd k (side_r j) (side_r i)) ->
     edge_right (Edge3 (map (fun x => from x (j * (n * (n1 - 1)))) (fx f)) (map (fun xd => firstn n (skipn (2 * j * n) (W xd))) dims) (map (fun x => from x (j * (n * (n1 - 1)))) (fdxdn f))
       (map (fun xd => firstn n (skipn ((2 * j + 1) * n) (W xd))) dims) (map (fun xd => firstn n (skipn (i * n) (V xd))) dims)) d i j).
  { intros i j f W V lf Hi Hj Rf _ HW HV xd Hxd. cbn [ex3 dxdn1 dxdn2 d2xdn1 d2xdn2]. destruct (HW xd Hxd) as [LW VW]. destruct (HV xd Hxd) as [LV VV]. destruct (Rf xd Hxd) as (L0 & L1 & V01). rewrite nx_pv, pv_pv in L0, L1, V01 by auto. fold n n1 in L0, L1, V01.
    assert (Em : forall l, arr_at (map (fun x => from x (j * (n * (n1 - 1)))) l) xd = skipn (j * (n * (n1 - 1))) (arr_at l xd)) by (intros l; apply map_skip').
    rewrite !arr_at_map, !Em by auto. fold n. assert (j * (n * (n1 - 1)) + n <= n * n1)%nat by (destruct j as [|[|j]]; [| |lia]; nia). assert ((2 * j + 1) * n + n <= 4 * n /\ i * n + n <= 2 * n)%nat by (split; nia).
    assert (Jn : (j * (n1 - 1) < n1)%nat) by (apply end_lt; auto).
    split; [|split; [|split; [|split]]]; (split; [rewrite ?skipn_length, ?firstn_length, ?skipn_length; lia|]); intros k Hk.
    - rewrite E_end by auto. fold n1. etransitivity; [apply (get_skipn R 0)|]. etransitivity; [|apply (V01 k (j * (n1 - 1))%nat); auto]. apply gget. lia.
    - rewrite get_part by auto. etransitivity; [|apply (VW j 0%nat k); lia]. f_equal. lia.
    - rewrite E_end by auto. fold n1. etransitivity; [apply (get_skipn R 0)|]. etransitivity; [|apply (V01 k (j * (n1 - 1))%nat); auto]. apply gget. lia.
    - rewrite get_part by auto. apply (VW j 1%nat k); lia.
    - rewrite get_part by auto. apply (VV i k); lia. }
  apply (mono_edges s2 d); auto. intros i j Hi Hj. destruct i as [|[|i]]; [| |lia]; (destruct j as [|[|j]]; [| |lia]); cbn [Nat.mul Nat.add nth_error]; (eexists; split; [reflexivity|]).
  - apply (Main 0 0 a0 W0 V0 a0)%nat; auto; lia.
  - apply (Main 0 1 a0 W0 V1 a0)%nat; auto; lia.
  - apply (Main 1 0 a1 W1 V0 a1)%nat; auto; lia.
  - apply (Main 1 1 a1 W1 V1 a1)%nat; auto; lia.
Qed.
Lemma get_edge3_ok s de i j : good_st s -> (de < 3)%nat -> (i < 2)%nat -> (j < 2)%nat -> exists e s', get_edge3 P fd s (4 * de + (2 * i + j)) = Ok (e, s') /\ good_st s' /\ edge_right e de i j /\
   (N.land (side_init3 s') (shl 8 (N.of_nat de)) <> 0)%N /\ (forall m, N.land (side_init3 s) m <> 0 -> N.land (side_init3 s') m <> 0)%N.
Proof.
  intros S Hde Hi Hj. unfold get_edge3. replace ((4 * de + (2 * i + j)) / 4)%nat with de by (apply (Nat.div_unique _ 4 de (2 * i + j)); lia).
  assert (X : exists s', (if (N.land (side_init3 s) (shl 8 (N.of_nat de)) =? 0)%N then s <- compute_edge_data P fd s de ;; Ok (set_init s (N.lor (side_init3 s) (shl 8 (N.of_nat de)))) else Ok s) = Ok s' /\ good_st s' /\
     (N.land (side_init3 s') (shl 8 (N.of_nat de)) <> 0)%N /\ (forall m, N.land (side_init3 s) m <> 0 -> N.land (side_init3 s') m <> 0)%N).
  { destruct (N.eqb_spec (N.land (side_init3 s) (shl 8 (N.of_nat de))) 0) as [Z|Z]; [|exists s; auto].
    destruct (edge_data_ok s de S Hde) as (s' & E & S' & M). rewrite E. cbn [bind]. eexists. split; [reflexivity|]. split; [exact S'|]. unfold set_init. cbn [side_init3]. split.
    - rewrite N.land_lor_distr_l, N.land_diag. intros E0. apply N.lor_eq_0_iff in E0. destruct E0 as [_ E0]. dim3 de Hde; discriminate E0.
    - intros m Hm E0. rewrite N.land_lor_distr_l in E0. apply N.lor_eq_0_iff in E0. destruct E0 as [E0 _]. apply (M m Hm E0). }
  destruct X as (s' & E & S' & B & M). rewrite E. cbn [bind]. destruct (gs_edge _ S' de i j Hde Hi Hj B) as (e & Ee & Re). rewrite (rd_ok _ _ _ Ee). cbn [bind]. exists e, s'. auto.
Qed.

(** ** Corners *)
Lemma T_end l1 l2 d r j : (j < 2)%nat -> ent r 0 = side_r j -> T [0; l1; l2]%nat d r = EE 0 l1 l2 d (j * (nr - 1)) (ent r 1) (ent r 2).
Proof.
  intros Hj E. unfold T. cbn [nth]. rewrite E. rewrite <- (rsum_delta nr (j * (nr - 1)) (fun i => EE 0 l1 l2 d i (ent r 1) (ent r 2))) by (apply end_lt; auto).
  apply rsum_ext. intros a Ha. rewrite bs_end by (auto; lia). ring.
Qed.
Lemma corner_at k : (k < 8)%nat -> ent (corner k) 0 = side_r (k mod 2) /\ ent (corner k) 1 = side_r ((k / 2) mod 2) /\ ent (corner k) 2 = side_r (k / 4).
Proof. intros _. repeat split. Qed.
Lemma edge_ends e de i j xd : (de < 3)%nat -> edge_right e de i j -> (xd < 3)%nat ->
  forall (a : list arr) l1 l2, (a = ex3 e /\ l1 = 0 /\ l2 = 0 \/ a = dxdn1 e /\ l1 = 1 /\ l2 = 0 \/ a = dxdn2 e /\ l1 = 0 /\ l2 = 1 \/ a = d2xdn1 e /\ l1 = 2 /\ l2 = 0 \/ a = d2xdn2 e /\ l1 = 0 /\ l2 = 2)%nat ->
    (nn fd de <= length (arr_at a xd))%nat /\ forall k, (k < nn fd de)%nat -> get (arr_at a xd) k = EE de l1 l2 xd k (side_r j) (side_r i).
Proof.
  intros _ Re Hxd a l1 l2 C. destruct (Re xd Hxd) as (R1 & R2 & R3 & R4 & R5). repeat (destruct C as [C|C]; [destruct C as (-> & -> & ->); assumption|]). destruct C as (-> & -> & ->). assumption.
Qed.
Definition cdata (d k : nat) : R * list R * list R :=
  (T [0; 0; 0]%nat d (corner k), [T [1; 0; 0]%nat d (corner k); T [0; 1; 0]%nat d (corner k); T [0; 0; 1]%nat d (corner k)],
   [T [2; 0; 0]%nat d (corner k); T [1; 1; 0]%nat d (corner k); T [1; 0; 1]%nat d (corner k); T [0; 2; 0]%nat d (corner k); T [0; 0; 2]%nat d (corner k)]).
Lemma dir_ok de e i j (a : list arr) l1 l2 xd (u y : arr) m c : (de < 3)%nat -> edge_right e de i j -> (xd < 3)%nat ->
  (a = ex3 e /\ l1 = 0 /\ l2 = 0 \/ a = dxdn1 e /\ l1 = 1 /\ l2 = 0 \/ a = dxdn2 e /\ l1 = 0 /\ l2 = 1 \/ a = d2xdn1 e /\ l1 = 2 /\ l2 = 0 \/ a = d2xdn2 e /\ l1 = 0 /\ l2 = 2)%nat ->
  (m <= length y)%nat -> (m * nn fd de <= length u)%nat -> (forall q k, (q < m)%nat -> (k < nn fd de)%nat -> get u (k + q * nn fd de) = c q k) ->
  exists v, mtxv R P y m u (arr_at a xd) (nn fd de) = Ok v /\ length v = length y /\ (forall q, (q < m)%nat -> get v q = rsum (nn fd de) (fun k => c q k * EE de l1 l2 xd k (side_r j) (side_r i))) /\ forall q, (m <= q)%nat -> get v q = get y q.
Proof.
  intros Hde Re Hxd C Hm Hu Vu. destruct (edge_ends e de i j xd Hde Re Hxd a l1 l2 C) as [La Va]. pose proof (n2 de Hde) as N2.
  destruct (good_mtxv _ _ _ _ _ G y m u (arr_at a xd) (nn fd de)) as (v & Ev & Lv & Wv & Ov); [lia|auto|lia|auto|]. exists v. split; [auto|]. split; [auto|]. split; [|intros q Hq; apply Ov; auto].
  intros q Hq. etransitivity; [apply Wv; lia|]. unfold MtB. rewrite sum_rs. apply rsum_ext. intros k Hk. f_equal.
  - etransitivity; [|apply (Vu q k); auto]. apply gget. lia.
  - etransitivity; [|apply (Va k); auto]. apply gget. lia.
Qed.
Lemma pt_data3_ok s : good_st s -> exists s', compute_pt_data3 P fd s = Ok s' /\ good_st (set_init s' (N.lor (side_init3 s') 64)).
Proof.
  intros S. unfold compute_pt_data3. pose proof (n2 0 ltac:(lia)) as N0. pose proof (n2 2 ltac:(lia)) as N2. pose proof (n2 1 ltac:(lia)) as N1.
  destruct (get_edge3_ok s 0 0 0 S ltac:(lia) ltac:(lia) ltac:(lia)) as (e0 & s1 & E1 & S1 & _ & B1 & _). cbn [Nat.mul Nat.add] in E1. rewrite E1. cbn [bind].
  pose proof have3_all as (_ & _ & _ & Hh & _). pose proof (Hh 0 1 ltac:(lia) ltac:(lia) ltac:(lia))%nat as K1. pose proof (Hh 2 1 ltac:(lia) ltac:(lia) ltac:(lia))%nat as K2.
  rewrite need_ok by lia. cbn [bind]. destruct (ends_ok 0 1 2 nr (4 * nr) (2 * nr)) as (a & b & Ea & Eb & Lab & AB); try lia. rewrite Ea, Eb. cbn [bind]. set (w0 := (a ++ b)%list) in *.
  destruct (fill_ok w0 nr nr (fun m k => rd m (2 * nr + k)) (fun k => get w0 (2 * nr + k))) as (w1 & Ew1 & [Lw1 O1] & V1); [lia| |].
  { intros m' k Hk [Lm Om] _. rewrite rd_get by (rewrite Lm; lia). f_equal. apply Om. lia. }
  rewrite Ew1. cbn [bind].
  assert (W1 : forall q k, (q < 2)%nat -> (k < nr)%nat -> get w1 (k + q * nr) = bs 0 1 k (side_r q)).
  { intros q k Hq Hk. destruct q as [|[|q]]; [| |lia].
    - rewrite O1 by lia. etransitivity; [|apply (AB 0%nat 0%nat k); lia]. apply (f_equal (get _)). lia.
    - replace (k + 1 * nr)%nat with (nr + k)%nat by lia. rewrite V1 by auto. etransitivity; [|apply (AB 1%nat 0%nat k); lia]. apply (f_equal (get _)). lia. }
  assert (RS : forall i, In i (seq 0 4) -> (e <- rd (edges3 s1) i ;; mapM (fun d =>
      v <- mtxv R P (repeat 0 4) 4 w0 (arr_at (ex3 e) d) nr ;;
      v1 <- mtxv R P (repeat 0 2) 2 w1 (arr_at (dxdn1 e) d) nr ;;
      v2 <- mtxv R P (repeat 0 2) 2 w1 (arr_at (dxdn2 e) d) nr ;;
      mapM (fun j =>
        let o := (j * (nr - 1))%nat in
        x <- rd (arr_at (ex3 e) d) o ;;
        js <- rd (arr_at (dxdn1 e) d) o ;; jt <- rd (arr_at (dxdn2 e) d) o ;;
        hss <- rd (arr_at (d2xdn1 e) d) o ;; htt <- rd (arr_at (d2xdn2 e) d) o ;;
        jr <- rd v (2 * j) ;; hrr <- rd v (2 * j + 1) ;;
        hrs <- rd v1 j ;; hrt <- rd v2 j ;;
        Ok (x, [jr; js; jt], [hrr; hrs; hrt; hss; htt])) [0; 1]%nat) dims) = Ok (map (fun d => map (fun j => cdata d (2 * i + j)) [0; 1]%nat) dims)).
  { intros i Hi. apply in_seq in Hi. pose proof (Nat.div_mod i 2 ltac:(lia)) as Di. pose proof (Nat.mod_upper_bound i 2 ltac:(lia)) as Mi. assert (i / 2 < 2)%nat by lia. set (i' := (i / 2)%nat) in *. set (j' := (i mod 2)%nat) in *.
    destruct (gs_edge _ S1 0 i' j' ltac:(lia) ltac:(lia) ltac:(lia) B1) as (e & Ee & Re). cbn [Nat.mul Nat.add] in Ee. replace (i' + (i' + 0) + j')%nat with i in Ee by lia. rewrite (rd_ok _ _ _ Ee). cbn [bind].
    apply (mapM_three _ (fun d => map (fun j => cdata d (2 * i + j)) [0; 1]%nat)). intros d Hd.
    destruct (dir_ok 0 e i' j' (ex3 e) 0 0 d w0 (repeat 0 4) 4 (fun q k => bs 0 (1 + q mod 2) k (side_r (q / 2)))) as (v & Ev & Lv & Vv & _); [lia|auto|auto|auto|rewrite repeat_length; lia|lia| |].
    { intros q k Hq Hk. etransitivity; [|apply (AB (q / 2)%nat (q mod 2)%nat k); [apply Nat.div_lt_upper_bound; lia|apply Nat.mod_upper_bound; lia|auto]]. rewrite <- (Nat.div_mod q 2) by lia. reflexivity. }
    rewrite Ev. cbn [bind].
    destruct (dir_ok 0 e i' j' (dxdn1 e) 1 0 d w1 (repeat 0 2) 2 (fun q k => bs 0 1 k (side_r q))) as (v1 & Ev1 & Lv1 & Vv1 & _); [lia|auto|auto|tauto|rewrite repeat_length; lia|lia|auto|]. rewrite Ev1. cbn [bind].
    destruct (dir_ok 0 e i' j' (dxdn2 e) 0 1 d w1 (repeat 0 2) 2 (fun q k => bs 0 1 k (side_r q))) as (v2 & Ev2 & Lv2 & Vv2 & _); [lia|auto|auto|tauto|rewrite repeat_length; lia|lia|auto|]. rewrite Ev2. cbn [bind].
    rewrite repeat_length in Lv, Lv1, Lv2.
    apply mapM_ok. intros j Hj. assert (j < 2)%nat as Hj' by (cbn [In] in Hj; lia). clear Hj. pose proof (end_lt 0 j ltac:(lia) Hj') as Ho. set (o := (j * (nr - 1))%nat) in *. cbv zeta.
    assert (Ck : ent (corner (2 * i + j)) 0 = side_r j /\ ent (corner (2 * i + j)) 1 = side_r j' /\ ent (corner (2 * i + j)) 2 = side_r i').
    { destruct (corner_at (2 * i + j) ltac:(lia)) as (C0 & C1 & C2). rewrite C0, C1, C2. replace ((2 * i + j) mod 2)%nat with j by (apply (Nat.mod_unique _ 2 i j); lia). replace ((2 * i + j) / 2)%nat with i by (apply (Nat.div_unique _ 2 i j); lia).
      replace ((2 * i + j) / 4)%nat with i' by (apply (Nat.div_unique _ 4 i' (2 * j' + j)); lia). auto. }
    destruct Ck as (C0 & C1 & C2).
    assert (Rd : forall al l1 l2, (al = ex3 e /\ l1 = 0 /\ l2 = 0 \/ al = dxdn1 e /\ l1 = 1 /\ l2 = 0 \/ al = dxdn2 e /\ l1 = 0 /\ l2 = 1 \/ al = d2xdn1 e /\ l1 = 2 /\ l2 = 0 \/ al = d2xdn2 e /\ l1 = 0 /\ l2 = 2)%nat ->
       rd (arr_at al d) o = Ok (T [0; l1; l2]%nat d (corner (2 * i + j)))).
    { intros al l1 l2 C. destruct (edge_ends e 0 i' j' d ltac:(lia) Re Hd al l1 l2 C) as [La Va]. rewrite rd_get by lia. rewrite (T_end l1 l2 d _ j) by auto. rewrite C1, C2. fold o. rewrite Va by auto. reflexivity. }
    rewrite (Rd _ 0 0)%nat, (Rd _ 1 0)%nat, (Rd _ 0 1)%nat, (Rd _ 2 0)%nat, (Rd _ 0 2)%nat by tauto. cbn [bind].
    assert (Rv : forall l, (l < 2)%nat -> get v (2 * j + l) = T [1 + l; 0; 0]%nat d (corner (2 * i + j))).
    { intros l Hl. rewrite Vv by lia. unfold T. cbn [nth]. rewrite C0, C1, C2. replace ((2 * j + l) mod 2)%nat with l by (apply (Nat.mod_unique _ 2 j l); lia). replace ((2 * j + l) / 2)%nat with j by (apply (Nat.div_unique _ 2 j l); lia). reflexivity. }
    rewrite !rd_get by lia. cbn [bind]. rewrite <- (Nat.add_0_r (2 * j)) at 1. rewrite !Rv by lia. rewrite Vv1, Vv2 by auto. unfold cdata, T. cbn [nth]. rewrite C0, C1, C2. reflexivity. }
  match goal with |- context [mapM ?f (seq 0 4)] => rewrite (mapM_ok f _ _ RS) end. cbn [bind].
  destruct (get_edge3_ok s1 2 0 0 S1 ltac:(lia) ltac:(lia) ltac:(lia)) as (e8 & s2 & E2 & S2 & _ & B2 & _). cbn [Nat.mul Nat.add] in E2. rewrite E2. cbn [bind]. rewrite need_ok by lia. cbn [bind].
  destruct (ends_ok 2 1 1 nt (4 * nt) nt) as (u & v & Eu & Ev & Luv & UV); try lia. rewrite Eu, Ev. cbn [bind].
  assert (ST : forall i, In i (seq 0 4) -> exists V : nat -> arr, (e <- rd (edges3 s2) (8 + i) ;; mapM (fun d => mtxv R P (repeat 0 2) 2 (u ++ v) (arr_at (dxdn2 e) d) nt) dims) = Ok (map V dims) /\
      forall d, (d < 3)%nat -> length (V d) = 2%nat /\ forall j, (j < 2)%nat -> get (V d) j = T [0; 1; 1]%nat d (corner (4 * j + i))).
  { intros i Hi. apply in_seq in Hi. pose proof (Nat.div_mod i 2 ltac:(lia)) as Di. pose proof (Nat.mod_upper_bound i 2 ltac:(lia)) as Mi. assert (i / 2 < 2)%nat by lia. set (i' := (i / 2)%nat) in *. set (j' := (i mod 2)%nat) in *.
    destruct (gs_edge _ S2 2 i' j' ltac:(lia) ltac:(lia) ltac:(lia) B2) as (e & Ee & Re). replace (4 * 2 + (2 * i' + j'))%nat with (8 + i)%nat in Ee by lia. rewrite (rd_ok _ _ _ Ee). cbn [bind].
    apply (choice3 _ (fun d V => length V = 2%nat /\ forall j, (j < 2)%nat -> get V j = T [0; 1; 1]%nat d (corner (4 * j + i)))). intros d Hd.
    destruct (dir_ok 2 e i' j' (dxdn2 e) 0 1 d (u ++ v) (repeat 0 2) 2 (fun q k => bs 2 1 k (side_r q))) as (y & Ey & Ly & Vy & _); [lia|auto|auto|tauto|rewrite repeat_length; lia|lia| |].
    { intros q k Hq Hk. etransitivity; [|apply (UV q 0%nat k); lia]. apply (f_equal (get _)). lia. }
    exists y. split; [auto|]. split; [auto|]. intros j Hj. rewrite Vy by auto. rewrite (T_dir 2) by lia. cyc. cbn [nth].
    destruct (corner_at (4 * j + i) ltac:(lia)) as (C0 & C1 & C2). rewrite C0, C1, C2. replace ((4 * j + i) mod 2)%nat with j' by (apply (Nat.mod_unique _ 2 (2 * j + i') j'); lia). replace ((4 * j + i) / 2)%nat with (i' + j * 2)%nat by (apply (Nat.div_unique _ 2 _ j'); lia).
    rewrite Nat.mod_add, Nat.mod_small by lia. replace ((4 * j + i) / 4)%nat with j by (apply (Nat.div_unique _ 4 _ i); lia). reflexivity. }
  destruct (ST 0%nat ltac:(cbn; auto)) as (V0 & EV0 & QV0). destruct (ST 1%nat ltac:(cbn; auto)) as (V1' & EV1 & QV1). destruct (ST 2%nat ltac:(cbn; auto)) as (V2 & EV2 & QV2). destruct (ST 3%nat ltac:(cbn; auto)) as (V3 & EV3 & QV3).
  set (VV := fun i => match i with 0%nat => V0 | 1%nat => V1' | 2%nat => V2 | _ => V3 end).
  match goal with |- context [mapM ?f (seq 0 4)] => assert (EM : mapM f (seq 0 4) = Ok (map (fun i => map (VV i) dims) (seq 0 4))) by (cbn [seq mapM map VV]; rewrite EV0, EV1, EV2, EV3; reflexivity); rewrite EM end. cbn [bind].
  assert (QV : forall i d, (i < 4)%nat -> (d < 3)%nat -> length (VV i d) = 2%nat /\ forall j, (j < 2)%nat -> get (VV i d) j = T [0; 1; 1]%nat d (corner (4 * j + i))).
  { intros i d Hi Hd. destruct i as [|[|[|[|i]]]]; [apply QV0|apply QV1|apply QV2|apply QV3|lia]; auto. }
  set (mk := fun k => Gpt (map (fun d => T [0; 0; 0]%nat d (corner k)) dims) (jacobian (corner k)) (concat (map (fun d => map (fun ks => T ks d (corner k)) [[2; 0; 0]; [1; 1; 0]; [1; 0; 1]; [0; 2; 0]; [0; 1; 1]; [0; 0; 2]]%nat) dims))).
  match goal with |- context [mapM ?f (seq 0 8)] => rewrite (mapM_ok f mk) end.
  - cbn [bind]. eexists. split; [reflexivity|]. unfold set_init. cbn [lag_data3 side_init3 faces edges3 pts3]. destruct S2 as [G1 G2 G3 G4 G5 G6 G7 G8]. constructor; cbn [lag_data3 side_init3 faces edges3 pts3]; auto.
    + intros dn j Hdn Hj Hb. apply G6; auto. rewrite land_lor_bit in Hb; auto. dim3 dn Hdn; reflexivity.
    + intros de i j Hde Hi Hj Hb. apply G7; auto. rewrite land_lor_bit in Hb; auto. dim3 de Hde; reflexivity.
    + intros k Hk _. exists (mk k). split; [|repeat split]. rewrite nth_error_map. replace (nth_error (seq 0 8) k) with (Some k) by (do 8 (destruct k as [|k]; [reflexivity|]); lia). reflexivity.
  - intros k Hk. apply in_seq in Hk. pose proof (Nat.div_mod k 2 ltac:(lia)) as D2. pose proof (Nat.mod_upper_bound k 2 ltac:(lia)) as M2. pose proof (Nat.div_mod k 4 ltac:(lia)) as D4. pose proof (Nat.mod_upper_bound k 4 ltac:(lia)) as M4.
    assert (R3 : forall d, (d < 3)%nat -> ('(x, j, h) <- rd (nth d (nth (k / 2) (map (fun i => map (fun d => map (fun j => cdata d (2 * i + j)) [0; 1]%nat) dims) (seq 0 4)) []) []) (k mod 2) ;;
       hst <- rd (nth d (nth (k mod 4) (map (fun i => map (VV i) dims) (seq 0 4)) []) []) (k / 4) ;; Ok (x, j, [ent h 0; ent h 1; ent h 2; ent h 3; hst; ent h 4])) =
       Ok (T [0; 0; 0]%nat d (corner k), map (fun e => T (ord e) d (corner k)) dims, map (fun ks => T ks d (corner k)) [[2; 0; 0]; [1; 1; 0]; [1; 0; 1]; [0; 2; 0]; [0; 1; 1]; [0; 0; 2]]%nat)).
    { intros d Hd. assert (N4 : forall {B} (g : nat -> B) i x, (i < 4)%nat -> nth i (map g (seq 0 4)) x = g i) by (intros B g i x Hi; destruct i as [|[|[|[|i]]]]; try lia; reflexivity).
      rewrite (N4 _ _ (k / 2)%nat) by lia. rewrite (N4 _ _ (k mod 4)%nat) by lia. rewrite !nth_map_dims by auto.
      assert (Ec : rd (map (fun j => cdata d (2 * (k / 2) + j)) [0; 1]%nat) (k mod 2) = Ok (cdata d k)).
      { assert (Gn : forall q m, (m < 2)%nat -> rd (map (fun j => cdata d (q + j)) [0; 1]%nat) m = Ok (cdata d (q + m))) by (intros q m Hm; destruct m as [|[|m]]; [| |lia]; reflexivity).
        rewrite Gn by lia. rewrite <- D2. reflexivity. }
      rewrite Ec. cbn [bind cdata]. destruct (QV (k mod 4)%nat d ltac:(lia) Hd) as [LV VVk]. rewrite rd_get by lia. rewrite VVk by lia. rewrite <- D4. reflexivity. }
    match goal with |- context [mapM ?f dims] => rewrite (mapM_three f _ R3) end. reflexivity.
Qed.
Lemma get_pt3_ok s k : good_st s -> (k < 8)%nat -> exists g s', get_pt3 P fd s k = Ok (g, s') /\ good_st s' /\ pt_right g k.
Proof.
  intros S Hk. unfold get_pt3.
  assert (X : exists s', (if (N.land (side_init3 s) 64 =? 0)%N then s <- compute_pt_data3 P fd s ;; Ok (set_init s (N.lor (side_init3 s) 64)) else Ok s) = Ok s' /\ good_st s' /\ (N.land (side_init3 s') 64 <> 0)%N).
  { destruct (N.eqb_spec (N.land (side_init3 s) 64) 0) as [Z|Z]; [|exists s; auto]. destruct (pt_data3_ok s S) as (s' & E & S'). rewrite E. cbn [bind]. eexists. split; [reflexivity|]. split; [exact S'|]. unfold set_init. cbn [side_init3].
    rewrite N.land_lor_distr_l, N.land_diag. intros E0. apply N.lor_eq_0_iff in E0. destruct E0 as [_ E0]. discriminate E0. }
  destruct X as (s' & E & S' & B). rewrite E. cbn [bind]. destruct (gs_pt _ S' k Hk B) as (g & Eg & Rg). rewrite (rd_ok _ _ _ Eg). cbn [bind]. exists g, s'. auto.
Qed.

(** ** The map on a face, an edge *)
Definition ords (d1 x d2 y d3 z : nat) : list nat := upd (upd (upd [0; 0; 0]%nat d1 x) d2 y) d3 z.
Lemma face_T dn x y l d r : (dn < 3)%nat -> T (ords (nx dn) x (pv dn) y dn l) d r =
  rsum (nn fd (nx dn)) (fun a1 => bs (nx dn) x a1 (ent r (nx dn)) * rsum (nn fd (pv dn)) (fun a2 => bs (pv dn) y a2 (ent r (pv dn)) * FF dn l d a1 a2 (ent r dn))).
Proof.
  intros Hdn. rewrite (T_dir (nx dn)) by (apply nx_lt; auto). unfold EE. rewrite nx_nx, pv_nx by auto. dim3 dn Hdn; cyc; reflexivity.
Qed.
Lemma edge_T de x l1 l2 d r : (de < 3)%nat -> T (ords de x (nx de) l1 (pv de) l2) d r = rsum (nn fd de) (fun k => bs de x k (ent r de) * EE de l1 l2 d k (ent r (nx de)) (ent r (pv de))).
Proof. intros Hde. rewrite (T_dir de) by auto. dim3 de Hde; cyc; reflexivity. Qed.
Lemma mapM_seq {A B} (f : nat -> res B) (g : A -> B) (ps : list A) : (forall i p, nth_error ps i = Some p -> f i = Ok (g p)) -> mapM f (seq 0 (length ps)) = Ok (map g ps).
Proof.
  assert (X : forall k, (forall i p, nth_error ps i = Some p -> f (k + i)%nat = Ok (g p)) -> mapM f (seq k (length ps)) = Ok (map g ps)).
  { induction ps as [|p ps IH]; intros k H; cbn [length seq mapM map]; [reflexivity|]. pose proof (H 0%nat p eq_refl) as H0. rewrite Nat.add_0_r in H0. rewrite H0. cbn [bind]. rewrite IH; [reflexivity|].
    intros i q Hq. rewrite Nat.add_succ_l, <- Nat.add_succ_r. apply H. auto. }
  intros H. apply X. auto.
Qed.
Definition frow (dn d : nat) (p : pt) : R * R * R * list R :=
  let r := ent (px p) d - T [0; 0; 0]%nat d (pr p) in
  (r, T (ord (nx dn)) d (pr p), T (ord (pv dn)) d (pr p), [r * T (ord2 (nx dn) (nx dn)) d (pr p); r * T (ord2 (nx dn) (pv dn)) d (pr p); r * T (ord2 (pv dn) (pv dn)) d (pr p)]).
Lemma face_eq s ps tol dn j : good_st s -> (length ps <= npt_max fd)%nat -> (dn < 3)%nat -> (j < 2)%nat ->
  let fl := at_dir (N.of_nat (j + 1)) dn in
  (exists p0 ps', ps = p0 :: ps' /\ N.land (flags p0) FLAG_MASK3 = fl) -> (forall p, In p ps -> ent (pr p) dn = side_r j) ->
  exists s', good_st s' /\ findpt_face DBL_MAX P fd s ps tol = (out <- mapM (face1 tol dn fl) ps ;; Ok (out, s')).
Proof.
  intros S Hp Hdn Hj fl (p0 & ps' & Eps & Efl) Hside. unfold findpt_face. assert (R0 : rd ps 0 = Ok p0) by (rewrite Eps; reflexivity). rewrite R0. cbn [bind]. rewrite Efl.
  assert (Ei : face_index fl = (2 * dn + j)%nat) by (unfold fl; dim3 dn Hdn; (destruct j as [|[|j]]; [| |lia]); reflexivity). rewrite Ei.
  replace ((2 * dn + j) / 2)%nat with dn by (apply (Nat.div_unique _ 2 dn j); lia).
  destruct (get_face_ok s dn j S Hdn Hj) as (f & s1 & Ef & S1 & Rf & _). rewrite Ef. cbn [bind].
  set (d1 := nx dn) in *. set (d2 := pv dn) in *. assert (Hd1 : (d1 < 3)%nat) by (apply nx_lt; auto). assert (Hd2 : (d2 < 3)%nat) by (apply pv_lt; auto). assert (d1 <> d2) as Hne by (unfold d1, d2; dim3 dn Hdn; discriminate).
  pose proof have3_all as (_ & _ & _ & _ & Hh). pose proof (Hh (length ps) d1 d2 Hp Hd1 Hd2 Hne) as Hw. rewrite need_ok by lia. cbn [bind].
  destruct (lag_dir3_ok s1 d1 2 (map (fun p => ent (pr p) d1) ps) S1 Hd1 ltac:(lia)) as (wt1 & s2 & E2 & S2 & _ & L2 & W2). rewrite E2. cbn [bind].
  destruct (lag_dir3_ok s2 d2 2 (map (fun p => ent (pr p) d2) ps) S2 Hd2 ltac:(lia)) as (wt2 & s3 & E3 & S3 & _ & L3 & W3). rewrite E3. cbn [bind].
  rewrite map_length in L2, W2, L3, W3. exists s3. split; [auto|]. set (pn := length ps) in *. set (n1 := nn fd d1) in *. set (m2 := nn fd d2) in *. pose proof (n2 d1 Hd1) as N1. pose proof (n2 d2 Hd2) as N2. fold n1 in N1. fold m2 in N2.
  assert (Rs : forall i p e, nth_error ps i = Some p -> nth i (map (fun p => ent (pr p) e) ps) 0 = ent (pr p) e) by (intros i p e Hin; apply nth_error_nth; rewrite nth_error_map, Hin; auto).
  assert (FT : forall x y l d p, ent (pr p) dn = side_r j -> T (ords d1 x d2 y dn l) d (pr p) = rsum n1 (fun a1 => bs d1 x a1 (ent (pr p) d1) * rsum m2 (fun a2 => bs d2 y a2 (ent (pr p) d2) * FF dn l d a1 a2 (side_r j)))).
  { intros x y l d p E. unfold d1, d2, n1, m2. rewrite face_T by auto. rewrite E. reflexivity. }
  assert (Row : forall d, (d < 3)%nat -> (slice <- mxm R P (repeat 0 (3 * n1 * pn)) n1 (arr_at (fx f) d) m2 wt2 (3 * pn) ;;
    mapM (fun '(i, p) =>
      v <- tensor_mtxm R 0 Rplus Rmult (repeat 0 9) 3 (from wt1 (3 * i * n1)) n1 (from slice (3 * i * n1)) 3 ;;
      let r := ent (px p) d - ent v 0 in
      Ok (r, ent v 1, ent v 3, [r * ent v 2; r * ent v 4; r * ent v 6])) (numbered ps)) = Ok (map (frow dn d) ps)).
  { intros d Hd. destruct (Rf d Hd) as (Lx & _ & V). fold d1 d2 in Lx, V. fold n1 m2 in Lx, V.
    destruct (good_mxm _ _ _ _ _ G (repeat 0 (3 * n1 * pn)) n1 (arr_at (fx f) d) m2 wt2 (3 * pn)) as (C & EC & LC & WC & _); [rewrite repeat_length; lia|auto|lia|].
    rewrite EC. cbn [bind]. rewrite repeat_length in LC. rewrite <- (map_numbered (frow dn d)). apply mapM_ok. intros [i p] Hin. apply in_numbered in Hin. pose proof (nth_error_Some_lt _ _ _ Hin) as Hi. fold pn in Hi. cbn [snd].
    assert (3 * i * n1 + 3 * n1 <= 3 * n1 * pn)%nat by nia.
    destruct (tensor_mtxm_ok R 0 1 Rplus Rmult Rminus Ropp RTheory (repeat 0 9) 3 (from wt1 (3 * i * n1)) n1 (from C (3 * i * n1)) 3) as (v & Ev & Lv & Wv & _); [cbn; lia|unfold from; rewrite skipn_length; lia|unfold from; rewrite skipn_length; lia|].
    rewrite Ev. cbn [bind].
    assert (Vv : forall x y, (x < 3)%nat -> (y < 3)%nat -> ent v (x + y * 3) = T (ords d1 x d2 y dn 0) d (pr p)).
    { intros x y Hx' Hy. etransitivity; [apply Wv; lia|]. rewrite (FT x y 0%nat d p (Hside p (nth_error_In _ _ Hin))). unfold MtB. rewrite sum_rs. apply rsum_ext. intros a1 Ha1. unfold from. f_equal.
      - etransitivity; [apply (get_skipn R 0)|]. rewrite <- (Rs i p d1 Hin), <- (W2 i x a1) by (auto; lia). apply gget. fold n1. lia.
      - etransitivity; [apply (get_skipn R 0)|]. replace (3 * i * n1 + (a1 + y * n1))%nat with (a1 + (3 * i + y) * n1)%nat by lia. etransitivity; [apply WC; lia|]. unfold MB. rewrite sum_rs. apply rsum_ext. intros a2 Ha2. rewrite Rmult_comm. f_equal.
        + rewrite <- (Rs i p d2 Hin), <- (W3 i y a2) by (auto; lia). apply gget. fold m2. lia.
        + etransitivity; [|apply (V a1 a2); auto]. apply gget. lia. }
    pose proof (Vv 0 0 ltac:(lia) ltac:(lia))%nat as V0. pose proof (Vv 1 0 ltac:(lia) ltac:(lia))%nat as V1. pose proof (Vv 2 0 ltac:(lia) ltac:(lia))%nat as V2. pose proof (Vv 0 1 ltac:(lia) ltac:(lia))%nat as V3. pose proof (Vv 1 1 ltac:(lia) ltac:(lia))%nat as V4. pose proof (Vv 0 2 ltac:(lia) ltac:(lia))%nat as V6.
    cbn [Nat.add Nat.mul] in V0, V1, V2, V3, V4, V6. rewrite V0, V1, V2, V3, V4, V6. unfold frow, d1, d2. dim3 dn Hdn; cyc; reflexivity. }
  match goal with |- context [mapM ?f dims] => rewrite (mapM_three f _ Row) end. cbn [bind].
  destruct (compact_ok (El 0 [] [] [] [] [[]; []]) eq_refl wt2 m2 pn ltac:(rewrite L3; fold m2; lia)) as (w & Ew & Lw & Cw). rewrite Ew. cbn [bind].
  assert (Jn : forall d, (d < 3)%nat -> (slice <- mxm R P (repeat 0 (3 * n1 * pn)) n1 (arr_at (fdxdn f) d) m2 w pn ;;
    mapM (fun i => tensor_dot R 0 Rplus Rmult (from wt1 (3 * i * n1)) (from slice (i * n1)) n1) (seq 0 pn)) = Ok (map (fun p => T (ord dn) d (pr p)) ps)).
  { intros d Hd. destruct (Rf d Hd) as (_ & Lx & V). fold d1 d2 in Lx, V. fold n1 m2 in Lx, V.
    destruct (good_mxm _ _ _ _ _ G (repeat 0 (3 * n1 * pn)) n1 (arr_at (fdxdn f) d) m2 w pn) as (C & EC & LC & WC & _); [rewrite repeat_length; lia|auto|rewrite Lw, L3; fold m2; lia|].
    rewrite EC. cbn [bind]. rewrite repeat_length in LC. unfold pn. apply mapM_seq. intros i p Hin. pose proof (nth_error_Some_lt _ _ _ Hin) as Hi. fold pn in Hi. assert (3 * i * n1 + 3 * n1 <= 3 * n1 * pn)%nat by nia.
    rewrite (tensor_dot_ok R 0 1 Rplus Rmult Rminus Ropp RTheory) by (unfold from; rewrite skipn_length; lia). f_equal.
    assert (Eo : ord dn = ords d1 0 d2 0 dn 1) by (unfold d1, d2; dim3 dn Hdn; reflexivity). rewrite Eo, FT by (apply Hside; eapply nth_error_In; eauto). rewrite sum_rs. apply rsum_ext. intros a1 Ha1. unfold from. f_equal.
    - etransitivity; [apply (get_skipn R 0)|]. rewrite <- (Rs i p d1 Hin), <- (W2 i 0%nat a1) by (auto; lia). apply gget. fold n1. lia.
    - etransitivity; [apply (get_skipn R 0)|]. replace (i * n1 + a1)%nat with (a1 + i * n1)%nat by lia. etransitivity; [apply WC; lia|]. unfold MB. rewrite sum_rs. apply rsum_ext. intros a2 Ha2. rewrite Rmult_comm. f_equal.
      + rewrite <- (Rs i p d2 Hin), <- (W3 i 0%nat a2) by (auto; lia). rewrite (gget w _ (i * m2 + a2)) by lia. rewrite Cw by auto. apply (f_equal (get _)). fold m2. lia.
      + etransitivity; [|apply (V a1 a2); auto]. apply gget. lia. }
  match goal with |- context [mapM ?f dims] => rewrite (mapM_three f _ Jn) end. cbn [bind].
  rewrite <- mapM_numbered. f_equal. apply mapM_ext_in. intros [i p] Hin. apply in_numbered in Hin. cbn [snd].
  assert (Cc : forall d, (d < 3)%nat -> ('(r, u1, u2, h) <- rd (nth d (map (fun d => map (frow dn d) ps) dims) []) i ;; un <- rd (nth d (map (fun d => map (fun p => T (ord dn) d (pr p)) ps) dims) []) i ;; Ok (r, u1, u2, un, h)) =
     Ok (let '(r, u1, u2, h) := frow dn d p in (r, u1, u2, T (ord dn) d (pr p), h))).
  { intros d Hd. rewrite !nth_map_dims by auto. rewrite !(rd_ok _ i _ (map_nth_error _ _ _ Hin)). reflexivity. }
  match goal with |- context [mapM ?f dims] => rewrite (mapM_three f _ Cc) end. cbn [bind].
  assert (Es : forall jac resid, ent resid 0 * ent jac dn + ent resid 1 * ent jac (3 + dn) + ent resid 2 * ent jac (6 + dn) = col jac resid dn) by (intros; unfold col; ring). rewrite Es.
  unfold face1, after, steep, fstep, vstep, frow. cbn [map dims fold_left ent nth]. unfold hess. rewrite !Rplus_0_l. unfold d1, d2. clear - Hdn. dim3 dn Hdn; cyc; reflexivity.
Qed.
Definition erow (de d : nat) (p : pt) : R * R * R * R * list R :=
  let r := ent (px p) d - T [0; 0; 0]%nat d (pr p) in
  let dn1 := nx de in let dn2 := pv de in
  (r, T (ord de) d (pr p), T (ord dn1) d (pr p), T (ord dn2) d (pr p),
   [r * T (ord2 de de) d (pr p); r * T (ord2 de dn1) d (pr p); r * T (ord2 de dn2) d (pr p); r * T (ord2 dn1 dn1) d (pr p); r * T (ord2 dn2 dn2) d (pr p)]).
Lemma edge3_eq s ps tol de i j : good_st s -> (1 <= npt_max fd)%nat -> (de < 3)%nat -> (i < 2)%nat -> (j < 2)%nat ->
  let fl := N.lor (at_dir (N.of_nat (j + 1)) (nx de)) (at_dir (N.of_nat (i + 1)) (pv de)) in
  (exists p0 ps', ps = p0 :: ps' /\ N.land (flags p0) FLAG_MASK3 = fl) -> (forall p, In p ps -> ent (pr p) (nx de) = side_r j /\ ent (pr p) (pv de) = side_r i) ->
  exists s', good_st s' /\ findpt_edge3 DBL_MAX P fd s ps tol = (out <- mapM (edge1 tol de fl) ps ;; Ok (out, s')).
Proof.
  intros S Hmax Hde Hi Hj fl (p0 & ps' & Eps & Efl) Hside. unfold findpt_edge3. assert (R0 : rd ps 0 = Ok p0) by (rewrite Eps; reflexivity). rewrite R0. cbn [bind]. rewrite Efl. clear R0 Eps.
  assert (Ei : edge_index3 fl = (4 * de + (2 * i + j))%nat) by (unfold fl; dim3 de Hde; (destruct i as [|[|i]]; [| |lia]); (destruct j as [|[|j]]; [| |lia]); reflexivity). rewrite Ei.
  replace ((4 * de + (2 * i + j)) / 4)%nat with de by (apply (Nat.div_unique _ 4 de (2 * i + j)); lia).
  destruct (get_edge3_ok s de i j S Hde Hi Hj) as (e & s1 & Ee & S1 & Re & _). rewrite Ee. cbn [bind].
  pose proof have3_all as (_ & _ & _ & _ & Hh). pose proof (Hh 1%nat de (nx de) Hmax Hde (nx_lt de Hde) ltac:(dim3 de Hde; discriminate)) as Hw. rewrite need_ok by lia. cbn [bind].
  pose proof (n2 de Hde) as N2. set (n := nn fd de) in *.
  match goal with |- context [mapS ?f s1 ps] => set (step := f) end.
  assert (St : forall s p, good_st s -> ent (pr p) (nx de) = side_r j /\ ent (pr p) (pv de) = side_r i -> exists s', good_st s' /\ step s p = (o <- edge1 tol de fl p ;; Ok (o, s'))).
  { clear s1 Ee S1 s S p0 ps' Efl. intros s p S [Sj Si]. unfold step.
    destruct (lag_dir3_ok s de 2 [ent (pr p) de] S Hde ltac:(lia)) as (wt & s2 & E2 & S2 & _ & L2 & W2). rewrite E2. cbn [bind]. cbn [length] in L2, W2. fold n in L2, W2. exists s2. split; [auto|].
    assert (Wt : forall q k, (q < 3)%nat -> (k < n)%nat -> get wt (k + q * n) = bs de q k (ent (pr p) de)).
    { intros q k Hq Hk. etransitivity; [|apply (W2 0%nat q k); lia]. apply (f_equal (get wt)). lia. }
    assert (ET : forall x l1 l2 d, T (ords de x (nx de) l1 (pv de) l2) d (pr p) = rsum n (fun k => bs de x k (ent (pr p) de) * EE de l1 l2 d k (side_r j) (side_r i))) by (intros; rewrite edge_T, Sj, Si by auto; reflexivity).
    assert (Row : forall d, (d < 3)%nat -> (dx <- mtxv R P (repeat 0 3) 3 wt (arr_at (ex3 e) d) n ;;
      let r := ent (px p) d - ent dx 0 in
      dx1 <- mtxv R P dx 2 wt (arr_at (dxdn1 e) d) n ;;
      dx2 <- mtxv R P dx1 2 wt (arr_at (dxdn2 e) d) n ;;
      h1 <- tensor_dot R 0 Rplus Rmult wt (arr_at (d2xdn1 e) d) n ;;
      h2 <- tensor_dot R 0 Rplus Rmult wt (arr_at (d2xdn2 e) d) n ;;
      Ok (r, ent dx 1, ent dx1 0, ent dx2 0, [r * ent dx 2; r * ent dx1 1; r * ent dx2 1; r * h1; r * h2])) = Ok (erow de d p)).
    { intros d Hd.
      destruct (dir_ok de e i j (ex3 e) 0 0 d wt (repeat 0 3) 3 (fun q k => bs de q k (ent (pr p) de))) as (dx & Edx & Ldx & Vdx & _); [auto|auto|auto|tauto|cbn; lia|fold n; lia|auto|]. fold n in Edx, Vdx. rewrite Edx. cbn [bind]. cbn [repeat length] in Ldx.
      destruct (dir_ok de e i j (dxdn1 e) 1 0 d wt dx 2 (fun q k => bs de q k (ent (pr p) de))) as (dx1 & Edx1 & Ldx1 & Vdx1 & _); [auto|auto|auto|tauto|lia|fold n; lia|intros; apply Wt; auto; lia|]. fold n in Edx1, Vdx1. rewrite Edx1. cbn [bind].
      destruct (dir_ok de e i j (dxdn2 e) 0 1 d wt dx1 2 (fun q k => bs de q k (ent (pr p) de))) as (dx2 & Edx2 & Ldx2 & Vdx2 & _); [auto|auto|auto|tauto|lia|fold n; lia|intros; apply Wt; auto; lia|]. fold n in Edx2, Vdx2. rewrite Edx2. cbn [bind].
      destruct (edge_ends e de i j d Hde Re Hd (d2xdn1 e) 2 0 ltac:(tauto)) as [L1 V1]. destruct (edge_ends e de i j d Hde Re Hd (d2xdn2 e) 0 2 ltac:(tauto)) as [L3 V3]. fold n in L1, V1, L3, V3.
      rewrite !(tensor_dot_ok R 0 1 Rplus Rmult Rminus Ropp RTheory) by lia. cbn [bind].
      assert (Dot : forall a l1 l2, (forall k, (k < n)%nat -> get a k = EE de l1 l2 d k (side_r j) (side_r i)) -> sum R 0 Rplus n (fun k => TensorSpec.get R 0 wt k * TensorSpec.get R 0 a k) = T (ords de 0 (nx de) l1 (pv de) l2) d (pr p)).
      { intros a l1 l2 Va. rewrite ET, sum_rs. apply rsum_ext. intros k Hk. f_equal; [|apply Va; auto]. etransitivity; [|apply (Wt 0%nat k); lia]. apply gget. lia. }
      rewrite (Dot _ 2 0)%nat, (Dot _ 0 2)%nat by auto.
      assert (D0 : forall q, (q < 3)%nat -> ent dx q = T (ords de q (nx de) 0 (pv de) 0) d (pr p)) by (intros q Hq; rewrite ET; apply Vdx; auto).
      assert (D1 : forall q, (q < 2)%nat -> ent dx1 q = T (ords de q (nx de) 1 (pv de) 0) d (pr p)) by (intros q Hq; rewrite ET; apply Vdx1; auto).
      assert (D2 : forall q, (q < 2)%nat -> ent dx2 q = T (ords de q (nx de) 0 (pv de) 1) d (pr p)) by (intros q Hq; rewrite ET; apply Vdx2; auto).
      rewrite !D0, !D1, !D2 by lia. unfold erow. clear - Hde. dim3 de Hde; cyc; reflexivity. }
    match goal with |- context [mapM ?f dims] => rewrite (mapM_three f _ Row) end. cbn [bind].
    unfold edge1, after, steep, fstep, estep, vstep, erow. cbn [map dims fold_left ent nth seq repeat]. unfold hess. rewrite !Rplus_0_l. clearbody fl. clear - Hde. dim3 de Hde; cyc; (destruct (reject_prior_step_q3 DBL_MAX _ p tol) as [out [|]]; reflexivity). }
  clearbody step. clear Ee Efl. revert s1 S1. induction ps as [|p ps IH]; intros s1 S1; cbn [mapS mapM bind].
  - exists s1. auto.
  - destruct (St s1 p S1 (Hside p (or_introl eq_refl))) as (s2 & S2 & E2). rewrite E2. destruct (IH (fun q Hq => Hside q (or_intror Hq)) s2 S2) as (s3 & S3 & E3). exists s3. split; [auto|].
    destruct (edge1 tol de fl p) as [o| | |]; cbn [bind]; try reflexivity. rewrite E3. destruct (mapM (edge1 tol de fl) ps); reflexivity.
Qed.

Definition cflag (k : nat) : N := N.lor (N.lor (at_dir (N.of_nat (k mod 2 + 1)) 0) (at_dir (N.of_nat ((k / 2) mod 2 + 1)) 1)) (at_dir (N.of_nat (k / 4 + 1)) 2).
Lemma pt3_eq s ps tol k : good_st s -> (k < 8)%nat ->
  (exists p0 ps', ps = p0 :: ps' /\ N.land (flags p0) FLAG_MASK3 = cflag k) -> (forall p, In p ps -> pr p = corner k) ->
  exists s', good_st s' /\ findpt_pt3 DBL_MAX P fd s ps tol = (out <- mapM (pt1 tol (cflag k)) ps ;; Ok (out, s')).
Proof.
  intros S Hk (p0 & ps' & Eps & Efl) Hc. unfold findpt_pt3. assert (R0 : rd ps 0 = Ok p0) by (rewrite Eps; reflexivity). rewrite R0. cbn [bind]. rewrite Efl.
  assert (Ei : point_index3 (cflag k) = k) by (do 8 (destruct k as [|k]; [reflexivity|]); lia). rewrite Ei.
  destruct (get_pt3_ok s k S Hk) as (g & s1 & Eg & S1 & Gx & Gj & Gh). rewrite Eg. cbn [bind]. exists s1. split; [auto|].
  f_equal. apply mapM_ext_in. intros p Hin. rewrite Gx, Gj, Gh. pose proof (Hc p Hin) as Ec. unfold pt1, after, steep, fstep, estep, vstep, hess, residual. rewrite Ec.
  destruct (reject_prior_step_q3 DBL_MAX _ p tol) as [out [|]]; reflexivity.
Qed.

(** The entries of the jacobian and the second derivatives are what their names say. *)
Lemma rsum_der3 n (f g : nat -> R -> R) x : (forall i, (i < n)%nat -> derivable_pt_lim (f i) x (g i x)) -> derivable_pt_lim (fun x => rsum n (fun i => f i x)) x (rsum n (fun i => g i x)).
Proof. apply (rsum_der' (El 0 [] [] [] [] [[]; []]) eq_refl). Qed.
Lemma T_der de ks d r v : (de < 3)%nat -> length ks = 3%nat -> (nth de ks 0 <= 1)%nat -> length r = 3%nat -> v = ent r de ->
  derivable_pt_lim (fun x => T ks d (upd r de x)) v (T (upd ks de (S (nth de ks 0%nat))) d r).
Proof.
  intros Hde Lk Hm Lr ->. set (c := fun k => EE de (nth (nx de) ks 0%nat) (nth (pv de) ks 0%nat) d k (ent r (nx de)) (ent r (pv de))).
  apply derivable_pt_lim_ext with (f := fun x => rsum (nn fd de) (fun k => bs de (nth de ks 0%nat) k x * c k)).
  - intros x. rewrite (T_dir de) by auto. unfold c. destruct r as [|r0 [|r1 [|r2 [|? ?]]]]; try discriminate. dim3 de Hde; reflexivity.
  - rewrite (T_dir de) by auto. assert (E : rsum (nn fd de) (fun k => bs de (nth de (upd ks de (S (nth de ks 0%nat))) 0%nat) k (ent r de) * EE de (nth (nx de) (upd ks de (S (nth de ks 0%nat))) 0%nat) (nth (pv de) (upd ks de (S (nth de ks 0%nat))) 0%nat) d k (ent r (nx de)) (ent r (pv de))) =
      rsum (nn fd de) (fun k => bs de (S (nth de ks 0%nat)) k (ent r de) * c k)).
    { unfold c. destruct ks as [|k0 [|k1 [|k2 [|? ?]]]]; try discriminate. dim3 de Hde; reflexivity. }
    rewrite E. apply (rsum_der3 (nn fd de) _ (fun k x => bs de (S (nth de ks 0%nat)) k x * c k)).
    intros k Hk. apply derivable_pt_lim_ext with (f := fun x => c k * bs de (nth de ks 0%nat) k x); [intros; ring|].
    rewrite Rmult_comm. apply der_scal. apply bas_der; auto. apply (el_dist _ _ _ de (Hel de Hde)).
Qed.
End El3.
