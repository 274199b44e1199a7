(** The evaluation of the element's map and its derivatives in findpts_el_2.c. *)
From Verif Require Import Base BaseLemmas Tensor TensorSpec TensorProof Poly PolySpec PolyProof1 PolyProof2 PolyProof3 PolyImpSyntax PolyImp PolyGll PolyGllSpec PolyImpProof PolyGllCheck PolyGllProof LobBndSpec FindptsEl2.
From Coq Require Import Reals Lra NArith.
Open Scope R_scope.
Notation get := PolySpec.get.

(** The k-th derivative (k <= 2) of the i-th basis function. *)
Definition bas (z : arr) (n k i : nat) (x : R) : R :=
  match k with 0%nat => basis z n i x | 1%nat => wt z n i * L1 (get z) n x i | _ => wt z n i * L2 (get z) n x i end.
Lemma bas_der z n k i x : distinct z n -> (i < n)%nat -> (k <= 1)%nat -> derivable_pt_lim (fun x => bas z n k i x) x (bas z n (S k) i x).
Proof.
  intros D Hi Hk. destruct k as [|[|k]]; [| |lia]; cbn [bas].
  - apply (derivable_pt_lim_ext (fun y => wt z n i * L0 (get z) n y i)); [intros; symmetry; apply basis_L0; auto|]. apply der_scal, L0_der.
  - apply der_scal, L1_der.
Qed.
Lemma evaluates_bas z n der x p p' k i : distinct z n -> evaluates z n der x p p' -> (k <= der)%nat -> (der <= 2)%nat -> (i < n)%nat -> get p' (k * n + i) = bas z n k i x.
Proof.
  intros D (L & O & E) Hk Hd Hi. destruct (E i Hi) as (E0 & E1 & E2). destruct k as [|[|[|k]]]; [| | |lia].
  - exact E0.
  - rewrite Nat.mul_1_l. eapply uniqueness_limite; [apply E1; lia|]. apply (bas_der z n 0); auto.
  - destruct (E2 ltac:(lia)) as (g & G1 & G2). eapply uniqueness_limite; [exact G2|].
    apply (derivable_pt_lim_ext (fun y => bas z n 1 i y)); [|apply bas_der; auto].
    intros y. eapply uniqueness_limite; [|apply G1]. apply (bas_der z n 0); auto.
Qed.
Lemma basis_ext z z' n i x : (i < n)%nat -> (forall j, (j < n)%nat -> get z j = get z' j) -> basis z n i x = basis z' n i x.
Proof. intros Hi H. unfold basis. apply rprod_ext. intros j Hj. rewrite !H by auto. auto. Qed.
Lemma evaluates_ext2 z z' n der x p p' : (forall j, (j < n)%nat -> get z j = get z' j) -> evaluates z n der x p p' -> evaluates z' n der x p p'.
Proof.
  intros H (L & O & E). split; [auto|]. split; [auto|]. intros i Hi. destruct (E i Hi) as (E0 & E1 & E2).
  assert (B : forall y, basis z n i y = basis z' n i y) by (intros; apply basis_ext; auto).
  split; [rewrite <- B; auto|]. split; intros Hd.
  - apply (derivable_pt_lim_ext (basis z n i)); auto.
  - destruct (E2 Hd) as (g & G1 & G2). exists g. split; [|auto]. intros y. apply (derivable_pt_lim_ext (basis z n i)); auto.
Qed.

(** f evaluates the basis, given data with Q. *)
Definition fit (f : lagrange_fun) (n : nat) (z : arr) (Q : arr -> Prop) : Prop :=
  forall data p der x, Q data -> (der <= 2)%nat -> (n * (der + 1) <= length p)%nat ->
    exists p' data', f p data n der x = Ok (p', data') /\ Q data' /\ evaluates z n der x p p'.

Lemma lag_fit nn n zs (w : arr) : (2 <= n)%nat -> lobatto_points nn n zs -> (gll_lag_size n <= length w)%nat -> exists lag gd Q,
  gll_lag_setup nn w n = Ok (Some lag, gd) /\ fit lag n zs Q /\ Q gd.
Proof.
  intros Hn LP Hw. destruct (Nat.le_gt_cases n 24) as [H|H].
  - destruct (setup_fix_ok n ltac:(lia) nn w) as (gd & E & _ & Hr).
    { unfold gll_lag_size in Hw. rewrite table_24 in Hw. destruct (Nat.leb_spec n 24); lia. }
    eexists; exists gd, (ready_fix n). split; [exact E|]. split; [|auto]. intros data p der x Hq Hd Hp.
    destruct (eval_fix_ok n ltac:(lia) data p der x Hq Hd Hp) as (p' & E' & Ev). exists p', data. split; [auto|]. split; [auto|].
    apply (evaluates_ext2 (gll_list n)); auto. intros j Hj. destruct (lp_run _ _ _ LP (repeat 0 n)) as (a & Ea & _ & _ & Va); [rewrite repeat_length; auto|].
    destruct (nodes_fix_ok n ltac:(lia) (repeat 0 n)) as (z' & Ez & _ & Rg); [rewrite repeat_length; auto|].
    unfold lobatto_nodes in Ea. rewrite table_24 in Ea. destruct (Nat.ltb_spec 24 n); [lia|]. destruct (Nat.leb_spec 2 n); [|lia]. rewrite Ez in Ea. injection Ea as <-.
    rewrite <- Va by auto. symmetry. apply (Rg j Hj).
  - assert (Ls : (gll_lag_size n = 9 * n)%nat) by (unfold gll_lag_size; rewrite table_24; destruct (Nat.leb_spec n 24); lia).
    destruct (lp_run _ _ _ LP w) as (a & Ea & La & Oa & Va); [lia|].
    unfold lobatto_nodes in Ea. rewrite table_24 in Ea. destruct (Nat.ltb_spec 24 n); [|lia].
    assert (D : distinct a n) by (intros i j Hi Hj; rewrite !Va by auto; apply (lp_distinct _ _ _ LP); auto).
    destruct (setup_big_ok nn w n a) as (gd & E & [Lg _] & Hr); auto; [lia|].
    exists lagrange_eval, gd, (fun g => ready a g n). split; [exact E|]. split; [|auto]. intros data p der x Hq Hd Hp.
    destruct (eval_ready a data n p der x ltac:(lia) Hq D Hd Hp) as (p' & g' & E' & Hr' & Ev). exists p', g'. split; [auto|]. split; [auto|apply (evaluates_ext2 a); auto].
Qed.

(** The weights of several points. *)
Lemma lag_all_ok f n z Q der : fit f n z Q -> distinct z n -> (der <= 2)%nat -> forall rs data, Q data ->
  exists w data', lag_all f data n der rs = Ok (w, data') /\ Q data' /\ length w = (length rs * ((der + 1) * n))%nat /\
    forall i k a, (i < length rs)%nat -> (k <= der)%nat -> (a < n)%nat -> get w (i * ((der + 1) * n) + k * n + a) = bas z n k a (nth i rs 0).
Proof.
  intros F D Hd. induction rs as [|r rs IH]; intros data Hq.
  - exists [], data. split; [reflexivity|]. split; [auto|]. split; [reflexivity|]. cbn [length]. intros; lia.
  - cbn [lag_all]. destruct (F data (repeat 0 ((der + 1) * n)) der r Hq Hd) as (p & d1 & E1 & Q1 & Ev); [rewrite repeat_length; lia|]. rewrite E1. cbn [bind].
    destruct (IH d1 Q1) as (w & d2 & E2 & Q2 & Lw & H). rewrite E2. cbn [bind]. exists (p ++ w), d2. split; [auto|]. split; [auto|].
    assert (Lp : length p = ((der + 1) * n)%nat) by (destruct Ev as [L _]; rewrite L, repeat_length; auto).
    split; [rewrite app_length, Lw, Lp; cbn [length]; lia|]. intros i k a Hi Hk Ha. unfold PolySpec.get. destruct i as [|i].
    + rewrite app_nth1 by (rewrite Lp; nia). cbn [nth Nat.mul Nat.add]. apply (evaluates_bas z n der r (repeat 0 ((der + 1) * n)) p); auto.
    + rewrite app_nth2 by (rewrite Lp; nia). cbn [nth]. rewrite <- (H i k a) by (cbn [length] in Hi; lia). unfold PolySpec.get. f_equal. rewrite Lp. nia.
Qed.

Lemma mapM_ext_in {A B} (f g : A -> res B) l : (forall x, In x l -> f x = g x) -> mapM f l = mapM g l.
Proof. induction l as [|x l IH]; intros H; [reflexivity|]. cbn [mapM]. rewrite H by (left; auto). rewrite IH by (intros; apply H; right; auto). auto. Qed.
Lemma numbered_from {A} (ps : list A) : forall k i p, In (i, p) (combine (seq k (length ps)) ps) -> exists j, i = (k + j)%nat /\ nth_error ps j = Some p.
Proof.
  induction ps as [|q ps IH]; intros k i p H; [destruct H|]. cbn [length seq combine In] in H. destruct H as [E|H].
  - injection E as <- <-. exists 0%nat. split; [lia|auto].
  - destruct (IH (S k) i p H) as (j & -> & E). exists (S j). split; [lia|auto].
Qed.
Lemma in_numbered ps i p : In (i, p) (numbered ps) -> nth_error ps i = Some p.
Proof. intros H. unfold numbered in H. destruct (numbered_from ps 0 i p H) as (j & -> & E). auto. Qed.
Lemma mapM_numbered {B} (g : pt -> res B) ps : mapM (fun ip => g (snd ip)) (numbered ps) = mapM g ps.
Proof.
  unfold numbered. generalize 0%nat. induction ps as [|p ps IH]; intros k; [reflexivity|]. cbn [length seq combine mapM snd]. rewrite IH. auto.
Qed.
Lemma map_numbered {B} (g : pt -> B) ps : map (fun ip => g (snd ip)) (numbered ps) = map g ps.
Proof.
  unfold numbered. generalize 0%nat. induction ps as [|p ps IH]; intros k; [reflexivity|]. cbn [length seq combine map snd]. rewrite IH. auto.
Qed.
Lemma need_ok have want : (want <= have)%nat -> need have want = Ok tt.
Proof. intros H. unfold need. rewrite (proj2 (Nat.leb_le _ _) H). auto. Qed.
Lemma part_ok a o n : (o + n <= length a)%nat -> part a o n = Ok (firstn n (skipn o a)).
Proof. intros H. unfold part. rewrite (proj2 (Nat.leb_le _ _) H). auto. Qed.
Lemma get_part (a : arr) o n i : (i < n)%nat -> get (firstn n (skipn o a)) i = get a (o + i).
Proof. intros H. etransitivity; [apply (get_firstn R 0); auto|]. apply (get_skipn R 0). Qed.
Lemma len_part (a : arr) o n : (o + n <= length a)%nat -> length (firstn n (skipn o a)) = n.
Proof. intros H. rewrite firstn_length, skipn_length. lia. Qed.
Lemma get_add (a b : arr) i : get (a ++ b) i = if (i <? length a)%nat then get a i else get b (i - length a).
Proof. apply (get_app R 0). Qed.

Lemma gget (a : arr) i j : i = j -> TensorSpec.get R 0 a i = get a j.
Proof. intros ->. reflexivity. Qed.

(** The sides -1 and 1. *)
Definition side_r (j : nat) : R := if (j =? 0)%nat then -1 else 1.

Section El.
Variable DBL_MAX : R.
Variable P : products R.
Variable G : good R 0 Rplus Rmult P.
Variable fd : el.
Variable zd : nat -> arr.
Variable Qd : nat -> arr -> Prop.
Record elem_dir (d : nat) : Prop := {
  el_n : (2 <= nn fd d)%nat;
  el_dist : distinct (zd d) (nn fd d);
  el_first : get (zd d) 0 = -1;
  el_last : get (zd d) (nn fd d - 1) = 1;
  el_zlen : length (arr_at (zz fd) d) = nn fd d;
  el_z : forall i, (i < nn fd d)%nat -> get (arr_at (zz fd) d) i = get (zd d) i;
  el_fit : fit (get_lag fd d) (nn fd d) (zd d) (Qd d);
  el_wlen : length (arr_at (wtend fd) d) = (6 * nn fd d)%nat;
  el_w : forall j k a, (j < 2)%nat -> (k <= 2)%nat -> (a < nn fd d)%nat -> get (arr_at (wtend fd) d) (3 * j * nn fd d + k * nn fd d + a) = bas (zd d) (nn fd d) k a (side_r j);
  el_x : (nn fd 0 * nn fd 1 <= length (arr_at (ux fd) d))%nat }.
Hypothesis Hel : forall d, (d < 2)%nat -> elem_dir d.
Hypothesis Hux : length (ux fd) = 2%nat.
Notation nr := (nn fd 0).
Notation ns := (nn fd 1).

(** The derivative of order k in r and l in s of coordinate d at r. *)
Definition T (k l d : nat) (r : list R) : R :=
  apply2 R 0 Rplus Rmult (fun i => bas (zd 0) nr k i (ent r 0)) nr (fun j => bas (zd 1) ns l j (ent r 1)) ns (arr_at (ux fd) d).
Definition residual (p : pt) : list R := [ent (px p) 0 - T 0 0 0 (pr p); ent (px p) 1 - T 0 0 1 (pr p)].
Definition jacobian (r : list R) : list R := [T 1 0 0 r; T 0 1 0 r; T 1 0 1 r; T 0 1 1 r].
(** The order m in direction de and l in the other one. *)
Definition Te (de m l d : nat) (r : list R) : R := if (de =? 0)%nat then T m l d r else T l m d r.

(** What one call does to one point. *)
Definition area1 (tol : R) (p : pt) : res pt :=
  let '(out, rejected) := reject_prior_step_q DBL_MAX (residual p) p tol in
  if rejected then Ok out else newton_area out (jacobian (pr p)) (residual p) p tol.
Definition rhes (p : pt) (de : nat) : R := ent (residual p) 0 * Te de 2 0 0 (pr p) + ent (residual p) 1 * Te de 2 0 1 (pr p).
Definition edge1 (tol : R) (dn : nat) (fl : N) (p : pt) : res pt :=
  let de := (1 - dn)%nat in let resid := residual p in let jac := jacobian (pr p) in
  let '(out, rejected) := reject_prior_step_q DBL_MAX resid p tol in
  if rejected then Ok out else
  if Rlt_dec ((ent resid 0 * ent jac dn + ent resid 1 * ent jac (2 + dn)) * ent (pr p) dn) 0 then newton_area out jac resid p tol
  else newton_edge out jac (rhes p de) resid de dn fl p tol.
Definition pt1 (tol : R) (fl : N) (p : pt) : res pt :=
  let resid := residual p in let jac := jacobian (pr p) in
  let '(out, rejected) := reject_prior_step_q DBL_MAX resid p tol in
  if rejected then Ok out else
  let steep d := (ent jac d * ent resid 0 + ent jac (2 + d) * ent resid 1) * ent (pr p) d in
  let edge de dn := newton_edge out jac (rhes p de) resid de dn (N.land fl (at_dir 3 dn)) p tol in
  if Rlt_dec (steep 0%nat) 0 then if Rlt_dec (steep 1%nat) 0 then newton_area out jac resid p tol else edge 0%nat 1%nat
  else if Rlt_dec (steep 1%nat) 0 then edge 1%nat 0%nat
  else Ok (set_step out (pr p) 0 (N.lor fl CONVERGED_FLAG)).

(** ** The state *)
Definition edge_right (e : gedge) (dn j : nat) : Prop := let de := (1 - dn)%nat in
  forall d, (d < 2)%nat ->
    (nn fd de <= length (arr_at (ex e) d))%nat /\ (nn fd de <= length (arr_at (edxdn e) d))%nat /\
    forall k, (k < nn fd de)%nat ->
      let u a := get (arr_at (ux fd) d) (if (dn =? 0)%nat then a + k * nr else k + a * nr)%nat in
      get (arr_at (ex e) d) k = rsum (nn fd dn) (fun a => u a * bas (zd dn) (nn fd dn) 0 a (side_r j)) /\
      get (arr_at (edxdn e) d) k = rsum (nn fd dn) (fun a => u a * bas (zd dn) (nn fd dn) 1 a (side_r j)).
Definition corner (j i : nat) : list R := [side_r i; side_r j].
Definition pt_right (g : gpt) (j i : nat) : Prop :=
  gx g = [T 0 0 0 (corner j i); T 0 0 1 (corner j i)] /\ gjac g = jacobian (corner j i) /\
  ghes g = [T 2 0 0 (corner j i); T 0 2 0 (corner j i); T 2 0 1 (corner j i); T 0 2 1 (corner j i)].
Record good_st (s : st) : Prop := {
  gs_len : length (lag_data s) = 2%nat;
  gs_lag : forall d, (d < 2)%nat -> Qd d (arr_at (lag_data s) d);
  gs_edges : length (edges s) = 4%nat;
  gs_pts : length (pts s) = 4%nat;
  gs_edge : forall dn j, (dn < 2)%nat -> (j < 2)%nat -> N.land (side_init s) (shl 1 (N.of_nat dn)) <> 0%N ->
    exists e, nth_error (edges s) (2 * dn + j) = Some e /\ edge_right e dn j;
  gs_pt : forall j i, (j < 2)%nat -> (i < 2)%nat -> N.land (side_init s) 4 <> 0%N ->
    exists g, nth_error (pts s) (2 * j + i) = Some g /\ pt_right g j i }.

Lemma lag_dir_ok s d der rs : good_st s -> (d < 2)%nat -> (der <= 2)%nat ->
  exists w s', lag_dir fd s d der rs = Ok (w, s') /\ good_st s' /\ length w = (length rs * ((der + 1) * nn fd d))%nat /\
    forall i k a, (i < length rs)%nat -> (k <= der)%nat -> (a < nn fd d)%nat -> get w (i * ((der + 1) * nn fd d) + k * nn fd d + a) = bas (zd d) (nn fd d) k a (nth i rs 0).
Proof.
  intros S Hd Hder. destruct (Hel d Hd) as [? ? ? ? ? ? F ? ? ?]. destruct (lag_all_ok _ _ _ _ der F el_dist0 Hder rs _ (gs_lag _ S d Hd)) as (w & data & E & Qw & Lw & H).
  unfold lag_dir. rewrite E. cbn [bind]. eexists; eexists. split; [reflexivity|]. split; [|auto].
  destruct S as [S1 S2 S3 S4 S5 S6]. constructor; cbn [lag_data side_init edges pts]; auto.
  - rewrite upd_length. auto.
  - intros e He. unfold arr_at. destruct (Nat.eq_dec d e) as [->|Hn].
    + rewrite (nth_error_nth _ _ [] (nth_error_upd_eq (lag_data s) e data ltac:(lia))). auto.
    + destruct (nth_error (lag_data s) e) as [x|] eqn:Ee; [|apply nth_error_None in Ee; lia].
      rewrite (nth_error_nth _ _ [] (eq_trans (nth_error_upd_ne (lag_data s) d e data Hn) Ee)). rewrite <- (nth_error_nth _ _ [] Ee). apply S2. auto.
Qed.

(** ** The work array *)
Lemma have_all : (forall pn, pn <= npt_max fd -> (6 + 2 * (2 * nr + ns)) * pn <= have fd)%nat /\ (4 * (nr + ns) <= have fd)%nat /\ (6 * (nr + 6) <= have fd)%nat /\
  (forall pn d, pn <= npt_max fd -> d < 2 -> (10 + 3 * nn fd d) * pn <= have fd)%nat.
Proof.
  set (m := if (nr <? ns)%nat then ns else nr). assert (nr <= m /\ ns <= m)%nat as [M0 M1] by (unfold m; destruct (Nat.ltb_spec nr ns); lia).
  set (dm := fun wsize x : nat => if (wsize <? x)%nat then x else wsize).
  assert (D : forall a b, (a <= dm a b /\ b <= dm a b)%nat) by (intros a b; unfold dm; destruct (Nat.ltb_spec a b); lia).
  set (w0 := ((6 + 2 * (2 * nr + ns)) * npt_max fd)%nat). set (w1 := dm w0 (4 * (nr + ns))%nat). set (w2 := dm w1 (6 * (nr + 6))%nat). set (w3 := dm w2 (npt_max fd * (10 + 3 * m))%nat).
  destruct (D w0 (4 * (nr + ns))%nat) as [A1 B1]. destruct (D w1 (6 * (nr + 6))%nat) as [A2 B2]. destruct (D w2 (npt_max fd * (10 + 3 * m))%nat) as [A3 B3]. fold w1 in A1, B1. fold w2 in A2, B2. fold w3 in A3, B3.
  change (have fd) with w3. split; [|split; [lia|split; [lia|]]].
  - intros pn H. transitivity w0; [|lia]. unfold w0. apply Nat.mul_le_mono_l. auto.
  - intros pn d H Hd. transitivity (npt_max fd * (10 + 3 * m))%nat; [|lia]. rewrite Nat.mul_comm. apply Nat.mul_le_mono; [auto|]. destruct d as [|[|d]]; lia.
Qed.

Lemma mapM_two {B} (f : nat -> res B) a b : f 0%nat = Ok a -> f 1%nat = Ok b -> mapM f [0; 1]%nat = Ok [a; b].
Proof. intros Ha Hb. cbn [mapM]. rewrite Ha. cbn [bind]. rewrite Hb. reflexivity. Qed.
Lemma T_fold k l d r : T k l d r = sum R 0 Rplus nr (fun i => bas (zd 0) nr k i (ent r 0) * sum R 0 Rplus ns (fun j => get (arr_at (ux fd) d) (i + j * nr) * bas (zd 1) ns l j (ent r 1))).
Proof. symmetry. apply (fold2 R 0 1 Rplus Rmult Rminus Ropp RTheory). Qed.

Lemma area_eq s ps tol : good_st s -> (length ps <= npt_max fd)%nat -> exists s', good_st s' /\
  findpt_area DBL_MAX P fd s ps tol = (out <- mapM (area1 tol) ps ;; Ok (out, s')).
Proof.
  intros S Hp. unfold findpt_area. rewrite need_ok by (apply (proj1 have_all); auto). cbn [bind].
  destruct (lag_dir_ok s 0 1 (map (fun p => ent (pr p) 0) ps) S ltac:(lia) ltac:(lia)) as (wtr & s1 & E1 & S1 & L1' & W1). rewrite E1. cbn [bind].
  destruct (lag_dir_ok s1 1 1 (map (fun p => ent (pr p) 1) ps) S1 ltac:(lia) ltac:(lia)) as (wts & s2 & E2 & S2 & L2' & W2). rewrite E2. cbn [bind].
  rewrite map_length in L1', L2', W1, W2. exists s2. split; [auto|]. set (pn := length ps) in *.
  assert (Row : forall d, (d < 2)%nat -> (slice <- mxm R P (repeat 0 (2 * nr * pn)) nr (arr_at (ux fd) d) ns wts (2 * pn) ;;
     mapM (fun '(i, p) =>
      let wtr_i := skipn (2 * i * nr) wtr in let slice_i := skipn (2 * i * nr) slice in
      '(v, g) <- tensor_ig1 R 0 Rplus Rmult wtr_i nr slice_i ;;
      j1 <- tensor_i1 R 0 Rplus Rmult wtr_i nr (skipn nr slice_i) ;;
      Ok (ent (px p) d - v, [ent g 0; j1])) (numbered ps)) =
     Ok (map (fun p => (ent (px p) d - T 0 0 d (pr p), [T 1 0 d (pr p); T 0 1 d (pr p)])) ps)).
  { intros d Hd. pose proof (el_x d (Hel d Hd)) as Lx.
    destruct (good_mxm _ _ _ _ _ G (repeat 0 (2 * nr * pn)) nr (arr_at (ux fd) d) ns wts (2 * pn)) as (C & EC & LC & WC & _); [rewrite repeat_length; lia|auto|lia|].
    rewrite EC. cbn [bind]. rewrite repeat_length in LC.
    rewrite <- (map_numbered (fun p => (ent (px p) d - T 0 0 d (pr p), [T 1 0 d (pr p); T 0 1 d (pr p)]))).
    apply mapM_ok. intros [i p] Hin. apply in_numbered in Hin. pose proof (nth_error_Some_lt _ _ _ Hin) as Hi. fold pn in Hi. cbn [snd].
    assert (Lr : forall k, nth i (map (fun p => ent (pr p) k) ps) 0 = ent (pr p) k) by (intros k; apply nth_error_nth; rewrite nth_error_map, Hin; auto).
    assert (Wr : forall k a, (k <= 1)%nat -> (a < nr)%nat -> get wtr (2 * i * nr + k * nr + a) = bas (zd 0) nr k a (ent (pr p) 0)).
    { intros k a Hk Ha. rewrite <- Lr, <- W1 by (auto; lia). f_equal. lia. }
    assert (Ws : forall k a, (k <= 1)%nat -> (a < ns)%nat -> get wts (2 * i * ns + k * ns + a) = bas (zd 1) ns k a (ent (pr p) 1)).
    { intros k a Hk Ha. rewrite <- Lr, <- W2 by (auto; lia). f_equal. lia. }
    assert (Sl : forall l a, (l <= 1)%nat -> (a < nr)%nat -> get C (2 * i * nr + l * nr + a) = sum R 0 Rplus ns (fun j => get (arr_at (ux fd) d) (a + j * nr) * bas (zd 1) ns l j (ent (pr p) 1))).
    { intros l a Hl Ha. replace (2 * i * nr + l * nr + a)%nat with (a + (2 * i + l) * nr)%nat by lia. etransitivity; [apply WC; lia|]. unfold MB. apply sum_ext. intros j Hj.
      f_equal. rewrite <- Ws by auto. apply gget. lia. }
    assert (2 * i * nr + 2 * nr <= 2 * nr * pn)%nat by nia.
    rewrite (ig1_ok R 0 1 Rplus Rmult Rminus Ropp RTheory) by (rewrite skipn_length; lia). cbn [bind].
    rewrite (i1_ok R 0 1 Rplus Rmult Rminus Ropp RTheory) by (rewrite !skipn_length; lia). cbn [bind]. rewrite !T_fold. cbn [ent nth].
    f_equal. f_equal; [f_equal|f_equal; [|f_equal]]; unfold apply1; apply sum_ext; intros a Ha; unfold row; rewrite !(get_skipn R 0); f_equal.
    - rewrite <- (Wr 0%nat) by lia. apply gget. lia.
    - rewrite <- (Sl 0%nat) by lia. apply gget. lia.
    - rewrite <- (Wr 1%nat) by lia. apply gget. lia.
    - rewrite <- (Sl 0%nat) by lia. apply gget. lia.
    - rewrite <- (Wr 0%nat) by lia. apply gget. lia.
    - rewrite <- (Sl 1%nat) by lia. apply gget. lia. }
  match goal with |- context [mapM ?f [0; 1]%nat] => rewrite (mapM_two f _ _ (Row 0%nat ltac:(lia)) (Row 1%nat ltac:(lia))) end. cbn [bind nth].
  rewrite <- mapM_numbered. f_equal. apply mapM_ext_in. intros [i p] Hin. apply in_numbered in Hin. cbn [snd].
  rewrite !(rd_ok _ i _ (map_nth_error _ _ _ Hin)). cbn [bind]. reflexivity.
Qed.

(** ** Edges and corners *)
Lemma sum_is n f : sum R 0 Rplus n f = rsum n f.
Proof. induction n as [|n IH]; cbn [sum rsum]; [auto|]. rewrite IH. auto. Qed.
Lemma bas_end d j a : (d < 2)%nat -> (j < 2)%nat -> (a < nn fd d)%nat -> bas (zd d) (nn fd d) 0 a (side_r j) = if (j * (nn fd d - 1) =? a)%nat then 1 else 0.
Proof.
  intros Hd Hj Ha. destruct (Hel d Hd) as [H1 H2 H3 H4 ? ? ? ? ? ?]. cbn [bas].
  assert (E : side_r j = get (zd d) (j * (nn fd d - 1))).
  { destruct j as [|[|j]]; [| |lia]; unfold side_r; cbn [Nat.eqb]; [rewrite Nat.mul_0_l; auto|rewrite Nat.mul_1_l; auto]. }
  rewrite E. apply basis_node_; auto. destruct j as [|[|j]]; lia.
Qed.
Lemma sum_end d j (f : nat -> R) : (d < 2)%nat -> (j < 2)%nat -> rsum (nn fd d) (fun a => f a * bas (zd d) (nn fd d) 0 a (side_r j)) = f (j * (nn fd d - 1))%nat.
Proof.
  intros Hd Hj. pose proof (el_n d (Hel d Hd)). rewrite <- (rsum_delta (nn fd d) (j * (nn fd d - 1)) f) by (destruct j as [|[|j]]; lia).
  apply rsum_ext. intros a Ha. rewrite bas_end by auto. auto.
Qed.
Lemma map_two (l : list arr) (f : arr -> arr) d : length l = 2%nat -> (d < 2)%nat -> arr_at (map f l) d = f (arr_at l d).
Proof. intros L Hd. destruct l as [|a [|b [|? ?]]]; try discriminate. destruct d as [|[|d]]; [reflexivity|reflexivity|lia]. Qed.

Lemma edge_r_ok s : exists e2 e3, compute_edge_data_r P fd s = Ok (St (lag_data s) (side_init s) (upd (upd (edges s) 2 e2) 3 e3) (pts s)) /\
  edge_right e2 1 0 /\ edge_right e3 1 1.
Proof.
  unfold compute_edge_data_r. pose proof have_all as (_ & H1 & _ & _). rewrite need_ok by lia. cbn [bind].
  destruct (Hel 1%nat ltac:(lia)) as [Hn Ds F L Zl Z _ Wl W _]. pose proof (el_n 0%nat (Hel 0%nat ltac:(lia))) as Hn0.
  rewrite !part_ok by lia. cbn [bind]. set (a := firstn ns (skipn ns (arr_at (wtend fd) 1))). set (b := firstn ns (skipn (4 * ns) (arr_at (wtend fd) 1))).
  assert (La : length a = ns) by (apply len_part; lia). assert (Lb : length b = ns) by (apply len_part; lia).
  assert (AB : forall j k, (j < 2)%nat -> (k < ns)%nat -> get (a ++ b) (k + j * ns) = bas (zd 1) ns 1 k (side_r j)).
  { intros j k Hj Hk. rewrite get_add, La. rewrite <- W by auto. destruct j as [|[|j]]; [| |lia].
    - rewrite Nat.mul_0_l, Nat.add_0_r. rewrite (proj2 (Nat.ltb_lt k ns)) by auto. unfold a. rewrite get_part by auto. f_equal. lia.
    - destruct (Nat.ltb_spec (k + 1 * ns) ns); [lia|]. unfold b. rewrite get_part by lia. f_equal. lia. }
  assert (Dn : forall d, (d < 2)%nat -> exists w, (w0 <- mxm R P (repeat 0 (2 * nr)) nr (arr_at (ux fd) d) ns (a ++ b) 2 ;; u <- part w0 0 nr ;; v <- part w0 nr nr ;; Ok (u, v)) = Ok (firstn nr (skipn 0 w), firstn nr (skipn nr w)) /\
     length w = (2 * nr)%nat /\ forall j k, (j < 2)%nat -> (k < nr)%nat -> get w (j * nr + k) = rsum ns (fun l => get (arr_at (ux fd) d) (k + l * nr) * bas (zd 1) ns 1 l (side_r j))).
  { intros d Hd. pose proof (el_x d (Hel d Hd)) as Lx.
    destruct (good_mxm _ _ _ _ _ G (repeat 0 (2 * nr)) nr (arr_at (ux fd) d) ns (a ++ b) 2) as (C & EC & LC & WC & _); [rewrite repeat_length; lia|auto|rewrite app_length; lia|].
    rewrite EC. cbn [bind]. rewrite repeat_length in LC. exists C. rewrite !part_ok by lia. cbn [bind]. split; [auto|]. split; [auto|].
    intros j k Hj Hk. rewrite Nat.add_comm. etransitivity; [apply WC; lia|]. unfold MB. rewrite sum_is. apply rsum_ext. intros l Hl. f_equal. apply AB; auto. }
  destruct (Dn 0%nat ltac:(lia)) as (w0 & E0 & L0 & V0). destruct (Dn 1%nat ltac:(lia)) as (w1 & E1 & L1 & V1).
  match goal with |- context [mapM ?f [0; 1]%nat] => rewrite (mapM_two f _ _ E0 E1) end. cbn [bind map fst snd].
  do 2 eexists. split; [reflexivity|].
  assert (Main : forall j, (j < 2)%nat -> edge_right (Edge (if (j =? 0)%nat then ux fd else map (skipn (nr * (ns - 1))) (ux fd)) [firstn nr (skipn (j * nr) w0); firstn nr (skipn (j * nr) w1)]) 1 j).
  { intros j Hj d Hd. cbn [Nat.sub ex edxdn Nat.eqb]. pose proof (el_x d (Hel d Hd)) as Lx.
    assert (Dw : exists w, arr_at [firstn nr (skipn (j * nr) w0); firstn nr (skipn (j * nr) w1)] d = firstn nr (skipn (j * nr) w) /\ length w = (2 * nr)%nat /\
      forall k, (k < nr)%nat -> get w (j * nr + k) = rsum ns (fun l => get (arr_at (ux fd) d) (k + l * nr) * bas (zd 1) ns 1 l (side_r j))).
    { destruct d as [|[|d]]; [exists w0|exists w1|lia]; auto. }
    destruct Dw as (w & Ew & Lw & Vw). rewrite Ew. split; [|split].
    - destruct j as [|[|j]]; [| |lia]; cbn [Nat.eqb]; [nia|]. rewrite map_two, skipn_length by auto. nia.
    - rewrite len_part; [auto|]. destruct j as [|[|j]]; lia.
    - intros k Hk. split.
      + rewrite (sum_end 1 j (fun l => get (arr_at (ux fd) d) (k + l * nr))) by auto. destruct j as [|[|j]]; [| |lia]; cbn [Nat.eqb].
        * f_equal. lia.
        * rewrite map_two by auto. etransitivity; [apply (get_skipn R 0)|]. apply gget. lia.
      + rewrite get_part by auto. apply Vw. auto. }
  split; [|].
  - assert (X := Main 0%nat ltac:(lia)). cbn [Nat.eqb Nat.mul] in X. exact X.
  - assert (X := Main 1%nat ltac:(lia)). cbn [Nat.eqb] in X. rewrite Nat.mul_1_l in X. exact X.
Qed.

Lemma edge_s_ok s : exists e0 e1, compute_edge_data_s fd s = Ok (St (lag_data s) (side_init s) (upd (upd (edges s) 0 e0) 1 e1) (pts s)) /\
  edge_right e0 0 0 /\ edge_right e1 0 1.
Proof.
  unfold compute_edge_data_s. pose proof have_all as (_ & H1 & _ & _). rewrite need_ok by lia. cbn [bind].
  destruct (Hel 0%nat ltac:(lia)) as [Hn Ds F L Zl Z _ Wl W _]. pose proof (el_n 1%nat (Hel 1%nat ltac:(lia))) as Hn1.
  rewrite !part_ok by lia. cbn [bind]. set (a := firstn (2 * nr) (skipn 0 (arr_at (wtend fd) 0))). set (b := firstn (2 * nr) (skipn (3 * nr) (arr_at (wtend fd) 0))).
  assert (La : length a = (2 * nr)%nat) by (apply len_part; lia). assert (Lb : length b = (2 * nr)%nat) by (apply len_part; lia).
  assert (AB : forall j l k, (j < 2)%nat -> (l < 2)%nat -> (k < nr)%nat -> get (a ++ b) (k + (2 * j + l) * nr) = bas (zd 0) nr l k (side_r j)).
  { intros j l k Hj Hl Hk. rewrite get_add, La. rewrite <- W by (auto; lia). destruct j as [|[|j]]; [| |lia].
    - assert ((k + (2 * 0 + l) * nr < 2 * nr)%nat) by nia. rewrite (proj2 (Nat.ltb_lt _ _)) by auto. unfold a. rewrite get_part by auto. f_equal. lia.
    - destruct (Nat.ltb_spec (k + (2 * 1 + l) * nr) (2 * nr)); [nia|]. unfold b. rewrite get_part by nia. f_equal. nia. }
  assert (Dn : forall d, (d < 2)%nat -> exists w, tensor_mtxm R 0 Rplus Rmult (repeat 0 (4 * ns)) ns (arr_at (ux fd) d) nr (a ++ b) 4 = Ok w /\
     length w = (4 * ns)%nat /\ forall j l k, (j < 2)%nat -> (l < 2)%nat -> (k < ns)%nat -> get w ((2 * j + l) * ns + k) = rsum nr (fun i => get (arr_at (ux fd) d) (i + k * nr) * bas (zd 0) nr l i (side_r j))).
  { intros d Hd. pose proof (el_x d (Hel d Hd)) as Lx.
    destruct (tensor_mtxm_ok R 0 1 Rplus Rmult Rminus Ropp RTheory (repeat 0 (4 * ns)) ns (arr_at (ux fd) d) nr (a ++ b) 4) as (C & EC & LC & WC & _); [rewrite repeat_length; lia|lia|rewrite app_length; lia|].
    rewrite repeat_length in LC. exists C. split; [auto|]. split; [auto|].
    intros j l k Hj Hl Hk. rewrite Nat.add_comm. etransitivity; [apply WC; lia|]. unfold MtB. rewrite sum_is. apply rsum_ext. intros i Hi. f_equal. apply AB; auto. }
  destruct (Dn 0%nat ltac:(lia)) as (w0 & E0 & L0 & V0). destruct (Dn 1%nat ltac:(lia)) as (w1 & E1 & L1 & V1).
  match goal with |- context [mapM ?f [0; 1]%nat] => rewrite (mapM_two f _ _ E0 E1) end. cbn [bind mapM]. rewrite !part_ok by lia. cbn [bind].
  do 2 eexists. split; [reflexivity|].
  assert (Main : forall j x, (j < 2)%nat -> (x = fun l w => firstn ns (skipn ((2 * j + l) * ns) w)) -> edge_right (Edge [x 0%nat w0; x 0%nat w1] [x 1%nat w0; x 1%nat w1]) 0 j).
  { intros j x Hj -> d Hd. cbn [Nat.sub ex edxdn Nat.eqb].
    assert (Dw : exists w, (forall l, arr_at [firstn ns (skipn ((2 * j + l) * ns) w0); firstn ns (skipn ((2 * j + l) * ns) w1)] d = firstn ns (skipn ((2 * j + l) * ns) w)) /\ length w = (4 * ns)%nat /\
      forall l k, (l < 2)%nat -> (k < ns)%nat -> get w ((2 * j + l) * ns + k) = rsum nr (fun i => get (arr_at (ux fd) d) (i + k * nr) * bas (zd 0) nr l i (side_r j))).
    { destruct d as [|[|d]]; [exists w0|exists w1|lia]; auto. }
    destruct Dw as (w & Ew & Lw & Vw). rewrite !Ew. split; [|split].
    - rewrite len_part; [auto|]. destruct j as [|[|j]]; lia.
    - rewrite len_part; [auto|]. destruct j as [|[|j]]; lia.
    - intros k Hk. rewrite !get_part by auto. split; apply Vw; lia. }
  split; [assert (X := Main 0%nat _ ltac:(lia) eq_refl)|assert (X := Main 1%nat _ ltac:(lia) eq_refl)]; cbv beta in X.
  - rewrite Nat.mul_0_l in X. rewrite Nat.mul_1_l in X. exact X.
  - exact X.
Qed.

Lemma pt_data_ok s : exists ps, compute_pt_data P fd s = Ok (St (lag_data s) (side_init s) (edges s) ps) /\ length ps = 4%nat /\
  forall j i, (j < 2)%nat -> (i < 2)%nat -> exists g, nth_error ps (2 * j + i) = Some g /\ pt_right g j i.
Proof.
  unfold compute_pt_data. pose proof have_all as (_ & _ & H1 & _). rewrite need_ok by lia. cbn [bind].
  destruct (Hel 0%nat ltac:(lia)) as [Hn0 _ _ _ _ _ _ Wl0 W0 _]. destruct (Hel 1%nat ltac:(lia)) as [Hn1 _ _ _ _ _ _ Wl1 W1 _].
  assert (Dn : forall d, (d < 2)%nat -> exists c, (w <- mxm R P (repeat 0 (6 * nr)) nr (arr_at (ux fd) d) ns (arr_at (wtend fd) 1) 6 ;; tensor_mtxm R 0 Rplus Rmult (repeat 0 36) 6 (arr_at (wtend fd) 0) nr w 6) = Ok c /\
     length c = 36%nat /\ forall j i b a, (j < 2)%nat -> (i < 2)%nat -> (b <= 2)%nat -> (a <= 2)%nat -> get c (6 * (3 * j + b) + (3 * i + a)) = T a b d (corner j i)).
  { intros d Hd. pose proof (el_x d (Hel d Hd)) as Lx.
    destruct (good_mxm _ _ _ _ _ G (repeat 0 (6 * nr)) nr (arr_at (ux fd) d) ns (arr_at (wtend fd) 1) 6) as (w & Ew & Lw & Ww & _); [rewrite repeat_length; lia|auto|lia|].
    rewrite Ew. cbn [bind]. rewrite repeat_length in Lw.
    destruct (tensor_mtxm_ok R 0 1 Rplus Rmult Rminus Ropp RTheory (repeat 0 36) 6 (arr_at (wtend fd) 0) nr w 6) as (C & EC & LC & WC & _); [rewrite repeat_length; lia|lia|lia|].
    rewrite repeat_length in LC. exists C. split; [auto|]. split; [auto|].
    intros j i b a Hj Hi Hb Ha. replace (6 * (3 * j + b) + (3 * i + a))%nat with ((3 * i + a) + (3 * j + b) * 6)%nat by lia.
    etransitivity; [apply WC; lia|]. rewrite T_fold. unfold MtB. apply sum_ext. intros k Hk. f_equal.
    - etransitivity; [|apply (W0 i a k); auto]. apply gget. lia.
    - etransitivity; [apply Ww; lia|]. unfold MB. apply sum_ext. intros l Hl. f_equal. etransitivity; [|apply (W1 j b l); auto]. apply gget. lia. }
  destruct (Dn 0%nat ltac:(lia)) as (w0 & E0 & L0 & V0). destruct (Dn 1%nat ltac:(lia)) as (w1 & E1 & L1 & V1).
  match goal with |- context [mapM ?f [0; 1]%nat] => rewrite (mapM_two f _ _ E0 E1) end. cbn [bind].
  set (mk := fun ji : nat * nat => let '(j, i) := ji in Gpt [T 0 0 0 (corner j i); T 0 0 1 (corner j i)] (jacobian (corner j i))
     [T 2 0 0 (corner j i); T 0 2 0 (corner j i); T 2 0 1 (corner j i); T 0 2 1 (corner j i)]).
  match goal with |- context [mapM ?f [(0, 0); (0, 1); (1, 0); (1, 1)]%nat] => rewrite (mapM_ok f mk) end.
  - cbn [bind]. eexists. split; [reflexivity|]. split; [reflexivity|]. intros j i Hj Hi. destruct j as [|[|j]]; [| |lia]; (destruct i as [|[|i]]; [| |lia]); (eexists; split; [reflexivity|]); repeat split.
  - intros [j i] Hin. assert (j < 2 /\ i < 2)%nat as [Hj Hi] by (cbn [In] in Hin; repeat (destruct Hin as [Hin|Hin]; [injection Hin as <- <-; lia|]); contradiction).
    assert (Rd : forall d b a, (d < 2)%nat -> (b <= 2)%nat -> (a <= 2)%nat -> rd (arr_at [w0; w1] d) (6 * (3 * j + b) + (3 * i + a)) = Ok (T a b d (corner j i))).
    { intros d b a Hd Hb Ha. destruct d as [|[|d]]; [| |lia]; cbn [arr_at nth]; rewrite rd_get by lia; [rewrite V0|rewrite V1]; auto. }
    cbv beta iota zeta. cbn [mapM]. rewrite !Rd by lia. reflexivity.
Qed.

Lemma land_lor_bit a m m' : N.land m m' = 0%N -> N.land (N.lor a m) m' = N.land a m'.
Proof. intros H. rewrite N.land_lor_distr_l, H. apply N.lor_0_r. Qed.
Lemma nth_upd_other {A} (l : list A) i j v : i <> j -> nth_error (upd l i v) j = nth_error l j.
Proof. apply nth_error_upd_ne. Qed.
Lemma get_edge_ok s dn j : good_st s -> (dn < 2)%nat -> (j < 2)%nat -> exists e s', get_edge P fd s (2 * dn + j) = Ok (e, s') /\ good_st s' /\ edge_right e dn j.
Proof.
  intros S Hdn Hj. unfold get_edge. replace ((2 * dn + j) / 2)%nat with dn by (apply (Nat.div_unique _ 2 dn j); lia).
  destruct (N.eqb_spec (N.land (side_init s) (shl 1 (N.of_nat dn))) 0) as [Z|Z].
  - assert (X : exists e0 e1, (if (dn =? 0)%nat then compute_edge_data_s fd s else compute_edge_data_r P fd s) = Ok (St (lag_data s) (side_init s) (upd (upd (edges s) (2 * dn) e0) (2 * dn + 1) e1) (pts s)) /\
      edge_right e0 dn 0 /\ edge_right e1 dn 1).
    { destruct dn as [|[|dn]]; [| |lia]; cbn [Nat.eqb]; [apply edge_s_ok|apply edge_r_ok]. }
    destruct X as (e0 & e1 & Ex & R0 & R1). rewrite Ex. cbn [bind lag_data side_init edges pts].
    destruct S as [S1 S2 S3 S4 S5 S6].
    assert (Rd : forall i, (i < 2)%nat -> exists e, nth_error (upd (upd (edges s) (2 * dn) e0) (2 * dn + 1) e1) (2 * dn + i) = Some e /\ edge_right e dn i).
    { intros i Hi. destruct i as [|[|i]]; [| |lia].
      - exists e0. rewrite Nat.add_0_r. split; [|auto]. rewrite nth_error_upd_ne by lia. apply nth_error_upd_eq. lia.
      - exists e1. split; [|auto]. apply nth_error_upd_eq. rewrite upd_length. lia. }
    destruct (Rd j Hj) as (e & Ee & Re). rewrite (rd_ok _ _ _ Ee). cbn [bind]. eexists; eexists. split; [reflexivity|]. split; [|exact Re].
    constructor; cbn [lag_data side_init edges pts]; auto.
    + rewrite !upd_length. auto.
    + intros dn' j' Hdn' Hj' Hb. destruct (Nat.eq_dec dn dn') as [<-|Hn]; [apply Rd; auto|]. rewrite !nth_error_upd_ne by lia. apply S5; auto.
      rewrite land_lor_bit in Hb; auto. destruct dn as [|[|dn]], dn' as [|[|dn']]; try lia; reflexivity.
    + intros j' i' Hj' Hi' Hb. apply S6; auto. rewrite land_lor_bit in Hb; auto. destruct dn as [|[|dn]]; try lia; reflexivity.
  - cbn [bind]. destruct (gs_edge _ S dn j Hdn Hj Z) as (e & Ee & Re). rewrite (rd_ok _ _ _ Ee). cbn [bind]. eexists; eexists. split; [reflexivity|]. auto.
Qed.
Lemma get_pt_ok s j i : good_st s -> (j < 2)%nat -> (i < 2)%nat -> exists g s', get_pt P fd s (2 * j + i) = Ok (g, s') /\ good_st s' /\ pt_right g j i.
Proof.
  intros S Hj Hi. unfold get_pt. destruct (N.eqb_spec (N.land (side_init s) 4) 0) as [Z|Z].
  - destruct (pt_data_ok s) as (ps & E & Lp & R). rewrite E. cbn [bind lag_data side_init edges pts]. destruct (R j i Hj Hi) as (g & Eg & Rg). rewrite (rd_ok _ _ _ Eg). cbn [bind].
    eexists; eexists. split; [reflexivity|]. split; [|auto]. destruct S as [S1 S2 S3 S4 S5 S6]. constructor; cbn [lag_data side_init edges pts]; auto.
    intros dn' j' Hdn' Hj' Hb. apply S5; auto. rewrite land_lor_bit in Hb; auto. destruct dn' as [|[|dn']]; try lia; reflexivity.
  - cbn [bind]. destruct (gs_pt _ S j i Hj Hi Z) as (e & Ee & Re). rewrite (rd_ok _ _ _ Ee). cbn [bind]. eexists; eexists. split; [reflexivity|]. auto.
Qed.

(** ** Points on an edge *)
Lemma rsum_scale n c f : c * rsum n f = rsum n (fun i => c * f i).
Proof. induction n as [|n IH]; cbn [rsum]; [ring|]. rewrite <- IH. ring. Qed.
Lemma Te_fold de m l d r : (de < 2)%nat -> let dn := (1 - de)%nat in
  Te de m l d r = rsum (nn fd de) (fun k => bas (zd de) (nn fd de) m k (ent r de) *
    rsum (nn fd dn) (fun a => get (arr_at (ux fd) d) (if (dn =? 0)%nat then a + k * nr else k + a * nr) * bas (zd dn) (nn fd dn) l a (ent r dn))).
Proof.
  intros Hde dn. unfold Te, dn. destruct de as [|[|de]]; [| |lia]; cbn [Nat.eqb Nat.sub].
  - rewrite T_fold, sum_is. apply rsum_ext. intros i Hi. rewrite sum_is. auto.
  - unfold T, apply2. rewrite sum_is. apply rsum_ext. intros j Hj. rewrite sum_is, rsum_scale. apply rsum_ext. intros i Hi.
    rewrite (gget _ (i + nr * j) (i + j * nr)) by lia. ring.
Qed.
Lemma compact_ok (wt0 : arr) n pn : length wt0 = (pn * (3 * n))%nat ->
  exists w, foldM (fun wt i => fill wt (i * n) n (fun m k => rd m (3 * i * n + k))) (seq 1 (pn - 1)) wt0 = Ok w /\ length w = length wt0 /\
    forall i k, (i < pn)%nat -> (k < n)%nat -> get w (i * n + k) = get wt0 (3 * i * n + k).
Proof.
  intros L. assert (I : forall q, (q <= pn - 1)%nat -> exists w, foldM (fun wt i => fill wt (i * n) n (fun m k => rd m (3 * i * n + k))) (seq 1 q) wt0 = Ok w /\ length w = length wt0 /\
    (forall i k, (i <= q)%nat -> (k < n)%nat -> get w (i * n + k) = get wt0 (3 * i * n + k)) /\ forall k, ((q + 1) * n <= k)%nat -> get w k = get wt0 k).
  { induction q as [|q IH]; intros Hq.
    - exists wt0. split; [reflexivity|]. split; [auto|]. split; [|auto]. intros i k Hi Hk. replace i with 0%nat by lia. reflexivity.
    - destruct IH as (w & E & Lw & H1 & H2); [lia|]. rewrite seq_S, foldM_snoc, E. cbn [bind Nat.add].
      assert (Hb : (3 * S q * n + n <= length wt0)%nat) by nia.
      destruct (fill_ok w (S q * n) n (fun m k => rd m (3 * S q * n + k)) (fun k => get wt0 (3 * S q * n + k))) as (w' & E' & [Lw' O] & Rg); [nia| |].
      { intros m' k Hk [Lm Om] _. rewrite rd_get by (rewrite Lm; nia). f_equal. rewrite Om by nia. apply H2. nia. }
      rewrite E'. exists w'. split; [auto|]. split; [lia|]. split.
      + intros i k Hi Hk. destruct (Nat.eq_dec i (S q)) as [->|Hn]; [apply Rg; auto|]. rewrite O by nia. apply H1; lia.
      + intros k Hk. rewrite O by nia. apply H2. nia. }
  destruct (Nat.eq_dec pn 0) as [->|Hp].
  - exists wt0. split; [reflexivity|]. split; [auto|]. intros; lia.
  - destruct (I (pn - 1)%nat ltac:(lia)) as (w & E & Lw & H1 & _). exists w. split; [auto|]. split; [auto|]. intros i k Hi Hk. apply H1; lia.
Qed.

Lemma jac_eq r de (Hde : (de < 2)%nat) : let dn := (1 - de)%nat in
  upd (upd (upd (upd [0; 0; 0; 0] de (Te de 1 0 0 r)) (2 + de) (Te de 1 0 1 r)) dn (Te de 0 1 0 r)) (2 + dn) (Te de 0 1 1 r) = jacobian r.
Proof. intros dn. unfold dn, jacobian. destruct de as [|[|de]]; [| |lia]; reflexivity. Qed.

Lemma edge_eq s ps tol dn j : good_st s -> (length ps <= npt_max fd)%nat -> (dn < 2)%nat -> (j < 2)%nat ->
  let fl := at_dir (N.of_nat (j + 1)) dn in
  (exists p0 ps', ps = p0 :: ps' /\ N.land (flags p0) FLAG_MASK = fl) -> (forall p, In p ps -> ent (pr p) dn = side_r j) ->
  exists s', good_st s' /\ findpt_edge DBL_MAX P fd s ps tol = (out <- mapM (edge1 tol dn fl) ps ;; Ok (out, s')).
Proof.
  intros S Hp Hdn Hj fl (p0 & ps' & Eps & Efl) Hside. unfold findpt_edge. assert (R0 : rd ps 0 = Ok p0) by (rewrite Eps; reflexivity). rewrite R0. cbn [bind]. rewrite Efl.
  assert (Ei : edge_index fl = (2 * dn + j)%nat) by (unfold fl; destruct dn as [|[|dn]], j as [|[|j]]; try lia; reflexivity). rewrite Ei.
  replace ((2 * dn + j) / 2)%nat with dn by (apply (Nat.div_unique _ 2 dn j); lia).
  assert (Ed : plus_1_mod_2 dn = (1 - dn)%nat) by (destruct dn as [|[|dn]]; try lia; reflexivity). rewrite Ed. set (de := (1 - dn)%nat). assert (Hde : (de < 2)%nat) by (unfold de; lia).
  assert (Edn : (1 - de = dn)%nat) by (unfold de; lia).
  rewrite need_ok by (apply have_all; auto). cbn [bind].
  destruct (get_edge_ok s dn j S Hdn Hj) as (e & s1 & Ee & S1 & Re). rewrite Ee. cbn [bind].
  destruct (lag_dir_ok s1 de 2 (map (fun p => ent (pr p) de) ps) S1 Hde ltac:(lia)) as (wt0 & s2 & E2 & S2 & L2 & W2). rewrite E2. cbn [bind].
  rewrite map_length in L2, W2. exists s2. split; [auto|]. set (pn := length ps) in *. set (n := nn fd de) in *. pose proof (el_n de (Hel de Hde)) as Hn. fold n in Hn.
  assert (Rs : forall i p, nth_error ps i = Some p -> nth i (map (fun p => ent (pr p) de) ps) 0 = ent (pr p) de) by (intros i p Hin; apply nth_error_nth; rewrite nth_error_map, Hin; auto).
  assert (Row : forall d, (d < 2)%nat -> (slice <- mtxv R P (repeat 0 (3 * pn)) (3 * pn) wt0 (arr_at (ex e) d) n ;;
     mapM (fun '(i, p) =>
      v <- rd slice (3 * i) ;; j <- rd slice (3 * i + 1) ;; h <- rd slice (3 * i + 2) ;;
      let r := ent (px p) d - v in Ok (r, j, r * h)) (numbered ps)) =
     Ok (map (fun p => (ent (px p) d - T 0 0 d (pr p), Te de 1 0 d (pr p), (ent (px p) d - T 0 0 d (pr p)) * Te de 2 0 d (pr p))) ps)).
  { intros d Hd. destruct (Re d Hd) as (Lx & Ln & V). fold de in Lx, Ln, V. fold n in Lx, Ln, V.
    destruct (good_mtxv _ _ _ _ _ G (repeat 0 (3 * pn)) (3 * pn) wt0 (arr_at (ex e) d) n) as (C & EC & LC & WC & _); [lia|rewrite repeat_length; lia|lia|auto|].
    rewrite EC. cbn [bind]. rewrite repeat_length in LC.
    rewrite <- (map_numbered (fun p => (ent (px p) d - T 0 0 d (pr p), Te de 1 0 d (pr p), (ent (px p) d - T 0 0 d (pr p)) * Te de 2 0 d (pr p)))).
    apply mapM_ok. intros [i p] Hin. apply in_numbered in Hin. pose proof (nth_error_Some_lt _ _ _ Hin) as Hi. fold pn in Hi. cbn [snd].
    assert (Sl : forall m, (m <= 2)%nat -> get C (3 * i + m) = Te de m 0 d (pr p)).
    { intros m Hm. etransitivity; [apply WC; lia|]. rewrite Te_fold by auto. rewrite Edn. fold n. unfold MtB. rewrite sum_is. apply rsum_ext. intros k Hk. f_equal.
      - rewrite <- (Rs i p Hin), <- (W2 i m k) by auto. apply gget. lia.
      - rewrite (Hside p (nth_error_In _ _ Hin)). etransitivity; [|apply (V k Hk)]. apply gget. lia. }
    rewrite !rd_get by lia. cbn [bind]. rewrite !Sl by lia. rewrite <- (Nat.add_0_r (3 * i)), Sl by lia. unfold Te. destruct (de =? 0)%nat; reflexivity. }
  match goal with |- context [mapM ?f [0; 1]%nat] => rewrite (mapM_two f _ _ (Row 0%nat ltac:(lia)) (Row 1%nat ltac:(lia))) end. cbn [bind].
  destruct (compact_ok wt0 n pn ltac:(rewrite L2; lia)) as (w & Ew & Lw & Cw). rewrite Ew. cbn [bind].
  assert (Jn : forall d, (d < 2)%nat -> exists y, mtxv R P (repeat 0 (3 * pn)) pn w (arr_at (edxdn e) d) n = Ok y /\ length y = (3 * pn)%nat /\ forall i p, nth_error ps i = Some p -> get y i = Te de 0 1 d (pr p)).
  { intros d Hd. destruct (Re d Hd) as (Lx & Ln & V). fold de in Lx, Ln, V. fold n in Lx, Ln, V.
    destruct (good_mtxv _ _ _ _ _ G (repeat 0 (3 * pn)) pn w (arr_at (edxdn e) d) n) as (C & EC & LC & WC & _); [lia|rewrite repeat_length; lia|lia|auto|].
    exists C. split; [auto|]. rewrite repeat_length in LC. split; [auto|]. intros i p Hin. pose proof (nth_error_Some_lt _ _ _ Hin) as Hi. fold pn in Hi.
    etransitivity; [apply WC; lia|]. rewrite Te_fold by auto. rewrite Edn. fold n. unfold MtB. rewrite sum_is. apply rsum_ext. intros k Hk. f_equal.
    - rewrite <- (Rs i p Hin), <- (W2 i 0%nat k) by (auto; lia). rewrite (gget w _ (i * n + k)) by lia. rewrite Cw by auto. f_equal. lia.
    - rewrite (Hside p (nth_error_In _ _ Hin)). etransitivity; [|apply (V k Hk)]. apply gget. lia. }
  destruct (Jn 0%nat ltac:(lia)) as (y0 & Ey0 & Ly0 & Vy0). destruct (Jn 1%nat ltac:(lia)) as (y1 & Ey1 & Ly1 & Vy1).
  match goal with |- context [mapM ?f [0; 1]%nat] => rewrite (mapM_two f _ _ Ey0 Ey1) end. cbn [bind nth].
  rewrite <- mapM_numbered. f_equal. apply mapM_ext_in. intros [i p] Hin. apply in_numbered in Hin. pose proof (nth_error_Some_lt _ _ _ Hin) as Hi. fold pn in Hi. cbn [snd].
  rewrite !(rd_ok _ i _ (map_nth_error _ _ _ Hin)). cbn [bind]. rewrite !rd_get by lia. cbn [bind]. rewrite (Vy0 i p Hin), (Vy1 i p Hin).
  pose proof (jac_eq (pr p) de Hde) as JE. cbv zeta in JE. rewrite Edn in JE. rewrite JE.
  unfold edge1. fold de. unfold rhes, residual. cbn [ent nth]. rewrite Rplus_0_l. reflexivity.
Qed.

Lemma pt_eq s ps tol j i : good_st s -> (j < 2)%nat -> (i < 2)%nat ->
  let fl := N.lor (at_dir (N.of_nat (i + 1)) 0) (at_dir (N.of_nat (j + 1)) 1) in
  (exists p0 ps', ps = p0 :: ps' /\ N.land (flags p0) FLAG_MASK = fl) -> (forall p, In p ps -> pr p = corner j i) ->
  exists s', good_st s' /\ findpt_pt DBL_MAX P fd s ps tol = (out <- mapM (pt1 tol fl) ps ;; Ok (out, s')).
Proof.
  intros S Hj Hi fl (p0 & ps' & Eps & Efl) Hc. unfold findpt_pt. assert (R0 : rd ps 0 = Ok p0) by (rewrite Eps; reflexivity). rewrite R0. cbn [bind]. rewrite Efl.
  assert (Ei : point_index fl = (2 * j + i)%nat) by (unfold fl; destruct j as [|[|j]], i as [|[|i]]; try lia; reflexivity). rewrite Ei.
  destruct (get_pt_ok s j i S Hj Hi) as (g & s1 & Eg & S1 & Gx & Gj & Gh). rewrite Eg. cbn [bind]. exists s1. split; [auto|].
  f_equal. apply mapM_ext_in. intros p Hin. rewrite Gx, Gj, Gh. pose proof (Hc p Hin) as Ec. unfold pt1, rhes, residual, Te. rewrite Ec. reflexivity.
Qed.

(** ** Regular elements *)
Lemma rsum_der' n (f g : nat -> R -> R) x : (forall i, (i < n)%nat -> derivable_pt_lim (f i) x (g i x)) -> derivable_pt_lim (fun x => rsum n (fun i => f i x)) x (rsum n (fun i => g i x)).
Proof.
  intros H. induction n as [|n IH]; cbn [rsum]; [apply derivable_pt_lim_const|]. apply der_add; [apply IH; intros; apply H; lia|apply H; lia].
Qed.
(** The entries of the jacobian and the second derivatives are what their names say. *)
Lemma Te_der de m l d r v : (de < 2)%nat -> (d < 2)%nat -> (m <= 1)%nat -> length r = 2%nat -> v = ent r de ->
  derivable_pt_lim (fun x => Te de m l d (upd r de x)) v (Te de (S m) l d r).
Proof.
  intros Hde Hd Hm Lr ->. set (f := fun k x => bas (zd de) (nn fd de) m k x * rsum (nn fd (1 - de)) (fun a => get (arr_at (ux fd) d) (if (1 - de =? 0)%nat then a + k * nr else k + a * nr) * bas (zd (1 - de)%nat) (nn fd (1 - de)) l a (ent r (1 - de)))).
  apply derivable_pt_lim_ext with (f := fun x => rsum (nn fd de) (fun k => f k x)).
  - intros x. rewrite Te_fold by auto. assert (E1 : ent (upd r de x) de = x) by (unfold ent; apply nth_error_nth; apply nth_error_upd_eq; lia).
    assert (E2 : ent (upd r de x) (1 - de) = ent r (1 - de)).
    { destruct r as [|a [|b [|? ?]]]; try discriminate. destruct de as [|[|de]]; try lia; reflexivity. }
    rewrite E1, E2. reflexivity.
  - rewrite Te_fold by auto. unfold f.
    apply (rsum_der' (nn fd de) _ (fun k x => bas (zd de) (nn fd de) (S m) k x * rsum (nn fd (1 - de)) (fun a => get (arr_at (ux fd) d) (if (1 - de =? 0)%nat then a + k * nr else k + a * nr) * bas (zd (1 - de)%nat) (nn fd (1 - de)) l a (ent r (1 - de))))).
    intros k Hk. match goal with |- derivable_pt_lim (fun x => _ * ?c) _ _ => apply derivable_pt_lim_ext with (f := fun x => c * bas (zd de) (nn fd de) m k x); [intros; ring|] end.
    rewrite Rmult_comm. apply der_scal. apply bas_der; auto. apply (el_dist de (Hel de Hde)).
Qed.
End El.
