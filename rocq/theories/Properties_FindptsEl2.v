(** Properties C53 and C54: the search of points in an element of two dimensions (in exact arithmetic). *)
From Verif Require Import Base BaseLemmas Tensor TensorSpec TensorProof Poly PolySpec PolyGll PolyGllSpec PolyGllProof LobBndSpec FindptsEl2 FindptsEl2Spec FindptsEl2Proof7 FindptsEl2Proof10 FindptsEl2Proof11 FindptsEl2Proof12.
From Coq Require Import Reals Lra NArith.
Open Scope R_scope.

(** C53.  The nodes of the table meet the conditions (el_points) for n = 2, ..., 24. *)
Theorem C53_points : forall nodes_n n, (2 <= n <= 24)%nat -> el_points nodes_n n (gll_list n).
Proof. exact gll_el_points. Qed.
(** findpts_el_setup_2 succeeds. *)
Theorem C53_setup : forall nodes_n nr ns zr zs npt x y, el_points nodes_n nr zr -> el_points nodes_n ns zs -> (nr * ns <= length x)%nat -> (nr * ns <= length y)%nat ->
  exists fd s, findpts_el_setup_2 nodes_n nr ns npt [x; y] = Ok (fd, s).
Proof. intros nodes_n nr ns zr zs npt x y A B C D. destruct (setup_ok nodes_n nr ns zr zs npt x y A B C D) as (fd & s & Q & E & _). eauto. Qed.
Print Assumptions C53_setup.

(** After any history of the structure (setup, changes of the element, searches, evaluations), a
    search of up to npt points in an element whose Jacobian does not vanish succeeds, with no access
    out of bounds, no division by 0, and within 50 steps; every point gets its own slot, in the order
    of the points, with the properties listed in found. *)
Theorem C53_search : forall DBL_MAX P nodes_n nr ns zr zs npt e fd s xs tol,
  0 < DBL_MAX -> good R 0 Rplus Rmult P -> el_points nodes_n nr zr -> el_points nodes_n ns zs -> history DBL_MAX P nodes_n nr ns zr zs npt e fd s ->
  regular e -> (length xs <= npt)%nat -> (forall x, In x xs -> reachable DBL_MAX e x) ->
  exists out s', findpts_el_2 DBL_MAX P fd s xs tol = Ok (out, s') /\ history DBL_MAX P nodes_n nr ns zr zs npt e fd s' /\ length out = length xs /\
    forall i x, nth_error xs i = Some x -> exists p, nth_error out i = Some p /\ found e tol i x p.
Proof. intros M P nn nr ns zr zs npt e fd s xs tol HM G Hr Hs. apply search_ok; auto. Qed.
Print Assumptions C53_search.

(** What a search leaves for a point depends only on the point, the element and the tolerance: not on
    the other points, the slot, the capacity, the matrix products or anything done before. *)
Theorem C53_independent : forall DBL_MAX P P' nodes_n nodes_n' nr ns zr zs npt npt' e fd fd' s s' xs xs' tol out out' t t' i i' x,
  0 < DBL_MAX -> good R 0 Rplus Rmult P -> good R 0 Rplus Rmult P' -> el_points nodes_n nr zr -> el_points nodes_n ns zs -> el_points nodes_n' nr zr -> el_points nodes_n' ns zs ->
  history DBL_MAX P nodes_n nr ns zr zs npt e fd s -> history DBL_MAX P' nodes_n' nr ns zr zs npt' e fd' s' -> regular e ->
  (length xs <= npt)%nat -> (length xs' <= npt')%nat -> (forall x, In x xs -> reachable DBL_MAX e x) -> (forall x, In x xs' -> reachable DBL_MAX e x) ->
  findpts_el_2 DBL_MAX P fd s xs tol = Ok (out, t) -> findpts_el_2 DBL_MAX P' fd' s' xs' tol = Ok (out', t') -> nth_error xs i = Some x -> nth_error xs' i' = Some x ->
  exists p p', nth_error out i = Some p /\ nth_error out' i' = Some p' /\
    px p' = px p /\ pr p' = pr p /\ oldr p' = oldr p /\ dist2 p' = dist2 p /\ dist2p p' = dist2p p /\ tr p' = tr p /\ flags p' = flags p.
Proof.
  intros M P P' nn nn' nr ns zr zs npt npt' e fd fd' s s' xs xs' tol out out' t t' i i' x H1 H2 H3 H4 H5 H6 H7 H8 H9 H10 H11 H12 H13 H14 H15 H16 H17 H18.
  destruct (independent M P P' nn nn' nr ns zr zs npt npt' e fd fd' s s' xs xs' tol out out' t t' i i' x H1 H2 H3 H4 H5 H6 H7 H8 H9 H10 H11 H12 H13 H14 H15 H16 H17 H18) as (p & A & B).
  exists p, (renum i' p). repeat (split; [auto|]). reflexivity.
Qed.
Print Assumptions C53_independent.

(** findpts_el_eval_2: the values at the points of the function with the nodal values u. *)
Theorem C53_eval : forall DBL_MAX P nodes_n nr ns zr zs npt e fd s rs u,
  0 < DBL_MAX -> good R 0 Rplus Rmult P -> el_points nodes_n nr zr -> el_points nodes_n ns zs -> history DBL_MAX P nodes_n nr ns zr zs npt e fd s ->
  (length rs <= npt)%nat -> (nr * ns <= length u)%nat ->
  exists s', findpts_el_eval_2 P fd s rs u = Ok (map (fun r => value e u (nth 0 r 0) (nth 1 r 0)) rs, s') /\ history DBL_MAX P nodes_n nr ns zr zs npt e fd s'.
Proof. intros M P nn nr ns zr zs npt e fd s rs u HM G Hr Hs. apply eval_known; auto. Qed.
Print Assumptions C53_eval.

(** C54.  In a rectangle, every point of the element is found: r is its position exactly, and the
    flags say "converged, on no side". *)
Theorem C54_rectangle_exact : forall DBL_MAX P nodes_n nr ns zr zs npt e fd s xs tol,
  0 < DBL_MAX -> good R 0 Rplus Rmult P -> el_points nodes_n nr zr -> el_points nodes_n ns zs -> history DBL_MAX P nodes_n nr ns zr zs npt e fd s ->
  rectangle e -> 0 < tol -> (length xs <= npt)%nat -> (forall x, In x xs -> reachable DBL_MAX e x) ->
  exists out s', findpts_el_2 DBL_MAX P fd s xs tol = Ok (out, s') /\
    forall i x r t, nth_error xs i = Some x -> -1 <= r <= 1 -> -1 <= t <= 1 -> nth 0 x 0 = image_x e r t -> nth 1 x 0 = image_y e r t ->
      exists p, nth_error out i = Some p /\ found e tol i x p /\ pr p = [r; t] /\ flags p = 16%N.
Proof. exact rectangle_ok. Qed.
Print Assumptions C54_rectangle_exact.

(** For a point outside of the element, the position reported as converged need not be the nearest
    one, nor nearest to first order, whatever the tolerance is: in the parallelogram with
    x = r - s, y = s the search for (-1/2, 3) ends at the corner (1,1), flagged as converged, although
    (1/2, 1) is nearer (and the distance decreases along the side). *)
Theorem C54_nearest_refuted : forall DBL_MAX P nodes_n zs tol, 5 < DBL_MAX -> good R 0 Rplus Rmult P -> el_points nodes_n 2 zs -> 0 < tol ->
  exists e fd s x p s', history DBL_MAX P nodes_n 2 2 zs zs 1 e fd s /\ regular e /\ reachable DBL_MAX e x /\ findpts_el_2 DBL_MAX P fd s [x] tol = Ok ([p], s') /\ (16 <= flags p)%N /\
    (exists r t, -1 <= r <= 1 /\ -1 <= t <= 1 /\ sqdist e x r t < sqdist_at e x (pr p)) /\ ~ corner_min e x (pr p).
Proof.
  intros M P nn zs tol HM G Hz Ht. destruct (C53_setup nn 2 2 zs zs 1 [0; 2; -2; 0] [-1; -1; 1; 1] Hz Hz ltac:(cbn; lia) ltac:(cbn; lia)) as (fd & s & E).
  assert (H : history M P nn 2 2 zs zs 1 (slanted zs) fd s) by (apply h_setup; auto).
  destruct (far_found M HM P G nn zs Hz 1 ltac:(lia) tol Ht fd s H) as (p & s' & F & Fl & Pr & Lt & Rg & Rc & Nm). exists (slanted zs), fd, s, far, p, s'.
  split; [auto|]. split; [auto|]. split; [auto|]. split; [auto|]. split; [rewrite Fl; discriminate|]. split; [|auto]. exists (1 / 2), 1. repeat split; lra.
Qed.
Print Assumptions C54_nearest_refuted.

(** Non-vacuity: a rectangle with 3 x 2 nodes that is turned by 45 degrees; it has a history, is
    regular, and its points are reachable. *)
Definition turned : shape := Shape 3 2 (gll_list 3) (gll_list 2) [-1; 1; 3; -3; -1; 1] [-3; -1; 1; -1; 1; 3].
Example turned_points : el_points (fun _ _ => UB) 3 (gll_list 3) /\ el_points (fun _ _ => UB) 2 (gll_list 2).
Proof. split; apply C53_points; lia. Qed.
Example turned_par : parallelogram turned 0 2 (-1) 0 2 1.
Proof.
  assert (Z3 : get (gll_list 3) 0 = -1 /\ get (gll_list 3) 1 = 0 /\ get (gll_list 3) 2 = 1) by (unfold gll_list; cbn; repeat split; lra).
  assert (Z2 : get (gll_list 2) 0 = -1 /\ get (gll_list 2) 1 = 1) by (unfold gll_list; cbn; repeat split; lra). destruct Z3 as (A & B & C), Z2 as (D & E).
  constructor; cbn [turned s_nr s_ns s_zr s_zs s_x s_y]; [| |lra];
  intros i j Hi Hj; destruct i as [|[|[|i]]]; try lia; destruct j as [|[|j]]; try lia; rewrite ?A, ?B, ?C, ?D, ?E; cbn; lra.
Qed.
Example turned_rectangle : rectangle turned.
Proof. exists 0, 2, (-1), 0, 2, 1. split; [apply turned_par|lra]. Qed.
Example turned_history : exists fd s, history 100 (naive R 0 Rplus Rmult) (fun _ _ => UB) 3 2 (gll_list 3) (gll_list 2) 5 turned fd s.
Proof.
  destruct (C53_setup (fun _ _ => UB) 3 2 (gll_list 3) (gll_list 2) 5 (s_x turned) (s_y turned) (proj1 turned_points) (proj2 turned_points) ltac:(cbn; lia) ltac:(cbn; lia)) as (fd & s & E).
  exists fd, s. apply h_setup; auto.
Qed.
Example turned_products : good R 0 Rplus Rmult (naive R 0 Rplus Rmult).
Proof. apply (naive_good R 0 1 Rplus Rmult Rminus Ropp RTheory). Qed.
Example turned_ok : regular turned /\ reachable 100 turned [1; 1] /\ [1; 1] = [image_x turned (1 / 2) 0; image_y turned (1 / 2) 0].
Proof.
  destruct turned_history as (fd & s & H). destruct (history_known 100 ltac:(lra) _ turned_products _ _ _ _ _ (proj1 turned_points) (proj2 turned_points) _ _ _ _ H) as (Q & K).
  pose proof (par_image _ _ _ _ _ _ _ _ _ K _ _ _ _ _ _ turned_par) as I.
  split; [exact (par_regular _ _ _ _ _ _ _ _ _ K _ _ _ _ _ _ turned_par)|]. split.
  - exists 1%nat, 0%nat. split; [cbn; lia|]. split; [cbn; lia|]. unfold sqdist. destruct (I (get (s_zr turned) 1) (get (s_zs turned) 0)) as [-> ->]. unfold gll_list. cbn. lra.
  - destruct (I (1 / 2) 0) as [-> ->]. f_equal; [lra|f_equal; lra].
Qed.
