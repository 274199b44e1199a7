(** Properties C56 and C57: the search of points in an element of three dimensions (in exact arithmetic). *)
From Verif Require Import Base BaseLemmas Tensor TensorSpec TensorProof Poly PolySpec PolyGll PolyGllSpec PolyGllProof LobBndSpec FindptsEl2 FindptsEl2Spec FindptsEl3 FindptsEl3Spec FindptsEl3Proof7 FindptsEl3Proof8 FindptsEl3Proof9 FindptsEl3Proof10 FindptsEl3Proof11 Properties_FindptsEl2.
From Coq Require Import Reals Lra NArith.
Open Scope R_scope.

(** C56.  findpts_el_setup_3 succeeds. *)
Theorem C56_setup : forall nodes_n nr ns nt zr zs zt npt x, el_points nodes_n nr zr -> el_points nodes_n ns zs -> el_points nodes_n nt zt -> coords nr ns nt x ->
  exists fd s, findpts_el_setup_3 nodes_n nr ns nt npt x = Ok (fd, s).
Proof. intros nodes_n nr ns nt zr zs zt npt x A B C D. destruct (setup_ok3 nodes_n nr ns nt zr zs zt npt x A B C D) as (fd & s & Q & E & _). eauto. Qed.
Print Assumptions C56_setup.

(** After any history of the structure (setup, changes of the element, searches, evaluations), a
    search of up to npt points in an element whose Jacobian does not vanish succeeds, with no access
    out of bounds, no division by 0, and within 50 steps; every point gets its own slot, in the order
    of the points, with the properties listed in found3. *)
Theorem C56_search : forall DBL_MAX P nodes_n nr ns nt zr zs zt npt e fd s xs tol,
  0 < DBL_MAX -> good R 0 Rplus Rmult P -> el_points nodes_n nr zr -> el_points nodes_n ns zs -> el_points nodes_n nt zt -> history3 DBL_MAX P nodes_n nr ns nt zr zs zt npt e fd s ->
  regular3 e -> (length xs <= npt)%nat -> (forall x, In x xs -> reachable3 DBL_MAX e x) ->
  exists out s', findpts_el_3 DBL_MAX P fd s xs tol = Ok (out, s') /\ history3 DBL_MAX P nodes_n nr ns nt zr zs zt npt e fd s' /\ length out = length xs /\
    forall i x, nth_error xs i = Some x -> exists p, nth_error out i = Some p /\ found3 e tol i x p.
Proof. intros M P nn nr ns nt zr zs zt npt e fd s xs tol HM G Hr Hs Ht. apply search_ok3; auto. Qed.
Print Assumptions C56_search.

(** What a search leaves for a point depends only on the point, the element and the tolerance: not on
    the other points, the slot, the capacity, the matrix products or anything done before. *)
Theorem C56_independent : forall DBL_MAX P P' nodes_n nodes_n' nr ns nt zr zs zt npt npt' e fd fd' s s' xs xs' tol out out' t t' i i' x,
  0 < DBL_MAX -> good R 0 Rplus Rmult P -> good R 0 Rplus Rmult P' ->
  el_points nodes_n nr zr -> el_points nodes_n ns zs -> el_points nodes_n nt zt -> el_points nodes_n' nr zr -> el_points nodes_n' ns zs -> el_points nodes_n' nt zt ->
  history3 DBL_MAX P nodes_n nr ns nt zr zs zt npt e fd s -> history3 DBL_MAX P' nodes_n' nr ns nt zr zs zt npt' e fd' s' -> regular3 e ->
  (length xs <= npt)%nat -> (length xs' <= npt')%nat -> (forall x, In x xs -> reachable3 DBL_MAX e x) -> (forall x, In x xs' -> reachable3 DBL_MAX e x) ->
  findpts_el_3 DBL_MAX P fd s xs tol = Ok (out, t) -> findpts_el_3 DBL_MAX P' fd' s' xs' tol = Ok (out', t') -> nth_error xs i = Some x -> nth_error xs' i' = Some x ->
  exists p p', nth_error out i = Some p /\ nth_error out' i' = Some p' /\
    px p' = px p /\ pr p' = pr p /\ oldr p' = oldr p /\ dist2 p' = dist2 p /\ dist2p p' = dist2p p /\ tr p' = tr p /\ flags p' = flags p.
Proof.
  intros M P P' nn nn' nr ns nt zr zs zt npt npt' e fd fd' s s' xs xs' tol out out' t t' i i' x H1 H2 H3 H4 H5 H6 H7 H8 H9 H10 H11 H12 H13 H14 H15 H16 H17 H18 H19 H20.
  destruct (independent3 M P P' nn nn' nr ns nt zr zs zt npt npt' e fd fd' s s' xs xs' tol out out' t t' i i' x H1 H2 H3 H4 H5 H6 H7 H8 H9 H10 H11 H12 H13 H14 H15 H16 H17 H18 H19 H20) as (p & A & B).
  eexists; eexists. split; [exact A|]. split; [exact B|]. repeat split.
Qed.
Print Assumptions C56_independent.

(** findpts_el_eval_3: the values at the points of the function with the nodal values u. *)
Theorem C56_eval : forall DBL_MAX P nodes_n nr ns nt zr zs zt npt e fd s rs u,
  0 < DBL_MAX -> good R 0 Rplus Rmult P -> el_points nodes_n nr zr -> el_points nodes_n ns zs -> el_points nodes_n nt zt -> history3 DBL_MAX P nodes_n nr ns nt zr zs zt npt e fd s ->
  (length rs <= npt)%nat -> (nr * ns * nt <= length u)%nat ->
  exists s', findpts_el_eval_3 P fd s rs u = Ok (map (value3 e u) rs, s') /\ history3 DBL_MAX P nodes_n nr ns nt zr zs zt npt e fd s'.
Proof. intros M P nn nr ns nt zr zs zt npt e fd s rs u HM G Hr Hs Ht. apply eval_known3; auto. Qed.
Print Assumptions C56_eval.

(** C57.  In a brick, every point of the element is found: r is its position exactly, and the
    flags say "converged, on no side". *)
Theorem C57_brick_exact : forall DBL_MAX P nodes_n nr ns nt zr zs zt npt e fd s xs tol,
  0 < DBL_MAX -> good R 0 Rplus Rmult P -> el_points nodes_n nr zr -> el_points nodes_n ns zs -> el_points nodes_n nt zt -> history3 DBL_MAX P nodes_n nr ns nt zr zs zt npt e fd s ->
  brick e -> 0 < tol -> (length xs <= npt)%nat -> (forall x, In x xs -> reachable3 DBL_MAX e x) ->
  exists out s', findpts_el_3 DBL_MAX P fd s xs tol = Ok (out, s') /\
    forall i x r, nth_error xs i = Some x -> cube r -> (forall c, (c < 3)%nat -> nth c x 0 = image3 e c r) ->
      exists p, nth_error out i = Some p /\ found3 e tol i x p /\ pr p = r /\ flags p = 64%N.
Proof. exact brick_ok. Qed.
Print Assumptions C57_brick_exact.

(** For a point outside of the element, the position reported as converged need not be the nearest
    one, nor nearest to first order, whatever the tolerance is: in the parallelepiped with
    x = r - s, y = s, z = t the search for (-1/2, 3, 2) ends at the corner (1,1,1), flagged as converged,
    although (1/2, 1, 1) is nearer (and the distance decreases along the edge). *)
Theorem C57_nearest_refuted : forall DBL_MAX P nodes_n z tol, 6 < DBL_MAX -> good R 0 Rplus Rmult P -> el_points nodes_n 2 z -> 0 < tol ->
  exists e fd s x p s', history3 DBL_MAX P nodes_n 2 2 2 z z z 1 e fd s /\ regular3 e /\ reachable3 DBL_MAX e x /\ findpts_el_3 DBL_MAX P fd s [x] tol = Ok ([p], s') /\ (64 <= flags p)%N /\
    (exists r, cube r /\ sqdist3 e x r < sqdist3 e x (pr p)) /\ ~ corner_min3 e x (pr p).
Proof.
  intros M P nn z tol HM G Hz Ht. assert (C : coords 2 2 2 (q_x (slanted3 z))) by (split; [reflexivity|intros d Hd; destruct d as [|[|[|d]]]; cbn; lia]).
  destruct (C56_setup nn 2 2 2 z z z 1 _ Hz Hz Hz C) as (fd & s & E).
  assert (H : history3 M P nn 2 2 2 z z z 1 (slanted3 z) fd s) by exact (h3_setup _ _ _ _ _ _ _ _ _ _ _ _ _ C E).
  destruct (far_found3 M HM P G nn z Hz 1 ltac:(lia) tol Ht fd s H) as (p & s' & F & Fl & Pr & Lt & Rg & Rc & Nm). exists (slanted3 z), fd, s, far3, p, s'.
  split; [auto|]. split; [auto|]. split; [auto|]. split; [auto|]. split; [rewrite Fl; discriminate|]. split; [|auto]. exists [1 / 2; 1; 1]. split; [|auto].
  split; [reflexivity|]. intros d Hd. destruct d as [|[|[|d]]]; cbn [nth]; lra || lia.
Qed.
Print Assumptions C57_nearest_refuted.

(** Non-vacuity: a brick with 3 x 2 x 2 nodes that is turned by 45 degrees; it has a history, is
    regular, and its points are reachable. *)
Definition block : shape3 := Shape3 3 2 2 (gll_list 3) (gll_list 2) (gll_list 2)
  [[-1; 1; 3; -3; -1; 1; -1; 1; 3; -3; -1; 1]; [-3; -1; 1; -1; 1; 3; -3; -1; 1; -1; 1; 3]; [2; 2; 2; 2; 2; 2; 8; 8; 8; 8; 8; 8]].
Definition block_a (c : nat) : R := nth c [0; 0; 5] 0.
Definition block_b (c d : nat) : R := nth d (nth c [[2; -1; 0]; [2; 1; 0]; [0; 0; 3]] []) 0.
Example block_par : parallelepiped block block_a block_b.
Proof.
  assert (Z3 : get (gll_list 3) 0 = -1 /\ get (gll_list 3) 1 = 0 /\ get (gll_list 3) 2 = 1) by (unfold gll_list; cbn; repeat split; lra).
  assert (Z2 : get (gll_list 2) 0 = -1 /\ get (gll_list 2) 1 = 1) by (unfold gll_list; cbn; repeat split; lra). destruct Z3 as (A & B & C), Z2 as (D & E).
  constructor; [|cbn; lra]. intros c i j k Hc (Hi & Hj & Hk). cbn [block q_nr q_ns q_nt q_zr q_zs q_zt q_x] in *.
  destruct i as [|[|[|i]]]; try lia; destruct j as [|[|j]]; try lia; destruct k as [|[|k]]; try lia; rewrite ?A, ?B, ?C, ?D, ?E; destruct c as [|[|[|c]]]; try lia; cbn; lra.
Qed.
Example block_brick : brick block.
Proof. exists block_a, block_b. split; [apply block_par|]. intros d f Hd Hf N. destruct d as [|[|[|d]]]; try lia; destruct f as [|[|[|f]]]; try lia; cbn; lra. Qed.
Example block_coords : coords 3 2 2 (q_x block).
Proof. split; [reflexivity|]. intros d Hd. destruct d as [|[|[|d]]]; try lia; cbn; lia. Qed.
Example block_points : el_points (fun _ _ => UB) 3 (gll_list 3) /\ el_points (fun _ _ => UB) 2 (gll_list 2).
Proof. exact turned_points. Qed.
Example block_history : exists fd s, history3 100 (naive R 0 Rplus Rmult) (fun _ _ => UB) 3 2 2 (gll_list 3) (gll_list 2) (gll_list 2) 5 block fd s.
Proof.
  destruct (C56_setup (fun _ _ => UB) 3 2 2 _ _ _ 5 (q_x block) (proj1 block_points) (proj2 block_points) (proj2 block_points) block_coords) as (fd & s & E).
  exists fd, s. exact (h3_setup _ _ _ _ _ _ _ _ _ _ _ _ _ block_coords E).
Qed.
Example block_ok : regular3 block /\ reachable3 100 block [1; 1; 5] /\ [1; 1; 5] = [image3 block 0 [1 / 2; 0; 0]; image3 block 1 [1 / 2; 0; 0]; image3 block 2 [1 / 2; 0; 0]].
Proof.
  destruct block_history as (fd & s & H). destruct (history_known3 100 ltac:(lra) _ turned_products _ _ _ _ _ _ _ (proj1 block_points) (proj2 block_points) (proj2 block_points) _ _ _ _ H) as (Q & K).
  pose proof (fun c r Hc => par_image3 _ _ _ _ _ _ _ _ _ _ _ K _ _ block_par c r Hc) as I.
  split; [exact (par_regular3 _ _ _ _ _ _ _ _ _ _ _ K _ _ block_par)|]. split.
  - exists 1%nat, 0%nat, 0%nat. split; [repeat split; cbn; lia|]. unfold sqdist3. rewrite !I by lia. unfold affine, block_a, block_b, gll_list, ent. cbn. lra.
  - rewrite !I by lia. unfold affine, block_a, block_b, ent. cbn. repeat (f_equal; try lra).
Qed.
