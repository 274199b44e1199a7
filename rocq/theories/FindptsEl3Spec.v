(** Specification for findpts_el_3.c: the element, the distance, and what a search returns. *)
From Verif Require Import Base Tensor Poly PolySpec LobBndSpec FindptsEl2 FindptsEl2Spec FindptsEl3.
From Coq Require Import Reals NArith.
Open Scope R_scope.

(** The element with nr x ns x nt nodes: the nodes in the three directions, and the three coordinates
    of the nodes (the first index is the inner one). *)
Record shape3 := Shape3 { q_nr : nat; q_ns : nat; q_nt : nat; q_zr : arr; q_zs : arr; q_zt : arr; q_x : list arr }.
(** A point of the reference cube, [-1,1] x [-1,1] x [-1,1]. *)
Definition cube (r : list R) : Prop := length r = 3%nat /\ forall d, (d < 3)%nat -> -1 <= nth d r 0 <= 1.
(** The function with the nodal values u. *)
Definition value3 (e : shape3) (u : arr) (r : list R) : R :=
  poly_3 (q_zr e) (q_nr e) (q_zs e) (q_ns e) (q_zt e) (q_nt e) u 0 (nth 0 r 0) (nth 1 r 0) (nth 2 r 0).
(** The coordinate c of the image of r. *)
Definition image3 (e : shape3) (c : nat) (r : list R) : R := value3 e (nth c (q_x e) []) r.
(** The squared distance of the image of r and x. *)
Definition sqdist3 (e : shape3) (x r : list R) : R :=
  (nth 0 x 0 - image3 e 0 r) ^ 2 + (nth 1 x 0 - image3 e 1 r) ^ 2 + (nth 2 x 0 - image3 e 2 r) ^ 2.
(** The node with the indices i, j, k. *)
Definition node3 (e : shape3) (i j k : nat) : list R := [get (q_zr e) i; get (q_zs e) j; get (q_zt e) k].
Definition is_node3 (e : shape3) (i j k : nat) : Prop := (i < q_nr e)%nat /\ (j < q_ns e)%nat /\ (k < q_nt e)%nat.
(** The point on the segment from r (h = 0) to q (h = 1). *)
Definition segment (r q : list R) (h : R) : list R := map (fun d => nth d r 0 + h * (nth d q 0 - nth d r 0)) (seq 0 3).
(** v is the directional derivative at r, for the step to q, of the coordinate c of the map. *)
Definition directional (e : shape3) (c : nat) (r q : list R) (v : R) : Prop := derivable_pt_lim (fun h => image3 e c (segment r q h)) 0 v.
(** J c d is the partial derivative of the coordinate c in the direction d at r. *)
Definition partials3 (e : shape3) (r : list R) (J : nat -> nat -> R) : Prop :=
  forall c d, (c < 3)%nat -> (d < 3)%nat -> derivable_pt_lim (fun t => image3 e c (upd r d t)) (nth d r 0) (J c d).
(** The Jacobian does not vanish. *)
Definition regular3 (e : shape3) : Prop := forall r J, cube r -> partials3 e r J ->
  J 0%nat 0%nat * (J 1%nat 1%nat * J 2%nat 2%nat - J 1%nat 2%nat * J 2%nat 1%nat)
  - J 0%nat 1%nat * (J 1%nat 0%nat * J 2%nat 2%nat - J 1%nat 2%nat * J 2%nat 0%nat)
  + J 0%nat 2%nat * (J 1%nat 0%nat * J 2%nat 1%nat - J 1%nat 1%nat * J 2%nat 0%nat) <> 0.
(** Some node is nearer to x than the square root of M. *)
Definition reachable3 (M : R) (e : shape3) (x : list R) : Prop := exists i j k, is_node3 e i j k /\ sqdist3 e x (node3 e i j k) < M.

(** The squared distance of x and the image of q, with the map replaced by its linear part at r. *)
Definition linear_sqdist3 (e : shape3) (x r q : list R) (v : R) : Prop := exists m0 m1 m2,
  directional e 0 r q m0 /\ directional e 1 r q m1 /\ directional e 2 r q m2 /\
  v = (nth 0 x 0 - (image3 e 0 r + m0)) ^ 2 + (nth 1 x 0 - (image3 e 1 r + m1)) ^ 2 + (nth 2 x 0 - (image3 e 2 r + m2)) ^ 2.
(** The decrease of the squared distance from r to q, by its Taylor polynomial of degree 2 along the segment. *)
Definition quadratic_decrease (e : shape3) (x r q : list R) (v : R) : Prop := exists f1 f2,
  derivable_pt_lim (fun h => sqdist3 e x (segment r q h)) 0 f1 /\ derivative2 (fun h => sqdist3 e x (segment r q h)) 0 f2 /\ v = - (f1 + f2 / 2).
(** A step from r to r' with the predicted decrease v of the squared distance: within some distance
    rho (in every coordinate), either
    - v is the decrease for the linear part of the map, and if the linear part takes some point of the
      cube within that distance to x, this is r'; or
    - some coordinates (F) are held at -1 or 1, v is the decrease by the Taylor polynomial, and this
      is the largest such decrease for points of the cube within that distance, on the same face or edge. *)
Definition prediction3 (e : shape3) (x r r' : list R) (v : R) : Prop := exists rho, 0 < rho /\
  let near q := cube q /\ forall d, (d < 3)%nat -> Rabs (nth d q 0 - nth d r 0) <= rho in near r' /\
  ((exists u, linear_sqdist3 e x r r' u /\ v = sqdist3 e x r - u /\ forall q, near q -> linear_sqdist3 e x r q 0 -> q = r') \/
   (quadratic_decrease e x r r' v /\ exists F, F <> [] /\ (forall d, In d F -> (d < 3)%nat /\ (nth d r 0 = 1 \/ nth d r 0 = -1) /\ nth d r' 0 = nth d r 0) /\
     forall q w, near q -> (forall d, In d F -> nth d q 0 = nth d r 0) -> quadratic_decrease e x r q w -> w <= v)).
(** r is a corner at which the distance does not decrease, to first order, along any edge. *)
Definition corner_min3 (e : shape3) (x r : list R) : Prop := forall d, (d < 3)%nat -> (nth d r 0 = 1 \/ nth d r 0 = -1) /\
  forall f, derivable_pt_lim (fun t => sqdist3 e x (upd r d t)) (nth d r 0) f -> f * nth d r 0 <= 0.

(** What is left in the slot i for the point x. *)
Record found3 (e : shape3) (tol : R) (i : nat) (x : list R) (p : pt) : Prop := {
  f3_x : px p = x;
  f3_index : index p = i;
  f3_cube : cube (pr p);
  f3_flags : exists a b c k, flags p = (a + 4 * b + 16 * c + 64 * k)%N /\ side a (nth 0 (pr p) 0) /\ side b (nth 1 (pr p) 0) /\ side c (nth 2 (pr p) 0) /\ (k = 0%N \/ k = 1%N);
  (* dist2 belongs to the point before the last step, or to r if the last step was taken back *)
  f3_dist : cube (oldr p) /\ ((0 <= dist2p p /\ dist2 p = sqdist3 e x (oldr p)) \/ (dist2p p < 0 /\ dist2 p = sqdist3 e x (pr p)));
  (* the last step, and the decrease predicted for it *)
  f3_step : 0 <= dist2p p -> prediction3 e x (oldr p) (pr p) (dist2p p);
  f3_best : forall i j k, is_node3 e i j k -> dist2 p <= sqdist3 e x (node3 e i j k);
  (* the convergence flag *)
  f3_conv : (64 <= flags p)%N ->
    (0 <= dist2p p /\ Rabs (nth 0 (pr p) 0 - nth 0 (oldr p) 0) + Rabs (nth 1 (pr p) 0 - nth 1 (oldr p) 0) + Rabs (nth 2 (pr p) 0 - nth 2 (oldr p) 0) < tol) \/
    (oldr p = pr p /\ corner_min3 e x (pr p)) \/
    (dist2p p < 0 /\ exists v, prediction3 e x (pr p) (oldr p) v /\ 0 <= v < sqdist3 e x (oldr p) * tol) }.

(** Coordinates of an element with nr x ns x nt nodes. *)
Definition coords (nr ns nt : nat) (x : list arr) : Prop := length x = 3%nat /\ forall d, (d < 3)%nat -> (nr * ns * nt <= length (nth d x []))%nat.
(** The states of the structure, after findpts_el_setup_3 for up to npt points, and any number of
    findpts_el_start_3, findpts_el_3 in regular elements, and findpts_el_eval_3. *)
Inductive history3 (DBL_MAX : R) (P : products R) (nodes_n : arr -> nat -> res arr) (nr ns nt : nat) (zr zs zt : arr) (npt : nat) : shape3 -> el -> st3 -> Prop :=
| h3_setup : forall x fd s, coords nr ns nt x -> findpts_el_setup_3 nodes_n nr ns nt npt x = Ok (fd, s) ->
    history3 DBL_MAX P nodes_n nr ns nt zr zs zt npt (Shape3 nr ns nt zr zs zt x) fd s
| h3_start : forall e fd s x, history3 DBL_MAX P nodes_n nr ns nt zr zs zt npt e fd s -> coords nr ns nt x ->
    history3 DBL_MAX P nodes_n nr ns nt zr zs zt npt (Shape3 nr ns nt zr zs zt x) (fst (findpts_el_start_3 fd s x)) (snd (findpts_el_start_3 fd s x))
| h3_search : forall e fd s xs tol out s', history3 DBL_MAX P nodes_n nr ns nt zr zs zt npt e fd s -> regular3 e -> (length xs <= npt)%nat -> (forall x, In x xs -> reachable3 DBL_MAX e x) ->
    findpts_el_3 DBL_MAX P fd s xs tol = Ok (out, s') -> history3 DBL_MAX P nodes_n nr ns nt zr zs zt npt e fd s'
| h3_eval : forall e fd s rs u out s', history3 DBL_MAX P nodes_n nr ns nt zr zs zt npt e fd s -> (length rs <= npt)%nat -> (nr * ns * nt <= length u)%nat ->
    findpts_el_eval_3 P fd s rs u = Ok (out, s') -> history3 DBL_MAX P nodes_n nr ns nt zr zs zt npt e fd s'.

(** The element is a parallelepiped: the coordinate c of the node (i,j,k) is a c + b c 0 z_i + b c 1 z_j + b c 2 z_k. *)
Record parallelepiped (e : shape3) (a : nat -> R) (b : nat -> nat -> R) : Prop := {
  pp_x : forall c i j k, (c < 3)%nat -> is_node3 e i j k ->
    get (nth c (q_x e) []) ((k * q_ns e + j) * q_nr e + i) = a c + b c 0%nat * get (q_zr e) i + b c 1%nat * get (q_zs e) j + b c 2%nat * get (q_zt e) k;
  pp_det : b 0%nat 0%nat * (b 1%nat 1%nat * b 2%nat 2%nat - b 1%nat 2%nat * b 2%nat 1%nat)
    - b 0%nat 1%nat * (b 1%nat 0%nat * b 2%nat 2%nat - b 1%nat 2%nat * b 2%nat 0%nat)
    + b 0%nat 2%nat * (b 1%nat 0%nat * b 2%nat 1%nat - b 1%nat 1%nat * b 2%nat 0%nat) <> 0 }.
(** With orthogonal edges. *)
Definition brick (e : shape3) : Prop := exists a b, parallelepiped e a b /\
  forall d f, (d < 3)%nat -> (f < 3)%nat -> d <> f -> b 0%nat d * b 0%nat f + b 1%nat d * b 1%nat f + b 2%nat d * b 2%nat f = 0.
