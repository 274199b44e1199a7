(** Specification for findpts_el_2.c: the element, the distance, and what a search returns. *)
From Verif Require Import Base Tensor Poly PolySpec LobBndSpec FindptsEl2.
From Coq Require Import Reals NArith.
Open Scope R_scope.
Notation get := PolySpec.get.

(** lobatto_nodes finds the n distinct nodes zs in [-1,1], symmetric, the ends among them. *)
Record el_points (nodes_n : arr -> nat -> res arr) (n : nat) (zs : arr) : Prop := {
  ep_n : (2 <= n)%nat;
  ep_lob : lobatto_points nodes_n n zs;
  ep_first : get zs 0 = -1;
  ep_last : get zs (n - 1) = 1;
  ep_in : forall i, (i < n)%nat -> -1 <= get zs i <= 1 }.

(** The element with nr x ns nodes: nodes and coordinates. *)
Record shape := Shape { s_nr : nat; s_ns : nat; s_zr : arr; s_zs : arr; s_x : arr; s_y : arr }.
(** A point of the reference square, [-1,1] x [-1,1]. *)
Definition square (r : list R) : Prop := length r = 2%nat /\ -1 <= nth 0 r 0 <= 1 /\ -1 <= nth 1 r 0 <= 1.
(** The function with the nodal values u. *)
Definition value (e : shape) (u : arr) (r s : R) : R := poly_2 (s_zr e) (s_nr e) (s_zs e) (s_ns e) u 0 r s.
Definition image_x (e : shape) : R -> R -> R := value e (s_x e).
Definition image_y (e : shape) : R -> R -> R := value e (s_y e).
(** The squared distance of the image of (r,s) and x. *)
Definition sqdist (e : shape) (x : list R) (r s : R) : R :=
  (nth 0 x 0 - image_x e r s) ^ 2 + (nth 1 x 0 - image_y e r s) ^ 2.
Definition sqdist_at (e : shape) (x r : list R) : R := sqdist e x (nth 0 r 0) (nth 1 r 0).
(** The partial derivatives of the map at (r,s). *)
Definition partials (e : shape) (r s xr xs yr ys : R) : Prop :=
  derivable_pt_lim (fun t => image_x e t s) r xr /\ derivable_pt_lim (fun t => image_x e r t) s xs /\
  derivable_pt_lim (fun t => image_y e t s) r yr /\ derivable_pt_lim (fun t => image_y e r t) s ys.
(** The Jacobian does not vanish. *)
Definition regular (e : shape) : Prop := forall r s xr xs yr ys, -1 <= r <= 1 -> -1 <= s <= 1 -> partials e r s xr xs yr ys -> xr * ys - xs * yr <> 0.
(** Some node is nearer to x than the square root of M. *)
Definition reachable (M : R) (e : shape) (x : list R) : Prop :=
  exists i j, (i < s_nr e)%nat /\ (j < s_ns e)%nat /\ sqdist e x (get (s_zr e) i) (get (s_zs e) j) < M.

(** The two bits of flags for one direction: on no side, at -1, at 1. *)
Definition side (f : N) (r : R) : Prop := f = 0%N \/ (f = 1%N /\ r = -1) \/ (f = 2%N /\ r = 1).
(** The squared distance of x and the image of r', with the map replaced by its linear part at r. *)
Definition linear_sqdist (e : shape) (x r r' : list R) (v : R) : Prop :=
  let a := nth 0 r 0 in let b := nth 1 r 0 in let da := nth 0 r' 0 - a in let db := nth 1 r' 0 - b in
  exists xr xs yr ys, partials e a b xr xs yr ys /\ v = (nth 0 x 0 - (image_x e a b + (xr * da + xs * db))) ^ 2 + (nth 1 x 0 - (image_y e a b + (yr * da + ys * db))) ^ 2.
(** The decrease v of the squared distance that is predicted for the step from r to r': with the map
    replaced by its linear part at r, or, if only one coordinate changes, by the Taylor polynomial
    of degree 2 of the squared distance. *)
Definition prediction (e : shape) (x r r' : list R) (v : R) : Prop :=
  let a := nth 0 r 0 in let b := nth 1 r 0 in let da := nth 0 r' 0 - a in let db := nth 1 r' 0 - b in
  (exists u, linear_sqdist e x r r' u /\ v = sqdist e x a b - u) \/
  (db = 0 /\ exists f1 f2, derivable_pt_lim (fun t => sqdist e x t b) a f1 /\ derivative2 (fun t => sqdist e x t b) a f2 /\ v = - (f1 * da + f2 / 2 * da ^ 2)) \/
  (da = 0 /\ exists f1 f2, derivable_pt_lim (fun t => sqdist e x a t) b f1 /\ derivative2 (fun t => sqdist e x a t) b f2 /\ v = - (f1 * db + f2 / 2 * db ^ 2)).
(** From r inside the square, r' is the best point for the linear part within some distance rho. *)
Definition newton_step (e : shape) (x r r' : list R) : Prop :=
  -1 < nth 0 r 0 < 1 -> -1 < nth 1 r 0 < 1 -> exists rho, 0 < rho /\
  let near q := Rabs (nth 0 q 0 - nth 0 r 0) <= rho /\ Rabs (nth 1 q 0 - nth 1 r 0) <= rho in
  near r' /\ forall q u v, square q -> near q -> linear_sqdist e x r r' u -> linear_sqdist e x r q v -> u <= v.
(** r is a corner at which the distance does not decrease, to first order, along either edge. *)
Definition corner_min (e : shape) (x r : list R) : Prop :=
  let a := nth 0 r 0 in let b := nth 1 r 0 in (a = 1 \/ a = -1) /\ (b = 1 \/ b = -1) /\
  forall f g, derivable_pt_lim (fun t => sqdist e x t b) a f -> derivable_pt_lim (fun t => sqdist e x a t) b g -> f * a <= 0 /\ g * b <= 0.

(** What is left in the slot i for the point x. *)
Record found (e : shape) (tol : R) (i : nat) (x : list R) (p : pt) : Prop := {
  fo_x : px p = x;
  fo_index : index p = i;
  fo_square : square (pr p);
  fo_flags : exists a b c, flags p = (a + 4 * b + 16 * c)%N /\ side a (nth 0 (pr p) 0) /\ side b (nth 1 (pr p) 0) /\ (c = 0%N \/ c = 1%N);
  (* dist2 belongs to the point before the last step, or to r if the last step was taken back *)
  fo_dist : square (oldr p) /\ ((0 <= dist2p p /\ dist2 p = sqdist_at e x (oldr p)) \/ (dist2p p < 0 /\ dist2 p = sqdist_at e x (pr p)));
  (* the last step: dist2p is the decrease predicted for it; from inside it was a minimum of the
     linear model within some distance *)
  fo_step : 0 <= dist2p p -> prediction e x (oldr p) (pr p) (dist2p p) /\ newton_step e x (oldr p) (pr p);
  fo_best : forall i j, (i < s_nr e)%nat -> (j < s_ns e)%nat -> dist2 p <= sqdist e x (get (s_zr e) i) (get (s_zs e) j);
  (* the convergence flag *)
  fo_conv : (16 <= flags p)%N ->
    (0 <= dist2p p /\ Rabs (nth 0 (pr p) 0 - nth 0 (oldr p) 0) + Rabs (nth 1 (pr p) 0 - nth 1 (oldr p) 0) < tol) \/
    (oldr p = pr p /\ corner_min e x (pr p)) \/
    (dist2p p < 0 /\ exists v, prediction e x (pr p) (oldr p) v /\ 0 <= v < sqdist_at e x (oldr p) * tol) }.

(** The states of the structure, after findpts_el_setup_2 for up to npt points, and any number of
    findpts_el_start_2, findpts_el_2 in regular elements, and findpts_el_eval_2. *)
Inductive history (DBL_MAX : R) (P : products R) (nodes_n : arr -> nat -> res arr) (nr ns : nat) (zr zs : arr) (npt : nat) : shape -> el -> st -> Prop :=
| h_setup : forall x y fd s, (nr * ns <= length x)%nat -> (nr * ns <= length y)%nat ->
    findpts_el_setup_2 nodes_n nr ns npt [x; y] = Ok (fd, s) -> history DBL_MAX P nodes_n nr ns zr zs npt (Shape nr ns zr zs x y) fd s
| h_start : forall e fd s x y, history DBL_MAX P nodes_n nr ns zr zs npt e fd s -> (nr * ns <= length x)%nat -> (nr * ns <= length y)%nat ->
    history DBL_MAX P nodes_n nr ns zr zs npt (Shape nr ns zr zs x y) (fst (findpts_el_start_2 fd s [x; y])) (snd (findpts_el_start_2 fd s [x; y]))
| h_search : forall e fd s xs tol out s', history DBL_MAX P nodes_n nr ns zr zs npt e fd s -> regular e -> (length xs <= npt)%nat -> (forall x, In x xs -> reachable DBL_MAX e x) ->
    findpts_el_2 DBL_MAX P fd s xs tol = Ok (out, s') -> history DBL_MAX P nodes_n nr ns zr zs npt e fd s'
| h_eval : forall e fd s rs u out s', history DBL_MAX P nodes_n nr ns zr zs npt e fd s -> (length rs <= npt)%nat -> (nr * ns <= length u)%nat ->
    findpts_el_eval_2 P fd s rs u = Ok (out, s') -> history DBL_MAX P nodes_n nr ns zr zs npt e fd s'.

(** The element is a parallelogram: the coordinates of the node (i,j) are (ax + bx z_i + cx z_j, ay + by z_i + cy z_j). *)
Record parallelogram (e : shape) (ax bx cx ay by' cy : R) : Prop := {
  pg_x : forall i j, (i < s_nr e)%nat -> (j < s_ns e)%nat -> get (s_x e) (j * s_nr e + i) = ax + bx * get (s_zr e) i + cx * get (s_zs e) j;
  pg_y : forall i j, (i < s_nr e)%nat -> (j < s_ns e)%nat -> get (s_y e) (j * s_nr e + i) = ay + by' * get (s_zr e) i + cy * get (s_zs e) j;
  pg_det : bx * cy - cx * by' <> 0 }.
(** With orthogonal sides. *)
Definition rectangle (e : shape) : Prop := exists ax bx cx ay by' cy, parallelogram e ax bx cx ay by' cy /\ bx * cx + by' * cy = 0.
