(** Piecewise linear bounds. *)
From Verif Require Import Base Poly PolySpec PolyGll LobBnd.
From Coq Require Import Reals.
Open Scope R_scope.

(** Linear interpolation, in [h k, h (k+1)], of the values v k and v (k+1). *)
Definition lerp (h : nat -> R) (k : nat) (v : nat -> R) (x : R) : R :=
  ((h (k + 1)%nat - x) * v k + (x - h k) * v (k + 1)%nat) / (h (k + 1)%nat - h k).
(** x is in the k-th of the m-1 intervals between the points h 0, ..., h (m-1). *)
Definition in_cell (h : nat -> R) (m k : nat) (x : R) : Prop := (k + 1 < m)%nat /\ h k <= x <= h (k + 1)%nat.

(** The parts of lob_bnd_data: the nodes, the two functionals, the points, the bounds of the basis
    functions and these split into negative and positive parts. *)
Definition node (d : arr) (i : nat) : R := get d i.
Definition func0 (d : arr) (n i : nat) : R := get d (n + 2 * i).
Definition func1 (d : arr) (n i : nat) : R := get d (n + (2 * i + 1)).
Definition point (d : arr) (n k : nat) : R := get d (3 * n + k).
Definition lower (d : arr) (n m i k : nat) : R := get d (3 * n + m + (i * m + k) * 2).
Definition upper (d : arr) (n m i k : nat) : R := get d (3 * n + m + ((i * m + k) * 2 + 1)).
Definition signed (d : arr) (n m p i k : nat) : R := get d (3 * n + m + 2 * n * m + (4 * (i * m + k) + p)).

(** The piecewise linear functions in d bound the basis functions. *)
Definition bounds_basis (d : arr) (n m : nat) : Prop :=
  forall i k x, (i < n)%nat -> in_cell (point d n) m k x ->
    lerp (point d n) k (lower d n m i) x <= basis d n i x <= lerp (point d n) k (upper d n m i) x.

(** lob_bnd_data as left by lob_bnd_setup, with bounds that are right. *)
Record bound_data (d : arr) (n m : nat) : Prop := {
  bd_size : (lob_bnd_size n m <= length d)%nat;
  bd_n : (2 <= n)%nat;
  bd_m : (2 <= m)%nat;
  bd_nodes : distinct d n;
  bd_first : point d n 0 = -1;
  bd_last : point d n (m - 1) = 1;
  bd_inc : forall k, (k + 1 < m)%nat -> point d n k < point d n (k + 1);
  bd_split : forall i k, (i < n)%nat -> (k < m)%nat ->
    signed d n m 0 i k = Rmin (lower d n m i k) 0 /\ signed d n m 1 i k = Rmax (lower d n m i k) 0 /\
    signed d n m 2 i k = Rmin (upper d n m i k) 0 /\ signed d n m 3 i k = Rmax (upper d n m i k) 0;
  bd_bounds : bounds_basis d n m }.

(** lobatto_nodes finds the n nodes zs, which are symmetric about 0. *)
Record lobatto_points (nodes_n : arr -> nat -> res arr) (n : nat) (zs : arr) : Prop := {
  lp_run : forall a, (n <= length a)%nat -> exists a', lobatto_nodes nodes_n a n = Ok a' /\ length a' = length a /\
    (forall k, (n <= k)%nat -> get a' k = get a k) /\ forall i, (i < n)%nat -> get a' i = get zs i;
  lp_distinct : distinct zs n;
  lp_symmetric : forall i, (i < n)%nat -> get zs (n - 1 - i) = - get zs i }.
(** The Gauss-Lobatto weight of the node x. *)
Definition lobatto_weight (n : nat) (x : R) : R := 2 / (INR (n - 1) * INR n * (P (n - 1) x * P (n - 1) x)).
(** The k-th of the m Chebyshev-Lobatto points. *)
Definition cheb (m k : nat) : R := cos (INR (m - 1 - k) * PI / INR (m - 1)).
Definition middle (m k : nat) : R := (cheb m k + cheb m (k + 1)) / 2.
(** v is the value at x of the tangent of f at a. *)
Definition tangent_value (f : R -> R) (a x v : R) : Prop := exists d, derivable_pt_lim f a d /\ v = f a + (x - a) * d.
(** What lob_bnd_setup computes: at both ends the values of the basis functions, at the inner
    points the least and the greatest of the value and of the values of the tangents at the middles
    of the two intervals beside the point. *)
Record setup_data (zs : arr) (d : arr) (n m : nat) : Prop := {
  sd_node : forall i, (i < n)%nat -> node d i = get zs i;
  sd_func0 : forall i, (i < n)%nat -> func0 d n i = lobatto_weight n (get zs i) / 2;
  sd_func1 : forall i, (i < n)%nat -> func1 d n i = 3 / 2 * lobatto_weight n (get zs i) * get zs i;
  sd_point : forall k, (k < m)%nat -> point d n k = cheb m k;
  sd_first : forall i, (i < n)%nat -> lower d n m i 0 = (if (i =? 0)%nat then 1 else 0) /\ upper d n m i 0 = (if (i =? 0)%nat then 1 else 0);
  sd_last : forall i, (i < n)%nat -> lower d n m i (m - 1) = (if (i =? n - 1)%nat then 1 else 0) /\ upper d n m i (m - 1) = (if (i =? n - 1)%nat then 1 else 0);
  sd_inner : forall i k, (i < n)%nat -> (0 < k < m - 1)%nat -> exists cl cr,
    tangent_value (basis zs n i) (middle m (k - 1)) (cheb m k) cl /\ tangent_value (basis zs n i) (middle m k) (cheb m k) cr /\
    lower d n m i k = Rmin (Rmin cl cr) (basis zs n i (cheb m k)) /\ upper d n m i k = Rmax (Rmax cl cr) (basis zs n i (cheb m k));
  sd_split : forall i k, (i < n)%nat -> (k < m)%nat ->
    signed d n m 0 i k = Rmin (lower d n m i k) 0 /\ signed d n m 1 i k = Rmax (lower d n m i k) 0 /\
    signed d n m 2 i k = Rmin (upper d n m i k) 0 /\ signed d n m 3 i k = Rmax (upper d n m i k) 0 }.

(** The polynomials with the nodal values u[uo...]; the index of the first variable is the inner one. *)
Definition poly_1 (d : arr) (n : nat) (u : arr) (uo : nat) (r : R) : R :=
  rsum n (fun i => get u (uo + i) * basis d n i r).
Definition poly_2 (dr : arr) (nr : nat) (ds : arr) (ns : nat) (u : arr) (uo : nat) (r s : R) : R :=
  rsum ns (fun j => rsum nr (fun i => get u (uo + (j * nr + i)) * basis dr nr i r * basis ds ns j s)).
Definition poly_3 (dr : arr) (nr : nat) (ds : arr) (ns : nat) (dt : arr) (nt : nat) (u : arr) (uo : nat) (r s t : R) : R :=
  rsum nt (fun k => rsum ns (fun j => rsum nr (fun i =>
    get u (uo + ((k * ns + j) * nr + i)) * basis dr nr i r * basis ds ns j s * basis dt nt k t))).

(** The bounds written at w[b...], as functions on the grid of points: lower ones (p=0), upper
    ones (p=1). *)
Definition grid_1 (w : arr) (b p i : nat) : R := get w (b + (2 * i + p)).
Definition grid_2 (w : arr) (b ms p i j : nat) : R := get w (b + (2 * (i * ms + j) + p)).
Definition grid_3 (w : arr) (b ms mt p i j k : nat) : R := get w (b + (2 * ((i * ms + j) * mt + k) + p)).
