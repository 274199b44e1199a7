(** What the kernels of tensor.h compute, in formulas. *)
From Verif Require Import Base Tensor.

Section Spec.
Variable A : Type.
Variable zero : A.
Variable add mul : A -> A -> A.
Notation arr := (list A).

(** f 0 + ... + f (n-1). *)
Fixpoint sum (n : nat) (f : nat -> A) : A :=
  match n with O => zero | S m => add (sum m f) (f m) end.
(** a[i]. *)
Definition get (a : arr) (i : nat) : A := nth i a zero.
(** The first n entries of an array are replaced by the values of f. *)
Definition written (a a' : arr) (n : nat) (f : nat -> A) : Prop :=
  length a' = length a /\ (forall i, i < n -> get a' i = f i) /\ forall i, n <= i -> get a' i = get a i.
(** The same for a matrix with nc rows and nb columns. *)
Definition written_mat (a a' : arr) (nc nb : nat) (f : nat -> nat -> A) : Prop :=
  length a' = length a /\ (forall i j, i < nc -> j < nb -> get a' (i + j * nc) = f i j) /\
  forall i, nc * nb <= i -> get a' i = get a i.

(** Entry (i,j) of the products. *)
Definition MB (nc : nat) (M : arr) (na : nat) (B : arr) (i j : nat) : A :=
  sum na (fun k => mul (get M (i + k * nc)) (get B (k + j * na))).
Definition MtB (M : arr) (na : nat) (B : arr) (i j : nat) : A :=
  sum na (fun k => mul (get M (k + i * na)) (get B (k + j * na))).

(** The products are computed correctly (mtxv for nx >= 1). *)
Record good (P : products A) : Prop := {
  good_mxv : forall y ny M x nx, ny <= length y -> ny * nx <= length M -> nx <= length x ->
    exists y', mxv A P y ny M x nx = Ok y' /\ written y y' ny (fun i => MB ny M nx x i 0);
  good_mtxv : forall y ny M x nx, 1 <= nx -> ny <= length y -> ny * nx <= length M -> nx <= length x ->
    exists y', mtxv A P y ny M x nx = Ok y' /\ written y y' ny (fun i => MtB M nx x i 0);
  good_mxm : forall C nc M na B nb, nc * nb <= length C -> nc * na <= length M -> na * nb <= length B ->
    exists C', mxm A P C nc M na B nb = Ok C' /\ written_mat C C' nc nb (MB nc M na B) }.

(** [X (x) Y (x) Z] u and its 1- and 2-dimensional analogues: row vectors applied to the array u
    with inner index r. *)
Definition apply1 (X : nat -> A) (nr : nat) (u : arr) : A := sum nr (fun i => mul (X i) (get u i)).
Definition apply2 (X : nat -> A) (nr : nat) (Y : nat -> A) (ns : nat) (u : arr) : A :=
  sum ns (fun j => sum nr (fun i => mul (mul (X i) (Y j)) (get u (i + nr * j)))).
Definition apply3 (X : nat -> A) (nr : nat) (Y : nat -> A) (ns : nat) (Z : nat -> A) (nt : nat) (u : arr) : A :=
  sum nt (fun k => sum ns (fun j => sum nr (fun i =>
    mul (mul (mul (X i) (Y j)) (Z k)) (get u (i + nr * (j + ns * k)))))).
(** Row (or row l of) a weight array: w[l*n], ..., w[l*n+n-1]. *)
Definition row (w : arr) (n l i : nat) : A := get w (l * n + i).
End Spec.
