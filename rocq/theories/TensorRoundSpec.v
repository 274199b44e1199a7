(** Rounded arithmetic in the kernels of tensor.h. *)
From Coq Require Import Reals.
From Verif Require Import Base Tensor TensorSpec.
Local Open Scope R_scope.

(** Addition and multiplication that return the exact result up to a factor between 1 - eps and 1 + eps. *)
Record rounding (eps : R) (add mul : R -> R -> R) : Prop := {
  rnd_eps : 0 <= eps;
  rnd_add : forall a b, Rabs (add a b - (a + b)) <= eps * Rabs (a + b);
  rnd_mul : forall a b, Rabs (mul a b - a * b) <= eps * Rabs (a * b) }.

(** x is S, a sum of products with absolute values of total A, with the error of k roundings. *)
Definition within (eps : R) (k : nat) (x S A : R) : Prop := Rabs (x - S) <= ((1 + eps) ^ k - 1) * A.

Notation getR := (get R 0).
Notation absR := (map Rabs).

(** The entries of the products are exact up to the rounding of sums of as many products as they have. *)
Record accurate (eps : R) (P : products R) : Prop := {
  acc_mxv : forall y ny M x nx, (ny <= length y)%nat -> (ny * nx <= length M)%nat -> (nx <= length x)%nat ->
    exists y', mxv R P y ny M x nx = Ok y' /\ length y' = length y /\ (forall i, (ny <= i)%nat -> getR y' i = getR y i) /\
    forall i, (i < ny)%nat -> within eps (nx + 1) (getR y' i) (MB R 0 Rplus Rmult ny M nx x i 0) (MB R 0 Rplus Rmult ny (absR M) nx (absR x) i 0);
  acc_mtxv : forall y ny M x nx, (1 <= nx)%nat -> (ny <= length y)%nat -> (ny * nx <= length M)%nat -> (nx <= length x)%nat ->
    exists y', mtxv R P y ny M x nx = Ok y' /\ length y' = length y /\ (forall i, (ny <= i)%nat -> getR y' i = getR y i) /\
    forall i, (i < ny)%nat -> within eps (nx + 1) (getR y' i) (MtB R 0 Rplus Rmult M nx x i 0) (MtB R 0 Rplus Rmult (absR M) nx (absR x) i 0);
  acc_mxm : forall C nc M na B nb, (nc * nb <= length C)%nat -> (nc * na <= length M)%nat -> (na * nb <= length B)%nat ->
    exists C', mxm R P C nc M na B nb = Ok C' /\ length C' = length C /\ (forall i, (nc * nb <= i)%nat -> getR C' i = getR C i) /\
    forall i j, (i < nc)%nat -> (j < nb)%nat -> within eps (na + 1) (getR C' (i + j * nc)) (MB R 0 Rplus Rmult nc M na B i j) (MB R 0 Rplus Rmult nc (absR M) na (absR B) i j) }.

(** The entries o, ..., o+n-1 of an array are the numbers S i with the error of k roundings relative to A i >= |S i|. *)
Definition approx (eps : R) (k : nat) (a : list R) (o n : nat) (S A : nat -> R) : Prop :=
  forall i, (i < n)%nat -> Rabs (S i) <= A i /\ within eps k (getR a (o + i)) (S i) (A i).
