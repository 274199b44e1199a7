(** Integrals of polynomials over [-1,1]. *)
From Verif Require Import Base Poly PolySpec.
From Coq Require Import Reals.
Open Scope R_scope.

(** v is the integral of f from -1 to 1: the difference of the values of an antiderivative. *)
Definition integral (f : R -> R) (v : R) : Prop :=
  exists F, (forall x, derivable_pt_lim F x (f x)) /\ v = F 1 - F (-1).

(** Newton's iteration finds, from n/2 first values, different negative roots of f. *)
Record newton_roots (newton : (R -> R) -> (R -> R) -> R -> res R) (f f' : R -> R) (start : nat -> R) (n : nat) : Prop := {
  nr_run : forall i, (i < n / 2)%nat -> exists r, newton f f' (start i) = Ok r /\ r < 0 /\ f r = 0;
  nr_distinct : forall i j r, (i < n / 2)%nat -> (j < n / 2)%nat -> newton f f' (start i) = Ok r -> newton f f' (start j) = Ok r -> i = j }.
(** The first values in gauss_nodes and lobatto_nodes_aux. *)
Definition gauss_start (n i : nat) : R := cos (INR (2 * n - 2 * i - 1) * (PI / 2) / INR n).
Definition lobatto_start (n i : nat) : R := cos (INR (n - i) * PI / INR (n + 1)).
(** The sum of the absolute values of the coefficients. *)
Fixpoint norm1 (c : list R) : R := match c with [] => 0 | a :: c' => Rabs a + norm1 c' end.
