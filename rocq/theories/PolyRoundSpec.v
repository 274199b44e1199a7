(** Lagrange bases evaluated with rounding. *)
From Verif Require Import Base Poly PolySpec TensorSpec TensorRoundSpec.
From Coq Require Import Reals.
Open Scope R_scope.

(** Operations that return the exact result up to a factor between 1 - eps and 1 + eps, with eps < 1. *)
Record arithmetic (eps : R) (add sub mul div : R -> R -> R) : Prop := {
  ar_eps : 0 <= eps < 1;
  ar_add : forall a b, Rabs (add a b - (a + b)) <= eps * Rabs (a + b);
  ar_sub : forall a b, Rabs (sub a b - (a - b)) <= eps * Rabs (a - b);
  ar_mul : forall a b, Rabs (mul a b - a * b) <= eps * Rabs (a * b);
  ar_div : forall a b, b <> 0 -> Rabs (div a b - a / b) <= eps * Rabs (a / b) }.
(** The same eps for operations that may also be inverted: 1 / (1 - eps) = 1 + inv_eps. *)
Definition inv_eps (eps : R) : R := eps / (1 - eps).

(** The basis polynomial with all its factors replaced by their absolute values, shifted by t: it is
    |basis| at t = 0, and its derivatives at 0 are the sums of the absolute values of the terms of
    the derivatives of the basis. *)
Definition shifted (z : arr) (n i : nat) (x t : R) : R :=
  rprod n (fun j => if (j =? i)%nat then 1 else (t + Rabs (x - PolySpec.get z j)) / Rabs (PolySpec.get z i - PolySpec.get z j)).

(** p after a call with p0: as [evaluates], up to rounding. *)
Definition evaluates_fl (eps : R) (z : arr) (n der : nat) (x : R) (p0 p : arr) : Prop :=
  length p = length p0 /\ (forall k, (n * (der + 1) <= k)%nat -> getR p k = getR p0 k) /\
  approx (inv_eps eps) (6 * n - 1) p 0 n (fun i => basis z n i x) (fun i => Rabs (basis z n i x)) /\
  ((1 <= der)%nat -> exists D A, approx (inv_eps eps) (7 * n) p n n D A /\
    forall i, (i < n)%nat -> derivable_pt_lim (basis z n i) x (D i) /\ derivable_pt_lim (shifted z n i x) 0 (A i)) /\
  ((2 <= der)%nat -> exists D A, approx (inv_eps eps) (7 * n + 2) p (2 * n) n D A /\
    forall i, (i < n)%nat -> derivative2 (basis z n i) x (D i) /\ derivative2 (shifted z n i x) 0 (A i)).
