(** Rounding to the nearest number with 53 significant bits, ties to even: the arithmetic of type double
    (IEEE 754 binary64) as long as there is no overflow and no underflow. *)
From Coq Require Import Reals ZArith.
From Flocq Require Import Core.
Open Scope R_scope.

(** Numbers with 53 significant bits, and any exponent. *)
Definition machine (x : R) : Prop := generic_format radix2 (FLX_exp 53) x.
(** The nearest one. *)
Definition fl (x : R) : R := round radix2 (FLX_exp 53) ZnearestE x.
(** The operations. *)
Definition fl_add (a b : R) : R := fl (a + b).
Definition fl_sub (a b : R) : R := fl (a - b).
Definition fl_mul (a b : R) : R := fl (a * b).
Definition fl_div (a b : R) : R := fl (a / b).
(** The unit roundoff. *)
Definition u53 : R := / 2 ^ 53.
