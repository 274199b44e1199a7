(** The arithmetic for the functions of src/poly_imp.h. *)
From Verif Require Import Base PolyImpSyntax.
From Coq Require Import Reals.
Open Scope R_scope.

(** F is the set of machine numbers.  Doubling them is exact, as in binary floating point. *)
Record doubling (F : R -> Prop) (mul : R -> R -> R) : Prop := {
  dbl_0 : F 0;
  dbl_1 : F 1;
  dbl_opp : forall a, F a -> F (- a);
  dbl_left : forall a, F a -> mul 2 a = 2 * a;
  dbl_right : forall a, F a -> mul a 2 = a * 2 }.
(** The compiler's values of the entries of the tables. *)
Definition literals (F : R -> Prop) (eps : R) (lit : Z -> R) : Prop := forall k, F (lit k) /\ Rabs (lit k - entry k) <= eps * Rabs (entry k).
(** Calls at machine numbers. *)
Definition machine_call (F : R -> Prop) (c : list R * nat * R) : Prop := F (snd c).
