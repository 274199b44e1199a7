(** The nodes of the functions of src/poly_imp.h. *)
From Verif Require Import Base.
From Coq Require Import Reals.
Open Scope R_scope.

(** n points of [-1,1], symmetric about 0, whose positive ones less than 1 are l, in decreasing order:
    -1, -l, 0 if n is odd, l backwards, 1. *)
Definition symmetric (n : nat) (l : list R) : list R :=
  [-1] ++ map Ropp l ++ (if Nat.odd n then [0] else []) ++ rev l ++ [1].

(** f has a root at most d away from x. *)
Definition near_root (f : R -> R) (d x : R) : Prop := exists r, f r = 0 /\ Rabs (x - r) <= d.
