(** The nodes of lobatto_nodes for at most 24 points. *)
From Verif Require Import Base Poly PolySpec PolyImpSyntax PolyImp.
From Coq Require Import Reals.
Open Scope R_scope.

(** The entries of the table for n points: the positive inner nodes, from the largest on. *)
Definition gll_table (n : nat) : list R := map entry (if (n <? 4)%nat then [] else nth (n - 4) gllz_table []).
(** -1, the negative ones, 0 if n is odd, the positive ones, 1. *)
Definition gll_list (n : nat) : list R :=
  [-1] ++ map Ropp (gll_table n) ++ (if Nat.odd n then [0] else []) ++ rev (gll_table n) ++ [1].
