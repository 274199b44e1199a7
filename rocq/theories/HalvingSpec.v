(** Specification of comm_allreduce with an operation of any algebra: halving. *)
From Verif Require Import Base BracketSpec.

(** The values of the processes a, ..., a+n-1, combined in this order: those of the first n/2 (rounded down) with those of
    the rest, each half in the same way.  [fuel] >= n. *)
Fixpoint halving (fuel a n : nat) : expr :=
  match fuel with
  | O => Value a 0 0
  | S fuel => if n <=? 1 then Value a 0 0 else Combine (halving fuel a (n / 2)) (halving fuel (a + n / 2) (n - n / 2))
  end.
(** The most operations any of its values passes through. *)
Fixpoint depth (x : expr) : nat :=
  match x with
  | Combine a b => S (Nat.max (depth a) (depth b))
  | _ => 0
  end.
