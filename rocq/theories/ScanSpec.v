(** Specification of comm_scan with an operation of any algebra. *)
From Verif Require Import Base BracketSpec HalvingSpec.

(** The values of the processes before p, among a, ..., a+n-1, combined behind x: where p is in the second half
    (see halving), those of the first half are combined as in halving and then with what stands for the processes
    before a.  [fuel] >= n. *)
Fixpoint prefix (fuel a n p : nat) (x : expr) : expr :=
  match fuel with
  | O => x
  | S fuel =>
      if n <=? 1 then x
      else if p <? a + n / 2 then prefix fuel a (n / 2) p x
      else prefix fuel (a + n / 2) (n - n / 2) p (Combine (halving (n / 2) a (n / 2)) x)
  end.
