(** Model of comm_dot (comm.c:183-188), over any type of numbers with 0, + and *. *)
From Verif Require Import Base Net Tensor Comm.

(** comm_dot: the local product, then comm_allreduce of the one number s (b: its buffer, not initialised). *)
Definition comm_dot (A : Type) (zero : A) (add mul : A -> A -> A) (np id : nat) (v w : list A) (n : nat) (b : A) : prog A A :=
  pbind (plift (tensor_dot A zero add mul v w n)) (fun s =>
  pbind (comm_allreduce add np id 1 [s] [b]) (fun r =>
  match r with x :: _ => Ret x | [] => Stop end)).
