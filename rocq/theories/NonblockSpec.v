(** A sequence of igs and gs_wait calls of one process. *)
From Verif Require Import Base Nonblock.

(** igs with the arguments op, or gs_wait with the handle that the k-th igs (from 0) returned. *)
Inductive call (P : Type) := Igs (op : P) | Wait_for (k : nat).
Arguments Igs {P} _.
Arguments Wait_for {P} _.

(** Run the calls; [handles]: the handles returned so far.  Gives the final table and, for every
    gs_wait, the operation it completed. *)
Fixpoint run_calls {P} (INT_MAX : nat) (t : table P) (handles : list Z) (cs : list (call P)) {struct cs}
    : res (table P * list (option P)) :=
  match cs with
  | [] => Ok (t, [])
  | Igs op :: cs => x <- igs_enter INT_MAX t op ;;
                    run_calls INT_MAX (fst x) (handles ++ [snd x]) cs
  | Wait_for k :: cs => h <- rd handles k ;;
                        x <- gs_wait_table t h ;;
                        r <- run_calls INT_MAX (fst x) handles cs ;;
                        Ok (fst r, snd x :: snd r)
  end.

(** Every gs_wait refers to an earlier igs that has not been waited for. *)
Fixpoint proper {P} (issued : nat) (waited : list nat) (cs : list (call P)) : Prop :=
  match cs with
  | [] => True
  | Igs _ :: cs => proper (S issued) waited cs
  | Wait_for k :: cs => k < issued /\ ~ In k waited /\ proper issued (k :: waited) cs
  end.

(** The operations issued, the ones waited for. *)
Definition issued_ops {P} (cs : list (call P)) : list P :=
  flat_map (fun c => match c with Igs op => [op] | Wait_for _ => [] end) cs.
Definition waits {P} (cs : list (call P)) : list nat :=
  flat_map (fun c => match c with Igs _ => [] | Wait_for k => [k] end) cs.
