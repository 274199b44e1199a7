(** What a user relies on about arrays and scratch areas. *)
From Verif Require Import Base Mem.

(** An array whose block has room for exactly amax items. *)
Definition wf (M size : nat) (a : array) : Prop :=
  an a <= amax a /\ length (ptr a) = amax a * size /\ amax a * size < M.
(** The array contains these bytes. *)
Definition holds (size : nat) (a : array) (bytes : list nat) : Prop :=
  length bytes = an a * size /\ firstn (an a * size) (ptr a) = map Some bytes.

(** Histories of an array. *)
Inductive op := Reserve (min : nat) | Cat (bytes : list nat) (n : nat).
Definition run1 (M size : nat) (a : array) (o : op) : res array :=
  match o with
  | Reserve min => Ok (array_reserve M a min size)
  | Cat s n => array_cat M size a s n
  end.
Definition run (M size : nat) (a : array) (ops : list op) : res array := foldM (run1 M size) ops a.
(** The bytes appended by a history. *)
Definition appended (size : nat) (ops : list op) : list nat :=
  concat (map (fun o => match o with Reserve _ => [] | Cat s n => firstn (n * size) s end) ops).
Definition items (ops : list op) : nat :=
  fold_right Nat.add 0 (map (fun o => match o with Reserve _ => 0 | Cat _ n => n end) ops).
(** The history never needs more than N items; sources have enough bytes. *)
Definition within (size N : nat) (ops : list op) : Prop :=
  forall o, In o ops -> match o with Reserve min => min <= N | Cat s n => n * size <= length s end.

(** The number of reallocations of a history. *)
Fixpoint reallocs (M size : nat) (a : array) (ops : list op) : nat :=
  match ops with
  | [] => 0
  | o :: ops' =>
      match run1 M size a o with
      | Ok a' => (if amax a' =? amax a then 0 else 1) + reallocs M size a' ops'
      | _ => 0
      end
  end.

(** The areas lie in the reserved block one after the other (so they are disjoint). *)
Fixpoint in_order (from upto : nat) (l : list (nat * nat)) : Prop :=
  match l with
  | [] => from <= upto
  | (off, len) :: l' => from <= off /\ in_order (off + len) upto l'
  end.
Definition fits (l : layout) : Prop := in_order 0 (reserved l) (areas l).
