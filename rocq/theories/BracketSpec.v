(** Specification for gather-scatter with an operation that need be neither commutative nor
    associative, such as the addition of doubles: the result is a bracketing of the values. *)
From Verif Require Import Base GsSpec.

(** An expression in the values before the call: Value q j k is component k of entry j of process q
    (k = 0 for gs). *)
Inductive expr := Value (q j k : nat) | Identity | Combine (a b : expr).
(** Its value, for an operation, the identity passed with it and the values. *)
Fixpoint eval {T} (op : T -> T -> T) (e : T) (v : nat -> nat -> nat -> T) (x : expr) : T :=
  match x with
  | Value q j k => v q j k
  | Identity => e
  | Combine a b => op (eval op e v a) (eval op e v b)
  end.
(** The values that occur in it, with multiplicity. *)
Fixpoint leaves (x : expr) : list (nat * nat * nat) :=
  match x with
  | Value q j k => [(q, j, k)]
  | Identity => []
  | Combine a b => leaves a ++ leaves b
  end.

(** The entries (process, index) of all processes whose id satisfies c. *)
Definition positions (np : nat) (ids : nat -> list Z) (c : Z -> bool) : list (nat * nat) :=
  flat_map (fun q => map (fun j => (q, j)) (filter (fun j => c (nth j (ids q) 0%Z)) (seq 0 (length (ids q))))) (seq 0 np).
(** The entries whose values go into the result at entry i of process p (C25-C28): the entry itself when its id
    is 0; for transpose = 0 the unflagged entries of its group; for transpose = 1 all the entries of
    the group when it is unflagged, and itself when it is flagged, except that the first of the
    entries of a group that has only flagged entries on process p gets those. *)
Definition contributors (np : nat) (ids : nat -> list Z) (transpose : bool) (p i : nat) : list (nat * nat) :=
  let z := nth i (ids p) 0%Z in
  if (z =? 0)%Z then [(p, i)]
  else if negb transpose then positions np ids (fun y => (y =? Z.abs z)%Z)
  else if (0 <? z)%Z then positions np ids (fun y => (Z.abs y =? z)%Z)
  else if existsb (Z.eqb (- z)) (ids p) || existsb (Z.eqb z) (firstn i (ids p)) then [(p, i)]
  else map (fun j => (p, j)) (filter (fun j => (nth j (ids p) 0 =? z)%Z) (seq 0 (length (ids p)))).
