(** Specification vocabulary for the gather/scatter kernels. *)
From Verif Require Import Base.

(** An index map is a list of groups (i, [j1;...;jm]), m >= 1, stored as
    i j1 ... jm SENT  for each group, with a final SENT. *)
Definition groups := list (nat * list nat).
Definition encode (SENT : nat) (gs : groups) : list nat :=
  flat_map (fun g => fst g :: snd g ++ [SENT]) gs ++ [SENT].

(** The (i, j) pairs of a map. *)
Definition pairs (gs : groups) : list (nat * nat) :=
  flat_map (fun g => map (fun j => (fst g, j)) (snd g)) gs.

(** All heads i below n and all members j below m; groups not empty; no index equal to SENT. *)
Definition valid_map (SENT n m : nat) (gs : groups) : Prop :=
  n <= SENT /\ m <= SENT /\
  forall i js, In (i, js) gs -> js <> [] /\ i < n /\ forall j, In j js -> j < m.

(** No index is both a head and a member (needed when a kernel works in place). *)
Definition apart (gs : groups) : Prop :=
  forall i j, In i (map fst gs) -> In j (concat (map snd gs)) -> i <> j.

Section Effect.
Context {T : Type}.
Variable op : T -> T -> T.
(** What gather does to the element at p, given its old value and the values read:
    accumulate a(j) for all pairs (p, j) of the map. *)
Definition gathered (gs : groups) (a : nat -> T) (p : nat) (old : T) : T :=
  fold_left op (map (fun q => a (snd q)) (filter (fun q => fst q =? p) (pairs gs))) old.

(** What scatter does to the element at p: a(i) for the last pair (i, p) of the map. *)
Definition scattered (gs : groups) (a : nat -> T) (p : nat) (old : T) : T :=
  fold_left (fun _ v => v) (map (fun q => a (fst q)) (filter (fun q => snd q =? p) (pairs gs))) old.
End Effect.

(** The array l holds the value f i at position i, for i < n = length. *)
Definition holds {T} (l : list T) (n : nat) (f : nat -> T) : Prop :=
  length l = n /\ forall i, i < n -> nth_error l i = Some (f i).

(** The array l holds n vectors of vn components: component k of vector i is f i k. *)
Definition holds_vec {T} (l : list T) (n vn : nat) (f : nat -> nat -> T) : Prop :=
  length l = n * vn /\ forall i k, i < n -> k < vn -> nth_error l (i * vn + k) = Some (f i k).

(** Several arrays: array k holds f i k at position i. *)
Definition holds_many {T} (ls : list (list T)) (n vn : nat) (f : nat -> nat -> T) : Prop :=
  length ls = vn /\ forall k, k < vn -> exists l, nth_error ls k = Some l /\ holds l n (fun i => f i k).
