(** Specification vocabulary for struct sorts: read with Properties_Sort.v. *)
From Verif Require Import Base Sort SortSpec Sarray.

(** Orders on structs given by a key. *)
Definition key_lt {T} (f : field T) : T -> T -> bool :=
  match f with
  | FInt D key _ _ _ => fun x y => (key x <? key y)%N
  | FReal R ltb key _ _ => fun x y => ltb (key x) (key y)
  end.

(** What the caller of a struct sort must supply: key values that fit the key type (for
    integers), an order without incomparable cycles (for reals), and scratch areas of
    the right size. *)
Definition field_ok {T} (A : list T) (f : field T) : Prop :=
  match f with
  | FInt D key wlo whi w =>
      (forall x, In x A -> (key x < 2 ^ (8 * N.of_nat D))%N) /\
      length wlo = length A /\ length whi = length A /\ length w = length A
  | FReal R ltb key wlo whi =>
      strict_weak ltb /\ length wlo = length A /\ length whi = length A
  end.

(** Key k (1-based) of a tuple, Fortran convention: k <= mi selects row k of vi,
    otherwise row k-mi of vl.  A tuple is (column of vi, column of vl). *)
Definition tuple_key (mi : nat) (k : Z) (t : list N * list N) : N :=
  if (k <=? Z.of_nat mi)%Z then nth (Z.to_nat k - 1) (fst t) 0%N
  else nth (Z.to_nat k - mi - 1) (snd t) 0%N.

Definition tuple_lts (mi : nat) (keys : list Z) : list (list N * list N -> list N * list N -> bool) :=
  map (fun k => fun x y => (tuple_key mi k x <? tuple_key mi k y)%N) keys.

Definition keys_ok (mi ml : nat) (keys : list Z) : Prop :=
  forall k, In k keys -> (1 <= k <= Z.of_nat (mi + ml))%Z.
