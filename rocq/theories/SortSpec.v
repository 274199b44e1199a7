(** Specification vocabulary for sorting: read with the theorems in Properties_Sort.v. *)
From Verif Require Import Base.

(** A strict weak order given as a boolean "less than". *)
Record strict_weak {D} (lt : D -> D -> bool) : Prop := {
  sw_irrefl : forall a, lt a a = false;
  sw_trans : forall a b c, lt a b = true -> lt b c = true -> lt a c = true;
  sw_weak : forall a b c, lt a c = true -> lt a b = true \/ lt b c = true }.

(** No later element is less than an earlier one. *)
Definition sorted_by {D} (lt : D -> D -> bool) (l : list D) : Prop :=
  forall i j x y, i < j -> nth_error l i = Some x -> nth_error l j = Some y ->
  lt y x = false.

(** Neither is less than the other. *)
Definition equivb {D} (lt : D -> D -> bool) (x y : D) : bool :=
  negb (lt x y) && negb (lt y x).

(** [out] is the stable sort of [inp]: a rearrangement, in order, in which elements of
    equal keys keep the order they had in [inp]. *)
Record stably_sorts {D} (lt : D -> D -> bool) (inp out : list D) : Prop := {
  ss_perm : Permutation inp out;
  ss_sorted : sorted_by lt out;
  ss_stable : forall k, In k inp -> filter (equivb lt k) out = filter (equivb lt k) inp }.

(** Comparison of array positions by the keys stored there. *)
Definition index_lt {T} (ltb : T -> T -> bool) (A : list T) (i j : nat) : bool :=
  match nth_error A i, nth_error A j with
  | Some x, Some y => ltb x y
  | _, _ => false
  end.

(** [p] is a permutation of 0..n-1. *)
Definition is_perm (n : nat) (p : list nat) : Prop := Permutation (seq 0 n) p.

(** Lexicographic order given by a list of comparisons, most significant first. *)
Fixpoint lexicographic {D} (lts : list (D -> D -> bool)) (x y : D) : bool :=
  match lts with
  | [] => false
  | lt :: lts' => lt x y || (equivb lt x y && lexicographic lts' x y)
  end.

(** [B] is [A] rearranged by [p] :  B[i] = A[p[i]]. *)
Definition rearranged {T} (A : list T) (p : list nat) (B : list T) : Prop :=
  length B = length p /\
  forall i j, nth_error p i = Some j -> nth_error B i = nth_error A j.
