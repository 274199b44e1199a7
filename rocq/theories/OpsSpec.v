(** Specification vocabulary for the gs operations. *)
From Verif Require Import Base.
Local Open Scope Z_scope.

(** Values of a w-bit signed integer type. *)
Definition in_range (w z : Z) : Prop := - 2 ^ (w - 1) <= z < 2 ^ (w - 1).

(** A (partial) binary operation is total on D and makes it a commutative monoid. *)
Record comm_monoid (D : Z -> Prop) (f : Z -> Z -> option Z) (e : Z) : Prop := {
  cm_e : D e;
  cm_closed : forall a b, D a -> D b -> exists c, f a b = Some c /\ D c;
  cm_comm : forall a b, D a -> D b -> f a b = f b a;
  cm_assoc : forall a b c ab bc, D a -> D b -> D c -> f a b = Some ab -> f b c = Some bc ->
    f ab c = f a bc;
  cm_id_l : forall a, D a -> f e a = Some a;
  cm_id_r : forall a, D a -> f a e = Some a }.

(** The binary digits of p are an initial part of the binary digits of x
    (most significant first). *)
Definition bin_prefix (p x : N) : Prop := exists k, N.shiftr x k = p.

(** p is the longest common binary prefix of x and y. *)
Definition longest_common_prefix (p x y : N) : Prop :=
  bin_prefix p x /\ bin_prefix p y /\
  forall q, bin_prefix q x -> bin_prefix q y -> bin_prefix q p.

(** Total version: op makes T a commutative monoid with neutral element e. *)
Record cmonoid {T : Type} (op : T -> T -> T) (e : T) : Prop := {
  cmon_comm : forall a b, op a b = op b a;
  cmon_assoc : forall a b c, op (op a b) c = op a (op b c);
  cmon_id : forall a, op e a = a }.

(** The values of a w-bit signed integer type, as a type. *)
Definition in_rangeb (w z : Z) : bool := (- 2 ^ (w - 1) <=? z) && (z <? 2 ^ (w - 1)).
Definition int_w (w : Z) : Type := { z : Z | in_rangeb w z = true }.
