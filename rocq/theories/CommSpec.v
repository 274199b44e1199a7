(** Specification vocabulary for the collective operations. *)
From Verif Require Import Base.

(** x_a op x_{a+1} op ... op x_{a+n-1}  (e when n = 0). *)
Definition reduction {T} (op : T -> T -> T) (e : T) (x : nat -> T) (a n : nat) : T :=
  fold_left op (map x (seq a n)) e.

(** The vector whose i-th component is g i. *)
Definition vec {T} (vn : nat) (g : nat -> T) : list T := map g (seq 0 vn).
