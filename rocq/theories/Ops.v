(** Model of the operations of src/gs_defs.h on the integer domains.
    An integer of type T has [w] bits (two's complement); uint has [lw] bits.
    Simplification: signed overflow of + and * is undefined in C; the model wraps. *)
From Verif Require Import Base.
Local Open Scope Z_scope.

(** Conversion to an unsigned / signed type of n bits. *)
Definition uwrap (n z : Z) : Z := z mod 2 ^ n.
Definition swrap (n z : Z) : Z := (z + 2 ^ (n - 1)) mod 2 ^ n - 2 ^ (n - 1).

Inductive gs_op := gs_add | gs_mul | gs_min | gs_max | gs_bpr.   (** gs_defs.h:26-31, 75-77 *)

(** for(;;) { if(a_<b_) b_>>=1; else if(b_<a_) a_>>=1; else break; }  (gs_defs.h:40) *)
Fixpoint bpr_loop (fuel : nat) (a b : N) : option N :=
  match fuel with
  | O => None
  | S f => if (a <? b)%N then bpr_loop f a (N.shiftr b 1)
           else if (b <? a)%N then bpr_loop f (N.shiftr a 1) b
           else Some a
  end.

(** GS_DO_bpr (gs_defs.h:37-42). *)
Definition do_bpr (w lw : Z) (a b : Z) : option Z :=
  if b =? 0 then Some a
  else
    let a_ := Z.to_N (uwrap lw a) in
    let b_ := Z.to_N (uwrap lw b) in
    if (a_ =? 0)%N then Some (swrap w (Z.of_N b_))
    else match bpr_loop (S (N.size_nat a_ + N.size_nat b_)) a_ b_ with
         | Some r => Some (swrap w (Z.of_N r))
         | None => None
         end.

(** GS_DO_add, mul, min, max, bpr (gs_defs.h:33-42): the new value of a.
    [None] would mean that the loop of bpr does not terminate. *)
Definition do_op (w lw : Z) (op : gs_op) (a b : Z) : option Z :=
  match op with
  | gs_add => Some (swrap w (a + b))
  | gs_mul => Some (swrap w (a * b))
  | gs_min => Some (if b <? a then b else a)
  | gs_max => Some (if a <? b then b else a)
  | gs_bpr => do_bpr w lw a b
  end.

(** gs_identity_T (gs_defs.h:45-52). *)
Definition identity (w : Z) (op : gs_op) : Z :=
  match op with
  | gs_add => 0
  | gs_mul => 1
  | gs_min => 2 ^ (w - 1) - 1
  | gs_max => - 2 ^ (w - 1)
  | gs_bpr => 0
  end.
