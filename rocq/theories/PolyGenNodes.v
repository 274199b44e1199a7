(** Model of the nodes of src/gen_poly_imp.c, with exact reals for the multiple-precision numbers. *)
From Verif Require Import Base.
From Coq Require Import Reals.
Open Scope R_scope.

(** DECLARE_THREE_TERM (gen_poly_imp.c:40-55). *)
Definition three_term (i0 : nat) (P_im1 P_i : R) (a_ip1 a_i a_im1 : nat -> nat) (n : nat) (x : R) : R :=
  let '(P_im1, P_i) := fold_left (fun '(P_im1, P_i) i =>
      (P_i, (x * P_i * INR (a_i i) - P_im1 * INR (a_im1 i)) / INR (a_ip1 i))) (seq (i0 + 1) (n - (i0 + 1))) (P_im1, P_i) in
  if (i0 <? n)%nat then P_i else P_im1.
(** legendre (lines 57-58), legendre_d1 (lines 59-60), legendre_d2 (lines 61-62). *)
Definition gen_legendre (n : nat) (x : R) : R := three_term 0 1 x (fun i => i + 1)%nat (fun i => 2 * i + 1)%nat (fun i => i) n x.
Definition gen_legendre_d1 (n : nat) (x : R) : R := three_term 0 0 1 (fun i => i) (fun i => 2 * i + 1)%nat (fun i => i + 1)%nat n x.
Definition gen_legendre_d2 (n : nat) (x : R) : R := three_term 1 0 3 (fun i => i - 1)%nat (fun i => 2 * i + 1)%nat (fun i => i + 2)%nat n x.

(** newton (lines 64-74): do { x -= f / df } while !is_small, and once more.  is_small is an argument; the loop, which
    need not end, is a relation between the seed and the result; division by 0 aborts. *)
Section Newton.
Variable is_small : R -> R -> bool.
Variables f der : nat -> R -> R.
Variable n : nat.
Inductive newton_loop : R -> R -> Prop :=
| newton_stop : forall x, der n x <> 0 -> is_small (f n x / der n x) (x - f n x / der n x) = true -> newton_loop x (x - f n x / der n x)
| newton_more : forall x y, der n x <> 0 -> is_small (f n x / der n x) (x - f n x / der n x) = false -> newton_loop (x - f n x / der n x) y -> newton_loop x y.
Definition newton (seed z : R) : Prop := exists x, newton_loop seed x /\ der n x <> 0 /\ z = x - f n x / der n x.
End Newton.

(** gauss_node (lines 76-79), lobatto_node (lines 81-86). *)
Definition gauss_node (is_small : R -> R -> bool) (n i : nat) (z : R) : Prop :=
  if Nat.odd n && (i =? n / 2)%nat then z = 0
  else newton is_small gen_legendre gen_legendre_d1 n (cos ((2 * INR n - 2 * INR i - 1) * (PI / 2) / INR n)) z.
Definition lobatto_node (is_small : R -> R -> bool) (n i : nat) (z : R) : Prop :=
  if Nat.odd n && (i =? n / 2)%nat then z = 0
  else if (i =? 0)%nat then z = -1
  else if (i =? n - 1)%nat then z = 1
  else newton is_small gen_legendre_d1 gen_legendre_d2 (n - 1) (cos ((INR n - 1 - INR i) * PI / (INR n - 1))) z.
