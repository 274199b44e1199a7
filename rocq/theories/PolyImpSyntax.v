(** The language of the straight-line programs in src/poly_imp.h, and its meaning. *)
From Verif Require Import Base.
From Coq Require Import Reals.

(** Local variables d00, u0_00, ... *)
Inductive var := d (i : nat) | u0 (i : nat) | v0 (i : nat) | u1 (i : nat) | v1 (i : nat) | u2 (i : nat) | v2 (i : nat).
(** Expressions: x, literals, gllz_nn[k], w[i], local variables. *)
Inductive ex := X | K (z : Z) | G (k : nat) | W (i : nat) | V (v : var) | Add (a b : ex) | Sub (a b : ex) | Mul (a b : ex).
(** const double v = e; and p[i] = e; *)
Inductive stmt := Let (v : var) (e : ex) | Out (i : nat) (e : ex).
(** The table used, the statements before if(d>0), those between it and if(d>1), the rest. *)
Record prog := { nodes : list Z; b0 : list stmt; b1 : list stmt; b2 : list stmt }.

Declare Scope ex_scope.
Delimit Scope ex_scope with ex.
Bind Scope ex_scope with ex.
Coercion V : var >-> ex.
Notation "a + b" := (Add a b) : ex_scope.
Notation "a - b" := (Sub a b) : ex_scope.
Notation "a * b" := (Mul a b) : ex_scope.
Notation "0" := (K 0) : ex_scope.
Notation "1" := (K 1) : ex_scope.
Notation "2" := (K 2) : ex_scope.
Notation "4" := (K 4) : ex_scope.
Arguments d i%nat.
Arguments u0 i%nat.
Arguments v0 i%nat.
Arguments u1 i%nat.
Arguments v1 i%nat.
Arguments u2 i%nat.
Arguments v2 i%nat.
Arguments W i%nat.
Arguments G k%nat.
Arguments Out i%nat e%ex.
Arguments Let v e%ex.

(** The value of an entry of the tables. *)
Definition entry (z : Z) : R := (IZR z / 10 ^ 52)%R.

Definition var_eqb (a b : var) : bool :=
  match a, b with
  | d i, d j | u0 i, u0 j | v0 i, v0 j | u1 i, u1 j | v1 i, v1 j | u2 i, u2 j | v2 i, v2 j => Nat.eqb i j
  | _, _ => false
  end.
Fixpoint lookup (env : list (var * R)) (v : var) : res R :=
  match env with
  | [] => UB
  | (v', r) :: env => if var_eqb v v' then Ok r else lookup env v
  end.
(** The value of an expression; g and w are the table and the array w. *)
Fixpoint eval (g w : list R) (x : R) (env : list (var * R)) (e : ex) : res R :=
  match e with
  | X => Ok x
  | K z => Ok (IZR z)
  | G k => rd g k
  | W i => rd w i
  | V v => lookup env v
  | Add a b => a <- eval g w x env a ;; b <- eval g w x env b ;; Ok (a + b)%R
  | Sub a b => a <- eval g w x env a ;; b <- eval g w x env b ;; Ok (a - b)%R
  | Mul a b => a <- eval g w x env a ;; b <- eval g w x env b ;; Ok (a * b)%R
  end.
Fixpoint run (g w : list R) (x : R) (l : list stmt) (env : list (var * R)) (p : list R) : res (list (var * R) * list R) :=
  match l with
  | [] => Ok (env, p)
  | Let v e :: l => r <- eval g w x env e ;; run g w x l ((v, r) :: env) p
  | Out i e :: l => r <- eval g w x env e ;; p <- wr p i r ;; run g w x l env p
  end.
(** A call f(p,w,n,der,xh) of such a function. *)
Definition call (f : prog) (p w : list R) (der : nat) (xh : R) : res (list R) :=
  let g := map entry (nodes f) in
  let x := (xh * 2)%R in
  '(env, p) <- run g w x (b0 f) [] p ;;
  if (der =? 0)%nat then Ok p else
  '(env, p) <- run g w x (b1 f) env p ;;
  if (der =? 1)%nat then Ok p else
  '(_, p) <- run g w x (b2 f) env p ;;
  Ok p.
