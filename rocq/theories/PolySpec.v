(** Lagrange and Legendre polynomials. *)
From Verif Require Import Base Poly.
From Coq Require Import Reals.
Open Scope R_scope.

(** a[i]. *)
Definition get (a : arr) (i : nat) : R := nth i a 0.
(** f 0 + ... + f (n-1), f 0 * ... * f (n-1). *)
Fixpoint rsum (n : nat) (f : nat -> R) : R := match n with O => 0 | S m => rsum m f + f m end.
Fixpoint rprod (n : nat) (f : nat -> R) : R := match n with O => 1 | S m => rprod m f * f m end.

(** The i-th Lagrange basis polynomial for the nodes z[0], ..., z[n-1]. *)
Definition basis (z : arr) (n i : nat) (x : R) : R :=
  rprod n (fun j => if (j =? i)%nat then 1 else (x - get z j) / (get z i - get z j)).

Definition distinct (z : arr) (n : nat) : Prop := forall i j, (i < n)%nat -> (j < n)%nat -> get z i = get z j -> i = j.

(** c0 + c1 x + c2 x^2 + ... *)
Fixpoint peval (c : list R) (x : R) : R := match c with [] => 0 | a :: c' => a + x * peval c' x end.

(** f has at x the second derivative v. *)
Definition derivative2 (f : R -> R) (x v : R) : Prop :=
  exists g, (forall y, derivable_pt_lim f y (g y)) /\ derivable_pt_lim g x v.

(** p after a call lagrange_eval(p,data,n,der,x) that was p0 before: the values of the basis at x,
    with the first derivatives after them if der > 0, the second ones after those if der > 1;
    the rest is unchanged. *)
Definition evaluates (z : arr) (n der : nat) (x : R) (p0 p : arr) : Prop :=
  length p = length p0 /\ (forall k, (n * (der + 1) <= k)%nat -> get p k = get p0 k) /\
  forall i, (i < n)%nat ->
    get p i = basis z n i x /\
    ((1 <= der)%nat -> derivable_pt_lim (basis z n i) x (get p (n + i))) /\
    ((2 <= der)%nat -> derivative2 (basis z n i) x (get p (2 * n + i))).
(** A sequence of evaluations (p, der, x) with the function f and the same data. *)
Fixpoint evals (f : lagrange_fun) (data : arr) (n : nat) (calls : list (arr * nat * R)) : res (list arr) :=
  match calls with
  | [] => Ok []
  | (p, der, x) :: calls =>
      '(p, data) <- f p data n der x ;;
      outs <- evals f data n calls ;; Ok (p :: outs)
  end.
Definition valid_call (n : nat) (c : arr * nat * R) : Prop :=
  let '(p, der, x) := c in (der <= 2)%nat /\ (n * (der + 1) <= length p)%nat.

(** The Legendre polynomials, by Bonnet's recursion: P_n and P_(n+1). *)
Fixpoint PP (n : nat) (x : R) : R * R :=
  match n with
  | O => (1, x)
  | S m => let '(a, b) := PP m x in (b, ((2 * INR m + 3) * x * b - (INR m + 1) * a) / (INR m + 2))
  end.
Definition P (n : nat) (x : R) : R := fst (PP n x).
