(** Model of Newton's iteration in src/poly.c, in exact real arithmetic; an argument of gauss_nodes and
    lobatto_nodes_n of PolyQuad.v. *)
From Verif Require Import Base.
From Coq Require Import Reals.
Open Scope R_scope.

(** EPS (poly.c:74): 128*DBL_EPSILON. *)
Definition EPS : R := 128 * / 2 ^ 52.
(** The loops in gauss_nodes (poly.c:143-148) and lobatto_nodes_aux (poly.c:159-164), from the first value of x:
    do { ox = x; x -= f(x)/f'(x); } while(fabs(x-ox) > -x*EPS); and the step after it.  At most [fuel] rounds;
    UB stands for a loop that is not finished by then, and for a division by 0. *)
Fixpoint newton_poly (fuel : nat) (f f' : R -> R) (x : R) : res R :=
  match fuel with
  | O => UB
  | S fuel =>
      let ox := x in
      if Req_EM_T (f' x) 0 then UB else
      let x := x - f x / f' x in
      if Rlt_dec (- x * EPS) (Rabs (x - ox)) then newton_poly fuel f f' x
      else if Req_EM_T (f' x) 0 then UB else Ok (x - f x / f' x)
  end.
