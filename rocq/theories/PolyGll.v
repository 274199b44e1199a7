(** Model of the Gauss-Lobatto-Legendre part of src/poly.c, in exact real arithmetic. *)
From Verif Require Import Base Poly PolyImpSyntax PolyImp.
From Coq Require Import Reals.
Open Scope R_scope.

(** lobatto_nodes_fix (poly.c:177-187), for n >= 2. *)
Definition lobatto_nodes_fix (z : arr) (n : nat) : res arr :=
  z <- wr z 0 (-1) ;;
  z <- wr z (n - 1) 1 ;;
  z <- (if Nat.odd n then wr z (n / 2) 0 else Ok z) ;;
  if (n <? 4)%nat then Ok z else
  match nth_error gllz_table (n - 4) with
  | None => UB
  | Some t =>
      let gllz := map entry t in
      z <- foldM (fun z i => g <- rd gllz (i - 1) ;; wr z i (- g)) (seq 1 (n / 2 - 1)) z ;;
      (* for(j=(n+1)/2,i=n/2-1; j<n-1; ++j,--i) *)
      '(z, _) <- foldM (fun '(z, i) j => g <- rd gllz (i - 1) ;; z <- wr z j g ;; Ok (z, (i - 1)%nat))
                   (seq ((n + 1) / 2) (n - 1 - (n + 1) / 2)) (z, (n / 2 - 1)%nat) ;;
      Ok z
  end.
(** lobatto_nodes (poly.c:189-193).  nodes_n is lobatto_nodes_n (poly.c:171-175; PolyQuad.v), which finds the
    nodes by Newton's method; it is a parameter. *)
Definition lobatto_nodes (nodes_n : arr -> nat -> res arr) (z : arr) (n : nat) : res arr :=
  if (GLL_LAG_FIX_MAX <? n)%nat then nodes_n z n
  else if (2 <=? n)%nat then lobatto_nodes_fix z n else Ok z.

(** gll_lag_size (poly.c:217-220). *)
Definition gll_lag_size (n : nat) : nat := ((if (n <=? GLL_LAG_FIX_MAX)%nat then 1 else 9) * n)%nat.

(** A function of gll_lag_table: data is w. *)
Definition gll_lag (f : prog) : lagrange_fun :=
  fun p data n der x => p <- call f p data der x ;; Ok (p, data).
(** gll_lag_setup (poly.c:222-236); None for the null pointer.  The two halves of p are separate
    arrays; malloc'ed memory is initially 0 (no result depends on it).  For n > 24 z is the first
    part of data. *)
Definition gll_lag_setup (nodes_n : arr -> nat -> res arr) (data : arr) (n : nat) : res (option lagrange_fun * arr) :=
  if (n <? 2)%nat then Ok (None, data) else
  if (n <=? GLL_LAG_FIX_MAX)%nat then
    match nth_error gll_lag_table (n - 2) with
    | None => UB
    | Some f =>
        z <- lobatto_nodes nodes_n (repeat 0 n) n ;;
        data <- lagrange_coef (gll_lag f) (repeat 0 n) data 0 z n ;;
        Ok (Some (gll_lag f), data)
    end
  else
    data <- lobatto_nodes nodes_n data n ;;
    data <- lagrange_coef lagrange_eval (repeat 0 n) data n data n ;;
    Ok (Some lagrange_eval, data).
