(** The Gauss-Lobatto-Legendre part of src/poly.c and src/poly_imp.h with arbitrary operations in place of
    the exact ones, and arbitrary values lit of the decimal literals of the tables.
    With the exact operations and values these are the definitions of PolyImpSyntax.v and PolyGll.v (C65_exact). *)
From Verif Require Import Base Poly PolyRound PolyImpSyntax PolyImp PolyGll.
From Coq Require Import Reals.
Open Scope R_scope.

Section Fl.
Variables add sub mul div : R -> R -> R.
Variable lit : Z -> R.

(** The value of an expression of poly_imp.h, as PolyImpSyntax.eval; small integers are exact. *)
Fixpoint eval_fl (g w : list R) (x : R) (env : list (var * R)) (e : ex) : res R :=
  match e with
  | X => Ok x
  | K z => Ok (IZR z)
  | G k => rd g k
  | W i => rd w i
  | V v => lookup env v
  | Add a b => a <- eval_fl g w x env a ;; b <- eval_fl g w x env b ;; Ok (add a b)
  | Sub a b => a <- eval_fl g w x env a ;; b <- eval_fl g w x env b ;; Ok (sub a b)
  | Mul a b => a <- eval_fl g w x env a ;; b <- eval_fl g w x env b ;; Ok (mul a b)
  end.
(** The statements of poly_imp.h, as PolyImpSyntax.run. *)
Fixpoint run_fl (g w : list R) (x : R) (l : list stmt) (env : list (var * R)) (p : list R) : res (list (var * R) * list R) :=
  match l with
  | [] => Ok (env, p)
  | Let v e :: l => r <- eval_fl g w x env e ;; run_fl g w x l ((v, r) :: env) p
  | Out i e :: l => r <- eval_fl g w x env e ;; p <- wr p i r ;; run_fl g w x l env p
  end.
(** A call of a function of poly_imp.h (poly_imp.h:12-22 for n = 2), as PolyImpSyntax.call. *)
Definition call_fl (f : prog) (p w : list R) (der : nat) (xh : R) : res (list R) :=
  let g := map lit (nodes f) in
  let x := mul xh 2 in
  '(env, p) <- run_fl g w x (b0 f) [] p ;;
  if (der =? 0)%nat then Ok p else
  '(env, p) <- run_fl g w x (b1 f) env p ;;
  if (der =? 1)%nat then Ok p else
  '(_, p) <- run_fl g w x (b2 f) env p ;;
  Ok p.

(** lobatto_nodes_fix (poly.c:177-187), as in PolyGll.v; negation is exact. *)
Definition lobatto_nodes_fix_fl (z : arr) (n : nat) : res arr :=
  z <- wr z 0 (-1) ;;
  z <- wr z (n - 1) 1 ;;
  z <- (if Nat.odd n then wr z (n / 2) 0 else Ok z) ;;
  if (n <? 4)%nat then Ok z else
  match nth_error gllz_table (n - 4) with
  | None => UB
  | Some t =>
      let gllz := map lit t in
      z <- foldM (fun z i => g <- rd gllz (i - 1) ;; wr z i (- g)) (seq 1 (n / 2 - 1)) z ;;
      '(z, _) <- foldM (fun '(z, i) j => g <- rd gllz (i - 1) ;; z <- wr z j g ;; Ok (z, (i - 1)%nat))
                   (seq ((n + 1) / 2) (n - 1 - (n + 1) / 2)) (z, (n / 2 - 1)%nat) ;;
      Ok z
  end.
(** lobatto_nodes (poly.c:189-193), as in PolyGll.v; nodes_n is lobatto_nodes_n (poly.c:171-175). *)
Definition lobatto_nodes_fl (nodes_n : arr -> nat -> res arr) (z : arr) (n : nat) : res arr :=
  if (GLL_LAG_FIX_MAX <? n)%nat then nodes_n z n
  else if (2 <=? n)%nat then lobatto_nodes_fix_fl z n else Ok z.

(** A function of gll_lag_table: data is w. *)
Definition gll_lag_fl (f : prog) : lagrange_fun :=
  fun p data n der x => p <- call_fl f p data der x ;; Ok (p, data).
(** gll_lag_setup (poly.c:222-236), as in PolyGll.v. *)
Definition gll_lag_setup_fl (nodes_n : arr -> nat -> res arr) (data : arr) (n : nat) : res (option lagrange_fun * arr) :=
  if (n <? 2)%nat then Ok (None, data) else
  if (n <=? GLL_LAG_FIX_MAX)%nat then
    match nth_error gll_lag_table (n - 2) with
    | None => UB
    | Some f =>
        z <- lobatto_nodes_fl nodes_n (repeat 0 n) n ;;
        data <- lagrange_coef_fl div (gll_lag_fl f) (repeat 0 n) data 0 z n ;;
        Ok (Some (gll_lag_fl f), data)
    end
  else
    data <- lobatto_nodes_fl nodes_n data n ;;
    data <- lagrange_coef_fl div (lagrange_eval_fl add sub mul) (repeat 0 n) data n data n ;;
    Ok (Some (lagrange_eval_fl add sub mul), data).
End Fl.
