(** The Lagrange routines of src/poly.c with arbitrary operations in place of the exact ones.
    With the exact operations these are the definitions of Poly.v (C64_exact). *)
From Verif Require Import Base Poly.
From Coq Require Import Reals.
Open Scope R_scope.

Section Fl.
Variables add sub mul div : R -> R -> R.

(** lagrange_eval (poly.c:25-48), as in Poly.v; constants are exact. *)
Definition lagrange_eval_fl (p data : arr) (n der : nat) (x : R) : res (arr * arr) :=
  if (n =? 0)%nat then UB else
  let z := 0%nat in let w := n in let d := (2 * n)%nat in
  let u0 := (3 * n)%nat in let v0 := (4 * n)%nat in
  let u1 := (5 * n)%nat in let v1 := (6 * n)%nat in let u2 := (7 * n)%nat in let v2 := (8 * n)%nat in
  data <- fill data d n (fun m i => zi <- rd m (z + i) ;; Ok (mul 2 (sub x zi))) ;;
  data <- sweep_up data u0 n 1 (fun m i => a <- rd m (u0 + i) ;; b <- rd m (d + i) ;; Ok (mul a b)) ;;
  data <- sweep_down data v0 n 1 (fun m i => a <- rd m (d + i) ;; b <- rd m (v0 + i) ;; Ok (mul a b)) ;;
  p <- fill p 0 n (fun _ i => wi <- rd data (w + i) ;; a <- rd data (u0 + i) ;; b <- rd data (v0 + i) ;; Ok (mul (mul wi a) b)) ;;
  if (der =? 0)%nat then Ok (p, data) else
  data <- sweep_up data u1 n 0 (fun m i =>
    a <- rd m (u1 + i) ;; b <- rd m (d + i) ;; c <- rd m (u0 + i) ;; Ok (add (mul a b) c)) ;;
  data <- sweep_down data v1 n 0 (fun m i =>
    a <- rd m (d + i) ;; b <- rd m (v1 + i) ;; c <- rd m (v0 + i) ;; Ok (add (mul a b) c)) ;;
  p <- fill p n n (fun _ i =>
    wi <- rd data (w + i) ;; a1 <- rd data (u1 + i) ;; b0 <- rd data (v0 + i) ;;
    a0 <- rd data (u0 + i) ;; b1 <- rd data (v1 + i) ;; Ok (mul (mul 2 wi) (add (mul a1 b0) (mul a0 b1)))) ;;
  if (der =? 1)%nat then Ok (p, data) else
  data <- sweep_up data u2 n 0 (fun m i =>
    a <- rd m (u2 + i) ;; b <- rd m (d + i) ;; c <- rd m (u1 + i) ;; Ok (add (mul a b) (mul 2 c))) ;;
  data <- sweep_down data v2 n 0 (fun m i =>
    a <- rd m (d + i) ;; b <- rd m (v2 + i) ;; c <- rd m (v1 + i) ;; Ok (add (mul a b) (mul 2 c))) ;;
  p <- fill p (2 * n) n (fun _ i =>
    wi <- rd data (w + i) ;; a2 <- rd data (u2 + i) ;; b0 <- rd data (v0 + i) ;;
    a1 <- rd data (u1 + i) ;; b1 <- rd data (v1 + i) ;; a0 <- rd data (u0 + i) ;; b2 <- rd data (v2 + i) ;;
    Ok (mul (mul 4 wi) (add (add (mul a2 b0) (mul (mul 2 a1) b1)) (mul a0 b2)))) ;;
  Ok (p, data).

(** lagrange_coef (poly.c:50-57), as in Poly.v. *)
Definition lagrange_coef_fl (lag_eval : lagrange_fun) (p data : arr) (woff : nat) (z : arr) (n : nat) : res arr :=
  data <- fill data woff n (fun _ _ => Ok 1) ;;
  '(_, data) <- foldM (fun '(p, data) i =>
      zi <- rd z i ;;
      '(p, data) <- lag_eval p data n 0%nat zi ;;
      pi <- rd p i ;;
      data <- wr data (woff + i) (div 1 pi) ;;
      Ok (p, data)) (seq 0 n) (p, data) ;;
  Ok data.
(** lagrange_setup (poly.c:64-72), as in Poly.v. *)
Definition lagrange_setup_fl (data z : arr) (n : nat) : res arr :=
  data <- copy data z n ;;
  lagrange_coef_fl lagrange_eval_fl (repeat 0 n) data n z n.
End Fl.
