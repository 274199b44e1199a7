(** Model of src/poly.c in exact real arithmetic.
    Simplification: doubles are real numbers, without rounding, infinities and NaNs (division by
    0 has an unspecified value). *)
From Verif Require Import Base.
From Coq Require Import Reals.
Open Scope R_scope.

Notation arr := (list R).

(** for(i=0;i<n;++i) a[off+i]=f(i). *)
Definition fill (a : arr) (off n : nat) (f : arr -> nat -> res R) : res arr :=
  foldM (fun a i => v <- f a i ;; wr a (off + i) v) (seq 0 n) a.
(** a[off]=init; for(i=0;i<n-1;++i) a[off+i+1]=f(i). *)
Definition sweep_up (a : arr) (off n : nat) (init : R) (f : arr -> nat -> res R) : res arr :=
  a <- wr a off init ;;
  foldM (fun a i => v <- f a i ;; wr a (off + i + 1) v) (seq 0 (n - 1)) a.
(** a[off+n-1]=init; for(i=n-1;i;--i) a[off+i-1]=f(i). *)
Definition sweep_down (a : arr) (off n : nat) (init : R) (f : arr -> nat -> res R) : res arr :=
  a <- wr a (off + n - 1) init ;;
  foldM (fun a i => v <- f a i ;; wr a (off + i - 1) v) (rev (seq 1 (n - 1))) a.

(** lagrange_eval (poly.c:25-48).  z, w, d, u0, v0, u1, v1, u2, v2 are parts of data; p, p1, p2
    parts of p.  n = 0 makes n-1 wrap around. *)
Definition lagrange_eval (p data : arr) (n der : nat) (x : R) : res (arr * arr) :=
  if (n =? 0)%nat then UB else
  let z := 0%nat in let w := n in let d := (2 * n)%nat in
  let u0 := (3 * n)%nat in let v0 := (4 * n)%nat in
  let u1 := (5 * n)%nat in let v1 := (6 * n)%nat in let u2 := (7 * n)%nat in let v2 := (8 * n)%nat in
  data <- fill data d n (fun m i => zi <- rd m (z + i) ;; Ok (2 * (x - zi))) ;;
  data <- sweep_up data u0 n 1 (fun m i => a <- rd m (u0 + i) ;; b <- rd m (d + i) ;; Ok (a * b)) ;;
  data <- sweep_down data v0 n 1 (fun m i => a <- rd m (d + i) ;; b <- rd m (v0 + i) ;; Ok (a * b)) ;;
  p <- fill p 0 n (fun _ i => wi <- rd data (w + i) ;; a <- rd data (u0 + i) ;; b <- rd data (v0 + i) ;; Ok (wi * a * b)) ;;
  if (der =? 0)%nat then Ok (p, data) else
  data <- sweep_up data u1 n 0 (fun m i =>
    a <- rd m (u1 + i) ;; b <- rd m (d + i) ;; c <- rd m (u0 + i) ;; Ok (a * b + c)) ;;
  data <- sweep_down data v1 n 0 (fun m i =>
    a <- rd m (d + i) ;; b <- rd m (v1 + i) ;; c <- rd m (v0 + i) ;; Ok (a * b + c)) ;;
  p <- fill p n n (fun _ i =>
    wi <- rd data (w + i) ;; a1 <- rd data (u1 + i) ;; b0 <- rd data (v0 + i) ;;
    a0 <- rd data (u0 + i) ;; b1 <- rd data (v1 + i) ;; Ok (2 * wi * (a1 * b0 + a0 * b1))) ;;
  if (der =? 1)%nat then Ok (p, data) else
  data <- sweep_up data u2 n 0 (fun m i =>
    a <- rd m (u2 + i) ;; b <- rd m (d + i) ;; c <- rd m (u1 + i) ;; Ok (a * b + 2 * c)) ;;
  data <- sweep_down data v2 n 0 (fun m i =>
    a <- rd m (d + i) ;; b <- rd m (v2 + i) ;; c <- rd m (v1 + i) ;; Ok (a * b + 2 * c)) ;;
  p <- fill p (2 * n) n (fun _ i =>
    wi <- rd data (w + i) ;; a2 <- rd data (u2 + i) ;; b0 <- rd data (v0 + i) ;;
    a1 <- rd data (u1 + i) ;; b1 <- rd data (v1 + i) ;; a0 <- rd data (u0 + i) ;; b2 <- rd data (v2 + i) ;;
    Ok (4 * wi * (a2 * b0 + 2 * a1 * b1 + a0 * b2))) ;;
  Ok (p, data).

(** lagrange_fun (poly.c:20-21): p, data, n, d, x; returns p and data. *)
Definition lagrange_fun := arr -> arr -> nat -> nat -> R -> res (arr * arr).

(** lagrange_coef (poly.c:50-57); w is data[woff...].  z may be a part of data that the
    evaluation does not change: it is passed by value. *)
Definition lagrange_coef (lag_eval : lagrange_fun) (p data : arr) (woff : nat) (z : arr) (n : nat) : res arr :=
  data <- fill data woff n (fun _ _ => Ok 1) ;;
  '(_, data) <- foldM (fun '(p, data) i =>
      zi <- rd z i ;;
      '(p, data) <- lag_eval p data n 0%nat zi ;;
      pi <- rd p i ;;
      data <- wr data (woff + i) (1 / pi) ;;
      Ok (p, data)) (seq 0 n) (p, data) ;;
  Ok data.

(** lagrange_size (poly.c:59-62). *)
Definition lagrange_size (n : nat) : nat := (9 * n)%nat.
(** memcpy(data,z,n*sizeof(double)). *)
Definition copy (data z : arr) (n : nat) : res arr := fill data 0 n (fun _ i => rd z i).
(** lagrange_setup (poly.c:64-72). *)
Definition lagrange_setup (data z : arr) (n : nat) : res arr :=
  data <- copy data z n ;;
  lagrange_coef lagrange_eval (repeat 0 n) data n z n.

(** legendre (poly.c:94-104).  The counter i is a double with integral values; i < n-0.5 is
    i < n.  The loop runs at most n times. *)
Fixpoint legendre_loop (fuel i n : nat) (x p0 p1 : R) : R * R :=
  match fuel with
  | O => (p0, p1)
  | S f =>
      if (i <? n)%nat then
        let p0 := ((2 * INR i + 1) * x * p1 - INR i * p0) / (INR i + 1) in
        let p1 := ((2 * INR i + 3) * x * p0 - (INR i + 1) * p1) / (INR i + 2) in
        legendre_loop f (i + 2) n x p0 p1
      else (p0, p1)
  end.
Definition pick (n : nat) (p : R * R) : R := if Nat.odd n then snd p else fst p.   (* p[n&1] *)
Definition legendre (n : nat) (x : R) : R := pick n (legendre_loop n 1 n x 1 x).
(** legendre_d1 (poly.c:107-117). *)
Fixpoint legendre_d1_loop (fuel i n : nat) (x p0 p1 : R) : R * R :=
  match fuel with
  | O => (p0, p1)
  | S f =>
      if (i <? n)%nat then
        let p1 := ((2 * INR i + 1) * x * p0 - (INR i + 1) * p1) / INR i in
        let p0 := ((2 * INR i + 3) * x * p1 - (INR i + 2) * p0) / (INR i + 1) in
        legendre_d1_loop f (i + 2) n x p0 p1
      else (p0, p1)
  end.
Definition legendre_d1 (n : nat) (x : R) : R := pick n (legendre_d1_loop n 2 n x (3 * x) 1).
(** legendre_d2 (poly.c:120-130). *)
Fixpoint legendre_d2_loop (fuel i n : nat) (x p0 p1 : R) : R * R :=
  match fuel with
  | O => (p0, p1)
  | S f =>
      if (i <? n)%nat then
        let p0 := ((2 * INR i + 1) * x * p1 - (INR i + 2) * p0) / (INR i - 1) in
        let p1 := ((2 * INR i + 3) * x * p0 - (INR i + 3) * p1) / INR i in
        legendre_d2_loop f (i + 2) n x p0 p1
      else (p0, p1)
  end.
Definition legendre_d2 (n : nat) (x : R) : R := pick n (legendre_d2_loop n 3 n x 3 (15 * x)).
