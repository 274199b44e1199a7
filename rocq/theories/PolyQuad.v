(** Model of the quadrature weights of src/poly.c, in exact real arithmetic. *)
From Verif Require Import Base Poly PolyImpSyntax PolyImp PolyGll.
From Coq Require Import Reals.
Open Scope R_scope.

(** for(j=(n+1)/2,i=n/2-1; j<n; ++j,--i) w[j]=w[i]; w is m[w...]. *)
Definition mirror (m : arr) (w n : nat) : res arr :=
  '(m, _) <- foldM (fun '(m, i) j => v <- rd m (w + i) ;; m <- wr m (w + j) v ;; Ok (m, (i - 1)%nat))
               (seq ((n + 1) / 2) (n - (n + 1) / 2)) (m, (n / 2 - 1)%nat) ;;
  Ok m.
(** for(j=(n+1)/2,i=n/2-1; j<n; ++j,--i) z[j]=-z[i]; z is m[w...]. *)
Definition mirror_neg (m : arr) (w n : nat) : res arr :=
  '(m, _) <- foldM (fun '(m, i) j => v <- rd m (w + i) ;; m <- wr m (w + j) (- v) ;; Ok (m, (i - 1)%nat))
               (seq ((n + 1) / 2) (n - (n + 1) / 2)) (m, (n / 2 - 1)%nat) ;;
  Ok m.

Section Newton.
(** Newton's iteration, "do ox=x, x-=f(x)/f'(x); while(fabs(x-ox)>-x*EPS)" and a last step
    (poly.c:144-148, 160-164), for f, f' and the first value of x.  It is a parameter. *)
Variable newton : (R -> R) -> (R -> R) -> R -> res R.
(** gauss_nodes (poly.c:139-152). *)
Definition gauss_nodes (z : arr) (n : nat) : res arr :=
  z <- fill z 0 (n / 2) (fun _ i =>
    newton (legendre n) (legendre_d1 n) (cos (INR (2 * n - 2 * i - 1) * (PI / 2) / INR n))) ;;
  z <- (if Nat.odd n then wr z (n / 2) 0 else Ok z) ;;
  mirror_neg z 0 n.
(** lobatto_nodes_aux (poly.c:155-168); z is z[o...]. *)
Definition lobatto_nodes_aux (z : arr) (o n : nat) : res arr :=
  let np := (n + 1)%nat in
  z <- fill z o (n / 2) (fun _ i =>
    newton (legendre_d1 np) (legendre_d2 np) (cos (INR (n - i) * PI / INR np))) ;;
  z <- (if Nat.odd n then wr z (o + n / 2) 0 else Ok z) ;;
  mirror_neg z o n.
(** lobatto_nodes_n (poly.c:171-175); n >= 2. *)
Definition lobatto_nodes_n (z : arr) (n : nat) : res arr :=
  z <- wr z 0 (-1) ;;
  z <- wr z (n - 1) 1 ;;
  lobatto_nodes_aux z 1 (n - 2).
End Newton.

(** gauss_quad (poly.c:195-204); z and w are m[0...] and m[w...].  nodes is gauss_nodes.  n >= 1. *)
Definition gauss_quad (nodes : arr -> nat -> res arr) (m : arr) (w n : nat) : res arr :=
  m <- nodes m n ;;
  m <- fill m w ((n - 1) / 2 + 1) (fun m i =>
    zi <- rd m i ;;
    let d := INR (n + 1) * legendre (n + 1) zi in
    Ok (2 * (1 - zi * zi) / (d * d))) ;;
  mirror m w n.
(** lobatto_quad (poly.c:206-215).  n >= 1. *)
Definition lobatto_quad (nodes_n : arr -> nat -> res arr) (m : arr) (w n : nat) : res arr :=
  m <- lobatto_nodes nodes_n m n ;;
  m <- fill m w ((n - 1) / 2 + 1) (fun m i =>
    zi <- rd m i ;;
    let d := legendre (n - 1) zi in
    Ok (2 / (INR (n - 1) * INR n * d * d))) ;;
  mirror m w n.
