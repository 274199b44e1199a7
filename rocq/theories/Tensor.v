(** Model of src/tensor.c and src/tensor.h over any type of numbers with 0, + and *.
    A pointer to doubles is the list of the doubles from there to the end of the array;
    reading or writing behind the end is [UB].  Functions that write return the new contents.
    Matrices are column-major.  Not modelled: the CBLAS variants (GSLIB_USE_CBLAS). *)
From Verif Require Import Base.

Section Tensor.
Variable A : Type.
Variable zero : A.
Variable add mul : A -> A -> A.
Notation arr := (list A).

(** tensor_dot (tensor.c:12-17). *)
Fixpoint dot_loop (n : nat) (a b : arr) (sum : A) : res A :=
  match n with
  | O => Ok sum
  | S n' =>
      match a, b with
      | x :: a', y :: b' => dot_loop n' a' b' (add sum (mul x y))
      | _, _ => UB
      end
  end.
Definition tensor_dot (a b : arr) (n : nat) : res A := dot_loop n a b zero.

(** for(i=0;i<n;++i) y[i]=0 (tensor.c:30, 57). *)
Fixpoint clear (n : nat) (y : arr) : res arr :=
  match n with
  | O => Ok y
  | S n' => match y with [] => UB | _ :: y' => y1 <- clear n' y' ;; Ok (zero :: y1) end
  end.
(** for(i=0;i<n;++i) y[i] += ( *M++ )*x (tensor.c:33, 62); also the new value of the pointer M. *)
Fixpoint axpy (n : nat) (y M : arr) (x : A) : res (arr * arr) :=
  match n with
  | O => Ok (y, M)
  | S n' =>
      match y, M with
      | y0 :: y', a :: M' => '(y1, M1) <- axpy n' y' M' x ;; Ok (add y0 (mul a x) :: y1, M1)
      | _, _ => UB
      end
  end.
(** for(k=0;k<nk;++k) { x = *X++; y[i] += ( *M++ )*x } (tensor.c:31-34, 60-63); also X. *)
Fixpoint axpys (nk n : nat) (y M X : arr) : res (arr * arr) :=
  match nk with
  | O => Ok (y, X)
  | S k' =>
      match X with
      | [] => UB
      | x :: X' => '(y1, M1) <- axpy n y M x ;; axpys k' n y1 M1 X'
      end
  end.

(** tensor_mxv, y = M x (tensor.c:25-35, GSLIB_USE_NAIVE_BLAS). *)
Definition naive_mxv (y : arr) (ny : nat) (M x : arr) (nx : nat) : res arr :=
  y <- clear ny y ;;
  '(y, _) <- axpys nx ny y M x ;;
  Ok y.

(** tensor_mtxv, y = M^T x (tensor.c:38-49).  For nx = 0 the loop counter wraps around. *)
Fixpoint naive_mtxv (y : arr) (ny : nat) (M x : arr) (nx : nat) {struct ny} : res arr :=
  match ny with
  | O => Ok y
  | S ny' =>
      match nx, M, x, y with
      | S n, a :: M', x0 :: x', _ :: y' =>
          sum <- dot_loop n M' x' (mul a x0) ;;
          y1 <- naive_mtxv y' ny' (skipn n M') x nx ;;
          Ok (sum :: y1)
      | _, _, _, _ => UB
      end
  end.

(** tensor_mxm, C = M B (tensor.c:52-65). *)
Fixpoint mxm_cols (nb nc na : nat) (C M B : arr) : res arr :=
  match nb with
  | O => Ok C
  | S nb' =>
      '(C1, B1) <- axpys na nc C M B ;;
      C2 <- mxm_cols nb' nc na (skipn nc C1) M B1 ;;
      Ok (firstn nc C1 ++ C2)
  end.
Definition naive_mxm (C : arr) (nc : nat) (M : arr) (na : nat) (B : arr) (nb : nat) : res arr :=
  C <- clear (nc * nb) C ;; mxm_cols nb nc na C M B.

(** tensor_mtxm, C = M^T B (tensor.c:70-79). *)
Fixpoint mtxm_rows (nc na : nat) (M B : arr) : res arr :=   (* one column of C *)
  match nc with
  | O => Ok []
  | S nc' =>
      c <- tensor_dot M B na ;;
      l <- mtxm_rows nc' na (skipn na M) B ;;
      Ok (c :: l)
  end.
Fixpoint mtxm_cols (nb nc na : nat) (M B : arr) : res arr :=
  match nb with
  | O => Ok []
  | S nb' =>
      l <- mtxm_rows nc na M B ;;
      r <- mtxm_cols nb' nc na M (skipn na B) ;;
      Ok (l ++ r)
  end.
(** Simplification: the values are computed first and written to C then (C is restrict). *)
Definition tensor_mtxm (C : arr) (nc : nat) (M : arr) (na : nat) (B : arr) (nb : nat) : res arr :=
  l <- mtxm_cols nb nc na M B ;;
  if length l <=? length C then Ok (l ++ skipn (length l) C) else UB.

(** The products used by the rest: either the functions above or those of tensor.h:57-69, which
    call a routine mxm of the user: C (na x nc) = M (na x nb) * B (nb x nc). *)
Record products := Products {
  mxv : arr -> nat -> arr -> arr -> nat -> res arr;
  mtxv : arr -> nat -> arr -> arr -> nat -> res arr;
  mxm : arr -> nat -> arr -> nat -> arr -> nat -> res arr }.
Definition naive : products := Products naive_mxv naive_mtxv naive_mxm.
Definition with_mxm (f : arr -> nat -> arr -> nat -> arr -> nat -> res arr) : products :=
  (* f M na B nb C nc *)
  Products (fun y ny M x nx => f M ny x nx y 1)
           (fun y ny M x nx => f x 1 M nx y ny)
           (fun C nc M na B nb => f M nc B na C nb).

Section With.
Variable P : products.

(** tensor_i1 (tensor.h:85-88). *)
Definition tensor_i1 (Jr : arr) (nr : nat) (u : arr) : res A := tensor_dot Jr u nr.
(** tensor_i2 (tensor.h:91-97). *)
Definition tensor_i2 (Jr : arr) (nr : nat) (Js : arr) (ns : nat) (u work : arr) : res A :=
  work <- mtxv P work ns u Jr nr ;;
  tensor_dot Js work ns.
(** tensor_i3 (tensor.h:100-109). *)
Definition tensor_i3 (Jr : arr) (nr : nat) (Js : arr) (ns : nat) (Jt : arr) (nt : nat) (u work : arr) : res A :=
  work2 <- mtxv P (skipn nt work) (ns * nt) u Jr nr ;;
  work <- mtxv P (firstn nt work) nt work2 Js ns ;;
  tensor_dot Jt work nt.

(** tensor_ig1 (tensor.h:128-134): the value and g. *)
Definition tensor_ig1 (wtr : arr) (nr : nat) (u : arr) : res (A * list A) :=
  g0 <- tensor_dot (skipn nr wtr) u nr ;;
  v <- tensor_dot wtr u nr ;;
  Ok (v, [g0]).
(** tensor_ig2 (tensor.h:137-146). *)
Definition tensor_ig2 (wtr : arr) (nr : nat) (wts : arr) (ns : nat) (u work : arr) : res (A * list A) :=
  work <- mxm P work nr u ns wts 2 ;;
  g0 <- tensor_dot (skipn nr wtr) work nr ;;
  g1 <- tensor_dot wtr (skipn nr work) nr ;;
  v <- tensor_dot wtr work nr ;;
  Ok (v, [g0; g1]).
(** tensor_ig3 (tensor.h:149-164); the three areas a, b, c of work. *)
Definition tensor_ig3 (wtr : arr) (nr : nat) (wts : arr) (ns : nat) (wtt : arr) (nt : nat) (u work : arr)
    : res (A * list A) :=
  let nrs := nr * ns in
  a <- mxm P (firstn (2 * nrs) work) nrs u nt wtt 2 ;;
  b <- mxm P (firstn (2 * nr) (skipn (2 * nrs) work)) nr a ns wts 2 ;;
  c <- mxv P (skipn (2 * nr) (skipn (2 * nrs) work)) nr (skipn nrs a) wts ns ;;
  g0 <- tensor_dot b (skipn nr wtr) nr ;;
  g1 <- tensor_dot (skipn nr b) wtr nr ;;
  g2 <- tensor_dot c wtr nr ;;
  v <- tensor_dot b wtr nr ;;
  Ok (v, [g0; g1; g2]).

(** tensor_2t (tensor.h:172-179). *)
Definition tensor_2t (out Jrt : arr) (nr mr : nat) (Jst : arr) (ns ms : nat) (u work : arr) : res arr :=
  work <- tensor_mtxm work nr Jrt mr u ms ;;
  mxm P out nr work ms Jst ns.
(** The loop of tensor_3t (tensor.h:198-199), k planes: q is read, p written. *)
Fixpoint planes (k nr ns ms : nat) (Jst p q : arr) : res arr :=
  match k with
  | O => Ok p
  | S k' =>
      p1 <- mxm P p nr q ms Jst ns ;;
      p2 <- planes k' nr ns ms Jst (skipn (nr * ns) p1) (skipn (nr * ms) q) ;;
      Ok (firstn (nr * ns) p1 ++ p2)
  end.
(** tensor_3t (tensor.h:187-201). *)
Definition tensor_3t (out Jrt : arr) (nr mr : nat) (Jst : arr) (ns ms : nat) (Jtt : arr) (nt mt : nat)
    (u work : arr) : res arr :=
  let mst := ms * mt in
  w1 <- tensor_mtxm (firstn (nr * mst) work) nr Jrt mr u mst ;;
  w2 <- planes mt nr ns ms Jst (skipn (nr * mst) work) w1 ;;
  mxm P out (nr * ns) w2 mt Jtt nt.
End With.
End Tensor.
