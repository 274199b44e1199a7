(** Model of src/gen_poly_imp.c, the program that prints src/poly_imp.h: the function it prints for n points, as a
    program of PolyImpSyntax.v.  Spaces, line breaks and types are dropped, as in PolyImp.v. *)
From Verif Require Import Base PolyImpSyntax.
Open Scope nat_scope.

Section Print.
Variable n : nat.
(** PRINT_D (gen_poly_imp.c:111-118), the right-hand side. *)
Definition print_d (i : nat) : ex :=
  (if (2 * i + 1 =? n)%nat then X
   else if (i =? 0)%nat then X + 2
   else if (i =? n - 1)%nat then X - 2
   else if (i <? n / 2)%nat then X + 2 * G (i - 1)
   else X - 2 * G (n - 2 - i))%ex.
(** PRINT_U0, PRINT_V0, PRINT_U1, PRINT_V1, PRINT_U2, PRINT_V2 (gen_poly_imp.c:122-129). *)
Definition print_u0 (i : nat) : ex := if i =? 0 then K 1 else V (u0 i).
Definition print_v0 (i : nat) : ex := if i =? n - 1 then K 1 else V (v0 i).
Definition print_u1 (i : nat) : ex := if i <=? 1 then K (Z.of_nat i) else V (u1 i).
Definition print_v1 (i : nat) : ex := if n - 2 <=? i then K (Z.of_nat (n - 1 - i)) else V (v1 i).
Definition print_u2 (i : nat) : ex := if i <=? 1 then K 0 else if i =? 2 then K 2 else V (u2 i).
Definition print_v2 (i : nat) : ex := if n - 2 <=? i then K 0 else if i =? n - 3 then K 2 else V (v2 i).

(** PRINT_LIST (gen_poly_imp.c:88-95): i from i0 to n-1. *)
Definition print_list (i0 : nat) (f : nat -> stmt) : list stmt := map f (seq i0 (n - i0)).
(** The terms of a sum that are printed. *)
Definition print_sum (l : list ex) : ex := match l with [] => K 0 | e :: l => fold_left Add l e end.

(** print_gll_lag_fix (gen_poly_imp.c:97-202), with the entries printed for gllz_nn (lines 101-109) as argument.
    On the left of = the macros print the variables: 1 <= i in the lists of u0 and v0, 2 <= i in those of
    u1 and v1, 3 <= i in those of u2 and v2. *)
Definition print_gll_lag_fix (gllz : list Z) : prog := {|
  nodes := gllz;
  b0 := (* lines 119-144 *)
    print_list 0 (fun i => Let (d i) (print_d i)) ++
    print_list 1 (fun i => Let (u0 i) (print_u0 (i - 1) * d (i - 1))) ++
    print_list 1 (fun i => Let (v0 (n - 1 - i)) (d (n - i) * print_v0 (n - i))) ++
    print_list 0 (fun i => Out i (W i * print_u0 i * print_v0 i));
  b1 := (* lines 145-166 *)
    (if 2 <? n then
       print_list 2 (fun i => Let (u1 i) (print_u1 (i - 1) * d (i - 1) + print_u0 (i - 1))) ++
       print_list 2 (fun i => Let (v1 (n - 1 - i)) (d (n - i) * print_v1 (n - i) + print_v0 (n - i)))
     else []) ++
    print_list 0 (fun i => Out (n + i) (2 * W i *
      (if (i =? 0)%nat then print_v1 0
       else if (i =? n - 1)%nat then print_u1 i
       else print_u1 i * print_v0 i + print_u0 i * print_v1 i)));
  b2 := (* lines 167-194 *)
    (if 3 <? n then
       print_list 3 (fun i => Let (u2 i) (print_u2 (i - 1) * d (i - 1) + 2 * print_u1 (i - 1))) ++
       print_list 3 (fun i => Let (v2 (n - 1 - i)) (d (n - i) * print_v2 (n - i) + 2 * print_v1 (n - i)))
     else []) ++
    (if n <? 3 then print_list 0 (fun i => Out (2 * n + i) 0)
     else print_list 0 (fun i => Out (2 * n + i) (4 * W i * print_sum
       ((if 1 <? i then [print_u2 i * print_v0 i] else []) ++
        (if (0 <? i) && (i <? n - 1) then [2 * print_u1 i * print_v1 i] else []) ++
        (if i <? n - 2 then [print_u0 i * print_v2 i] else []))%ex))) |}.
End Print.

(** main (gen_poly_imp.c:204-226) with GLL_LAG_FIX_MAX = max: gll_lag_table and gllz_table.  The digits printed for the
    nodes (lines 98-109; computed by lobatto_node in multiple precision, lines 62-86) are an argument. *)
Definition generate (max : nat) (digits : nat -> list Z) : list prog * list (list Z) :=
  (map (fun n => print_gll_lag_fix n (digits n)) (seq 2 (max - 1)), map digits (seq 4 (max - 3))).
