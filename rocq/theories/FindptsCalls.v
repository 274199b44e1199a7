(** Sequences of calls of the element solvers, as findptsms_local and findptsms_local_eval make them
    (findpts_local_imp.h:311-373, 376-400): an element is started, and points are searched, or a
    function evaluated, in batches; the structure is the same throughout. *)
From Verif Require Import Base Tensor Poly FindptsEl2 FindptsEl3.
From Coq Require Import Reals.

Inductive call :=
| Element (x : list arr)                       (* findpts_el_start, the coordinates of its nodes *)
| Search (xs : list (list R))                  (* findpts_el *)
| Eval (rs : list (list R)) (u : arr).         (* findpts_el_eval *)
Inductive answer :=
| Started
| Points (ps : list pt)
| Values (vs : list R).

Section With.
Variable DBL_MAX : R.
Variable P : products R.
Variable tol : R.
(** The answers of the solver with two dimensions. *)
Fixpoint calls_2 (l : list call) (fd : el) (s : st) : res (list answer) :=
  match l with
  | [] => Ok []
  | Element x :: l => let '(fd, s) := findpts_el_start_2 fd s x in r <- calls_2 l fd s ;; Ok (Started :: r)
  | Search xs :: l => '(ps, s) <- findpts_el_2 DBL_MAX P fd s xs tol ;; r <- calls_2 l fd s ;; Ok (Points ps :: r)
  | Eval rs u :: l => '(vs, s) <- findpts_el_eval_2 P fd s rs u ;; r <- calls_2 l fd s ;; Ok (Values vs :: r)
  end.
(** And with three. *)
Fixpoint calls_3 (l : list call) (fd : el) (s : st3) : res (list answer) :=
  match l with
  | [] => Ok []
  | Element x :: l => let '(fd, s) := findpts_el_start_3 fd s x in r <- calls_3 l fd s ;; Ok (Started :: r)
  | Search xs :: l => '(ps, s) <- findpts_el_3 DBL_MAX P fd s xs tol ;; r <- calls_3 l fd s ;; Ok (Points ps :: r)
  | Eval rs u :: l => '(vs, s) <- findpts_el_eval_3 P fd s rs u ;; r <- calls_3 l fd s ;; Ok (Values vs :: r)
  end.
End With.
