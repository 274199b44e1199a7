(** C59: over any sequence of calls, the element solvers answer as one function of the element and the
    point: earlier elements, earlier points, the other points of the batch, the size the structure was
    set up for and the matrix products leave no trace. *)
From Verif Require Import Base Tensor TensorSpec PolyGllSpec Poly PolySpec LobBndSpec FindptsEl2 FindptsEl2Spec FindptsEl2Proof7 FindptsEl3 FindptsEl3Spec FindptsEl3Proof7 FindptsCalls FindptsCallsSpec FindptsCallsProof Properties_FindptsEl2 Properties_FindptsEl3.
From Coq Require Import Reals Lra.
Local Open Scope R_scope.

Theorem C59_solver_2 : forall DBL_MAX nodes_n nr ns zr zs tol, 0 < DBL_MAX -> el_points nodes_n nr zr -> el_points nodes_n ns zs ->
  exists solve,
    (* what the function finds is a critical point and its distance, as in C53 *)
    (forall x q, coords2 nr ns x -> regular (shape_of nr ns zr zs x) -> reachable DBL_MAX (shape_of nr ns zr zs x) q ->
       found (shape_of nr ns zr zs x) tol 0 q (solve x q)) /\
    (* and it is what any sequence of calls answers *)
    (forall P npt x l, good R 0 Rplus Rmult P -> coords2 nr ns x ->
       allowed (coords2 nr ns) (fun x => regular (shape_of nr ns zr zs x)) (fun x => reachable DBL_MAX (shape_of nr ns zr zs x)) npt (nr * ns) x l ->
       exists fd s, findpts_el_setup_2 nodes_n nr ns npt x = Ok (fd, s) /\
         calls_2 DBL_MAX P tol l fd s = Ok (answers solve (fun x u r => value (shape_of nr ns zr zs x) u (nth 0 r 0) (nth 1 r 0)) x l)).
Proof.
  intros M nodes_n nr ns zr zs tol HM Hr Hs. exists (solve2 M nodes_n nr ns tol). split.
  - intros x q. apply solve2_ok; auto.
  - intros P npt x l G Hc A. destruct (coords2_eq _ _ _ Hc) as (a & b & Ex & La & Lb). destruct (setup_ok nodes_n nr ns zr zs npt a b Hr Hs La Lb) as (fd & s & _ & E & _).
    exists fd, s. rewrite Ex at 1. split; [exact E|]. apply (calls2_ok M HM nodes_n nr ns zr zs Hr Hs tol P npt G l x fd s Hc); [|exact A]. rewrite Ex. exact (h_setup M P nodes_n nr ns zr zs npt a b fd s La Lb E).
Qed.
Print Assumptions C59_solver_2.

Theorem C59_solver_3 : forall DBL_MAX nodes_n nr ns nt zr zs zt tol, 0 < DBL_MAX -> el_points nodes_n nr zr -> el_points nodes_n ns zs -> el_points nodes_n nt zt ->
  exists solve,
    (forall x q, coords nr ns nt x -> regular3 (Shape3 nr ns nt zr zs zt x) -> reachable3 DBL_MAX (Shape3 nr ns nt zr zs zt x) q ->
       found3 (Shape3 nr ns nt zr zs zt x) tol 0 q (solve x q)) /\
    (forall P npt x l, good R 0 Rplus Rmult P -> coords nr ns nt x ->
       allowed (coords nr ns nt) (fun x => regular3 (Shape3 nr ns nt zr zs zt x)) (fun x => reachable3 DBL_MAX (Shape3 nr ns nt zr zs zt x)) npt (nr * ns * nt) x l ->
       exists fd s, findpts_el_setup_3 nodes_n nr ns nt npt x = Ok (fd, s) /\
         calls_3 DBL_MAX P tol l fd s = Ok (answers solve (fun x => value3 (Shape3 nr ns nt zr zs zt x)) x l)).
Proof.
  intros M nodes_n nr ns nt zr zs zt tol HM Hr Hs Ht. exists (solve3 M nodes_n nr ns nt tol). split.
  - intros x q. apply solve3_ok; auto.
  - intros P npt x l G Hc A. destruct (setup_ok3 nodes_n nr ns nt zr zs zt npt x Hr Hs Ht Hc) as (fd & s & _ & E & _).
    exists fd, s. split; [exact E|]. apply (calls3_ok M HM nodes_n nr ns nt zr zs zt Hr Hs Ht tol P npt G l x fd s Hc); [|exact A]. exact (h3_setup M P nodes_n nr ns nt zr zs zt npt x fd s Hc E).
Qed.
Print Assumptions C59_solver_3.

(** Non-vacuity: a search in the turned rectangle, the evaluation of a function, a second start of the
    same element and a search of two points are allowed calls, with room for two points; and the same
    with the block of C56. *)
Definition turned_x : list arr := [[-1; 1; 3; -3; -1; 1]; [-3; -1; 1; -1; 1; 3]].
Example turned_calls : coords2 3 2 turned_x /\
  allowed (coords2 3 2) (fun x => regular (shape_of 3 2 (gll_list 3) (gll_list 2) x)) (fun x => reachable 100 (shape_of 3 2 (gll_list 3) (gll_list 2) x)) 2 (3 * 2) turned_x
    [Search [[1; 1]]; Eval [[0; 0]] [1; 2; 3; 4; 5; 6]; Element turned_x; Search [[1; 1]; [1; 1]]].
Proof.
  assert (C : coords2 3 2 turned_x) by (split; [reflexivity|intros [|[|d]] H; [cbn; lia|cbn; lia|lia]]).
  destruct turned_ok as (R1 & R2 & _). split; [exact C|]. cbn [allowed].
  repeat split; try exact R1; try exact (proj2 C); try (cbn; lia); intros q Hq; repeat (destruct Hq as [<-|Hq]; [exact R2|]); destruct Hq.
Qed.
Example block_calls : coords 3 2 2 (q_x block) /\
  allowed (coords 3 2 2) (fun x => regular3 (Shape3 3 2 2 (gll_list 3) (gll_list 2) (gll_list 2) x)) (fun x => reachable3 100 (Shape3 3 2 2 (gll_list 3) (gll_list 2) (gll_list 2) x)) 2 (3 * 2 * 2) (q_x block)
    [Search [[1; 1; 5]]; Element (q_x block); Search [[1; 1; 5]; [1; 1; 5]]].
Proof.
  pose proof block_coords as C. destruct block_ok as (R1 & R2 & _). split; [exact C|]. cbn [allowed].
  repeat split; try exact R1; try exact (proj2 C); try (cbn; lia); intros q Hq; repeat (destruct Hq as [<-|Hq]; [exact R2|]); destruct Hq.
Qed.
