(** C11-C13: the gs operations and the local gather/scatter kernels. *)
From Verif Require Import Base Ops OpsSpec OpsProof Kernels KernelSpec KernelProof.
Local Open Scope Z_scope.

(** C11: on every integer domain of w >= 2 bits (uint having the same width) each of the
    operations add, mul, min, max, bpr is total, commutative and associative and has the
    identity the library uses. *)
Theorem C11_operations_are_monoids w op : 2 <= w ->
  comm_monoid (in_range w) (do_op w w op) (identity w op).
Proof. exact (do_op_comm_monoid w op). Qed.
Print Assumptions C11_operations_are_monoids.

(** The same, as an operation on the type of w-bit integers (used below for "every domain
    and operation"). *)
Theorem C11_every_integer_domain w op : 2 <= w ->
  exists (f : int_w w -> int_w w -> int_w w) (e : int_w w),
    cmonoid f e /\ proj1_sig e = identity w op /\
    forall a b, do_op w w op (proj1_sig a) (proj1_sig b) = Some (proj1_sig (f a b)).
Proof. exact (int_domain_monoid w op). Qed.
Print Assumptions C11_every_integer_domain.

(** bpr of two positive values is their longest common binary prefix. *)
Theorem C11_bpr_is_longest_common_prefix w a b : 1 <= w -> 0 < a < 2 ^ (w - 1) -> 0 < b < 2 ^ (w - 1) ->
  exists r, do_op w w gs_bpr a b = Some r /\ 0 < r /\
    longest_common_prefix (Z.to_N r) (Z.to_N a) (Z.to_N b).
Proof. exact (bpr_is_lcp w a b). Qed.
Print Assumptions C11_bpr_is_longest_common_prefix.

(** On a domain wider than uint, bpr is a commutative monoid on the values that fit in uint ... *)
Theorem C11_bpr_wider_domain w lw : 1 <= lw < w ->
  comm_monoid (fun z => 0 <= z < 2 ^ lw) (do_op w lw gs_bpr) (identity w gs_bpr).
Proof. exact (bpr_comm_monoid_wider w lw). Qed.
Print Assumptions C11_bpr_wider_domain.

(** ... and is not one on all values: 0 is not neutral on a 64-bit long with 32-bit uint. *)
Theorem C11_bpr_long_refuted :
  exists a, in_range 64 a /\ do_op 64 32 gs_bpr (identity 64 gs_bpr) a <> Some a.
Proof. exact bpr_long_truncates. Qed.
Print Assumptions C11_bpr_long_refuted.

Example C11_example : map (fun op => do_op 32 32 op 22 (-7)) [gs_add; gs_mul; gs_min; gs_max]
    = [Some 15; Some (-154); Some (-7); Some 22]
  /\ do_op 32 32 gs_bpr 22 45 = Some 22 /\ do_op 32 32 gs_bpr 22 47 = Some 11
  /\ in_range 32 22 /\ in_range 32 (-7).
Proof. unfold in_range. change (2 ^ (32 - 1)) with 2147483648. split; [reflexivity|]. split; [reflexivity|]. split; [reflexivity|]. lia. Qed.

Local Close Scope Z_scope.

Section Kernels.
Context {T : Type}.
Variable op : T -> T -> T.
Variable ident : T.
Variable SENT : nat.

(** C12: for every map encoding groups (i,[j..]), gather makes out[p] the accumulation of
    out[p] and the in[j] of all pairs (p,j) of the map, in map order, and leaves the other
    elements alone; it does not read or write out of range. *)
Theorem C12_gather gs n m a g out f :
  valid_map SENT n m gs -> holds a m g -> holds out n f ->
  exists out', gather op SENT (Some a) (encode SENT gs) out = Ok out' /\
    holds out' n (fun p => gathered op gs g p (f p)).
Proof. exact (gather_correct op SENT gs n m a g out f). Qed.

(** The same in place, when no index is both a head and a member. *)
Theorem C12_gather_in_place gs n u f :
  valid_map SENT n n gs -> apart gs -> holds u n f ->
  exists u', gather op SENT None (encode SENT gs) u = Ok u' /\
    holds u' n (fun p => gathered op gs f p (f p)).
Proof. exact (gather_in_place op SENT gs n u f). Qed.

(** scatter copies in[i] to out[j] for every pair (i,j) and leaves the rest alone. *)
Theorem C12_scatter gs n m a (g : nat -> T) out f :
  valid_map SENT m n gs -> holds a m g -> holds out n f ->
  exists out', scatter SENT (Some a) (encode SENT gs) out = Ok out' /\
    holds out' n (fun p => scattered gs g p (f p)).
Proof. exact (scatter_correct SENT gs n m a g out f). Qed.

Theorem C12_scatter_in_place gs n u (f : nat -> T) :
  valid_map SENT n n gs -> apart gs -> holds u n f ->
  exists u', scatter SENT None (encode SENT gs) u = Ok u' /\
    holds u' n (fun p => scattered gs f p (f p)).
Proof. exact (scatter_in_place SENT gs n u f). Qed.

(** init sets exactly the listed elements to the identity. *)
Theorem C12_init is n out f :
  n <= SENT -> (forall i, In i is -> i < n) -> holds out n f ->
  exists out', init_ ident SENT (is ++ [SENT]) out = Ok out' /\
    holds out' n (fun p => if existsb (Nat.eqb p) is then ident else f p).
Proof. exact (init_correct ident SENT is n out f). Qed.

(** The array kernels: element-wise combination / identity on the first n elements. *)
Theorem C12_gather_array n out inp f g N :
  holds out N f -> holds inp n g -> n <= N ->
  exists out', gather_array op out inp n = Ok out' /\
    holds out' N (fun p => if p <? n then op (f p) (g p) else f p).
Proof. exact (gather_array_correct op n out inp f g N). Qed.
Theorem C12_init_array n out f N :
  holds out N f -> n <= N ->
  exists out', init_array ident out n = Ok out' /\
    holds out' N (fun p => if p <? n then ident else f p).
Proof. exact (init_array_correct ident n out f N). Qed.

(** C13: component k of the result of a vector or many-array kernel is what the plain kernel
    computes on component k of the data. *)
Theorem C13_gather_vec gs n m vn a g out f :
  vn <> 0 -> valid_map SENT n m gs -> holds_vec a m vn g -> holds_vec out n vn f ->
  exists out', gather_vec op SENT (Some a) vn (encode SENT gs) out = Ok out' /\
    holds_vec out' n vn (fun p k => gathered op gs (fun j => g j k) p (f p k)).
Proof. exact (gather_vec_correct op SENT gs n m vn a g out f). Qed.
Theorem C13_gather_vec_in_place gs n vn u f :
  vn <> 0 -> valid_map SENT n n gs -> apart gs -> holds_vec u n vn f ->
  exists u', gather_vec op SENT None vn (encode SENT gs) u = Ok u' /\
    holds_vec u' n vn (fun p k => gathered op gs (fun j => f j k) p (f p k)).
Proof. exact (gather_vec_in_place op SENT gs n vn u f). Qed.
Theorem C13_scatter_vec gs n m vn a (g : nat -> nat -> T) out f :
  valid_map SENT m n gs -> holds_vec a m vn g -> holds_vec out n vn f ->
  exists out', scatter_vec SENT (Some a) vn (encode SENT gs) out = Ok out' /\
    holds_vec out' n vn (fun p k => scattered gs (fun j => g j k) p (f p k)).
Proof. exact (scatter_vec_correct SENT gs n m vn a g out f). Qed.
Theorem C13_scatter_vec_in_place gs n vn u (f : nat -> nat -> T) :
  valid_map SENT n n gs -> apart gs -> holds_vec u n vn f ->
  exists u', scatter_vec SENT None vn (encode SENT gs) u = Ok u' /\
    holds_vec u' n vn (fun p k => scattered gs (fun j => f j k) p (f p k)).
Proof. exact (scatter_vec_in_place SENT gs n vn u f). Qed.
Theorem C13_init_vec is n vn out f :
  vn <> 0 -> n <= SENT -> (forall i, In i is -> i < n) -> holds_vec out n vn f ->
  exists out', init_vec ident SENT vn (is ++ [SENT]) out = Ok out' /\
    holds_vec out' n vn (fun p k => if existsb (Nat.eqb p) is then ident else f p k).
Proof. exact (init_vec_correct ident SENT is n vn out f). Qed.
Theorem C13_gather_many gs n m vn ins g outs f :
  valid_map SENT n m gs -> holds_many ins m vn g -> holds_many outs n vn f ->
  exists outs', gather_many op SENT (Some ins) vn (encode SENT gs) outs = Ok outs' /\
    holds_many outs' n vn (fun p k => gathered op gs (fun j => g j k) p (f p k)).
Proof. exact (gather_many_correct op SENT gs n m vn ins g outs f). Qed.
Theorem C13_gather_many_in_place gs n vn us f :
  valid_map SENT n n gs -> apart gs -> holds_many us n vn f ->
  exists us', gather_many op SENT None vn (encode SENT gs) us = Ok us' /\
    holds_many us' n vn (fun p k => gathered op gs (fun j => f j k) p (f p k)).
Proof. exact (gather_many_in_place op SENT gs n vn us f). Qed.
Theorem C13_scatter_many gs n m vn ins (g : nat -> nat -> T) outs f :
  valid_map SENT m n gs -> holds_many ins m vn g -> holds_many outs n vn f ->
  exists outs', scatter_many SENT (Some ins) vn (encode SENT gs) outs = Ok outs' /\
    holds_many outs' n vn (fun p k => scattered gs (fun j => g j k) p (f p k)).
Proof. exact (scatter_many_correct SENT gs n m vn ins g outs f). Qed.
Theorem C13_scatter_many_in_place gs n vn us (f : nat -> nat -> T) :
  valid_map SENT n n gs -> apart gs -> holds_many us n vn f ->
  exists us', scatter_many SENT None vn (encode SENT gs) us = Ok us' /\
    holds_many us' n vn (fun p k => scattered gs (fun j => f j k) p (f p k)).
Proof. exact (scatter_many_in_place SENT gs n vn us f). Qed.
Theorem C13_init_many is n vn outs f :
  n <= SENT -> (forall i, In i is -> i < n) -> holds_many outs n vn f ->
  exists outs', init_many ident SENT vn (is ++ [SENT]) outs = Ok outs' /\
    holds_many outs' n vn (fun p k => if existsb (Nat.eqb p) is then ident else f p k).
Proof. exact (init_many_correct ident SENT is n vn outs f). Qed.
Theorem C13_gather_vec_to_many gs n m vn a g outs f :
  valid_map SENT n m gs -> holds_vec a m vn g -> holds_many outs n vn f ->
  exists outs', gather_vec_to_many op SENT a vn (encode SENT gs) outs = Ok outs' /\
    holds_many outs' n vn (fun p k => gathered op gs (fun j => g j k) p (f p k)).
Proof. exact (gather_vec_to_many_correct op SENT gs n m vn a g outs f). Qed.
Theorem C13_scatter_vec_to_many gs n m vn a (g : nat -> nat -> T) outs f :
  valid_map SENT m n gs -> holds_vec a m vn g -> holds_many outs n vn f ->
  exists outs', scatter_vec_to_many SENT a vn (encode SENT gs) outs = Ok outs' /\
    holds_many outs' n vn (fun p k => scattered gs (fun j => g j k) p (f p k)).
Proof. exact (scatter_vec_to_many_correct SENT gs n m vn a g outs f). Qed.
Theorem C13_scatter_many_to_vec gs n m vn ins (g : nat -> nat -> T) out f :
  valid_map SENT m n gs -> holds_many ins m vn g -> holds_vec out n vn f ->
  exists out', scatter_many_to_vec SENT ins vn (encode SENT gs) out = Ok out' /\
    holds_vec out' n vn (fun p k => scattered gs (fun j => g j k) p (f p k)).
Proof. exact (scatter_many_to_vec_correct SENT gs n m vn ins g out f). Qed.
End Kernels.
Print Assumptions C12_gather.
Print Assumptions C12_gather_in_place.
Print Assumptions C12_scatter.
Print Assumptions C12_scatter_in_place.
Print Assumptions C12_init.
Print Assumptions C12_gather_array.
Print Assumptions C12_init_array.
Print Assumptions C13_gather_vec.
Print Assumptions C13_gather_vec_in_place.
Print Assumptions C13_scatter_vec.
Print Assumptions C13_scatter_vec_in_place.
Print Assumptions C13_init_vec.
Print Assumptions C13_gather_many.
Print Assumptions C13_gather_many_in_place.
Print Assumptions C13_scatter_many.
Print Assumptions C13_scatter_many_in_place.
Print Assumptions C13_init_many.
Print Assumptions C13_gather_vec_to_many.
Print Assumptions C13_scatter_vec_to_many.
Print Assumptions C13_scatter_many_to_vec.

(** A map with two groups on an array of 6 elements meets the hypotheses. *)
Example C12_example_map : let gs := [(0, [2; 3]); (1, [5])] in
  valid_map 1000 6 6 gs /\ apart gs /\ encode 1000 gs = [0; 2; 3; 1000; 1; 5; 1000; 1000] /\
  gather Nat.add 1000 None (encode 1000 gs) [1; 2; 3; 4; 5; 6] = Ok [8; 8; 3; 4; 5; 6] /\
  scatter 1000 None (encode 1000 gs) [1; 2; 3; 4; 5; 6] = Ok [1; 2; 1; 1; 5; 2].
Proof.
  cbv zeta. repeat split; try (vm_compute; lia); simpl in *;
    repeat match goal with
    | H : _ \/ _ |- _ => destruct H
    | H : (_, _) = (_, _) |- _ => injection H as <- <-
    | H : False |- _ => destruct H
    | |- forall j, In j _ -> _ => intros ? H
    end; simpl in *; try discriminate; try lia.
  all: intros i j Hi Hj; simpl in *; lia.
Qed.
Example C13_example : gather_vec Nat.add 1000 None 2 [0; 2; 3; 1000; 1; 5; 1000; 1000]
   [1; 10; 2; 20; 3; 30; 4; 40; 5; 50; 6; 60] = Ok [8; 80; 8; 80; 3; 30; 4; 40; 5; 50; 6; 60].
Proof. reflexivity. Qed.
