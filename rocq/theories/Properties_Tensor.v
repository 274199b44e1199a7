(** C47: the tensor kernels compute the products they document, over every commutative ring. *)
From Verif Require Import Base Tensor TensorSpec TensorProof.
From Coq Require Import Ring_theory ZArithRing.

Theorem C47_dot : forall A zero one add mul sub opp, ring_theory zero one add mul sub opp (@eq A) ->
  forall (a b : list A) n, n <= length a -> n <= length b ->
  tensor_dot A zero add mul a b n = Ok (sum A zero add n (fun i => mul (get A zero a i) (get A zero b i))).
Proof. intros A zero one add mul sub opp R a b n. eapply tensor_dot_ok; eauto. Qed.
Print Assumptions C47_dot.

(** The matrix products of tensor.c: y = M x, y = M^T x, C = M B (record [good]), C = M^T B; what
    lies behind the result in the array is unchanged. *)
Theorem C47_products : forall A zero one add mul sub opp, ring_theory zero one add mul sub opp (@eq A) ->
  good A zero add mul (naive A zero add mul).
Proof. intros A zero one add mul sub opp R. eapply naive_good; eauto. Qed.
Print Assumptions C47_products.
Theorem C47_mtxm : forall A zero one add mul sub opp, ring_theory zero one add mul sub opp (@eq A) ->
  forall (C : list A) nc M na B nb, nc * nb <= length C -> nc * na <= length M -> na * nb <= length B ->
  exists C', tensor_mtxm A zero add mul C nc M na B nb = Ok C' /\
    written_mat A zero C C' nc nb (fun i j => sum A zero add na (fun k => mul (get A zero M (k + i * na)) (get A zero B (k + j * na)))).
Proof. intros A zero one add mul sub opp R. apply (tensor_mtxm_ok A zero one add mul sub opp R). Qed.
Print Assumptions C47_mtxm.
(** The products of tensor.h made from a routine mxm that computes C (na x nc) = M (na x nb) B (nb x nc). *)
Theorem C47_with_mxm : forall A zero one add mul sub opp, ring_theory zero one add mul sub opp (@eq A) ->
  forall f : list A -> nat -> list A -> nat -> list A -> nat -> res (list A),
  (forall M na B nb C nc, na * nc <= length C -> na * nb <= length M -> nb * nc <= length B ->
    exists C', f M na B nb C nc = Ok C' /\
      written_mat A zero C C' na nc (fun i j => sum A zero add nb (fun k => mul (get A zero M (i + k * na)) (get A zero B (k + j * nb))))) ->
  good A zero add mul (with_mxm A f).
Proof. intros A zero one add mul sub opp R f H. eapply with_mxm_good; eauto. Qed.
Print Assumptions C47_with_mxm.
(** tensor_mtxv of tensor.c needs at least one column: its counter wraps around otherwise. *)
Theorem C47_mtxv_empty_refuted : forall A (add mul : A -> A -> A) y ny M x, naive_mtxv A add mul y (S ny) M x 0 = UB.
Proof. reflexivity. Qed.

(** Interpolation: v = [Jr (x) Js (x) Jt] u. *)
Theorem C47_interpolation : forall A zero one add mul sub opp, ring_theory zero one add mul sub opp (@eq A) ->
  forall P, good A zero add mul P ->
  (forall Jr nr u, nr <= length Jr -> nr <= length u ->
     tensor_i1 A zero add mul Jr nr u = Ok (apply1 A zero add mul (get A zero Jr) nr u)) /\
  (forall Jr nr Js ns u work, 1 <= nr -> nr <= length Jr -> ns <= length Js -> nr * ns <= length u -> ns <= length work ->
     tensor_i2 A zero add mul P Jr nr Js ns u work = Ok (apply2 A zero add mul (get A zero Jr) nr (get A zero Js) ns u)) /\
  (forall Jr nr Js ns Jt nt u work, 1 <= nr -> 1 <= ns -> nr <= length Jr -> ns <= length Js -> nt <= length Jt ->
     nr * ns * nt <= length u -> ns * nt + nt <= length work ->
     tensor_i3 A zero add mul P Jr nr Js ns Jt nt u work =
       Ok (apply3 A zero add mul (get A zero Jr) nr (get A zero Js) ns (get A zero Jt) nt u)).
Proof.
  intros A zero one add mul sub opp R P G. split; [|split].
  - intros. eapply i1_ok; eauto.
  - intros. eapply i2_ok; eauto.
  - intros. eapply i3_ok; eauto.
Qed.
Print Assumptions C47_interpolation.

(** Interpolation with gradient: row 0 of the weights interpolates, row 1 differentiates. *)
Theorem C47_gradient : forall A zero one add mul sub opp, ring_theory zero one add mul sub opp (@eq A) ->
  forall P, good A zero add mul P -> let J w n := row A zero w n 0 in let D w n := row A zero w n 1 in
  let ap1 := apply1 A zero add mul in let ap2 := apply2 A zero add mul in let ap3 := apply3 A zero add mul in
  (forall wtr nr u, 2 * nr <= length wtr -> nr <= length u ->
     tensor_ig1 A zero add mul wtr nr u = Ok (ap1 (J wtr nr) nr u, [ap1 (D wtr nr) nr u])) /\
  (forall wtr nr wts ns u work, 2 * nr <= length wtr -> 2 * ns <= length wts -> nr * ns <= length u -> 2 * nr <= length work ->
     tensor_ig2 A zero add mul P wtr nr wts ns u work =
       Ok (ap2 (J wtr nr) nr (J wts ns) ns u, [ap2 (D wtr nr) nr (J wts ns) ns u; ap2 (J wtr nr) nr (D wts ns) ns u])) /\
  (forall wtr nr wts ns wtt nt u work, 2 * nr <= length wtr -> 2 * ns <= length wts -> 2 * nt <= length wtt ->
     nr * ns * nt <= length u -> 2 * nr * ns + 3 * nr <= length work ->
     tensor_ig3 A zero add mul P wtr nr wts ns wtt nt u work =
       Ok (ap3 (J wtr nr) nr (J wts ns) ns (J wtt nt) nt u,
           [ap3 (D wtr nr) nr (J wts ns) ns (J wtt nt) nt u;
            ap3 (J wtr nr) nr (D wts ns) ns (J wtt nt) nt u;
            ap3 (J wtr nr) nr (J wts ns) ns (D wtt nt) nt u])).
Proof.
  intros A zero one add mul sub opp R P G. cbv zeta. split; [|split]; intros.
  - eapply ig1_ok; eauto.
  - eapply ig2_ok; eauto.
  - eapply ig3_ok; eauto.
Qed.
Print Assumptions C47_gradient.

(** Tensor products of matrices (row i of the transposed factor applied to u). *)
Theorem C47_tensor_products : forall A zero one add mul sub opp, ring_theory zero one add mul sub opp (@eq A) ->
  forall P, good A zero add mul P -> let R := row A zero in
  (forall out Jrt nr mr Jst ns ms u work,
     nr * ns <= length out -> nr * mr <= length Jrt -> ms * ns <= length Jst -> mr * ms <= length u -> nr * ms <= length work ->
     exists out', tensor_2t A zero add mul P out Jrt nr mr Jst ns ms u work = Ok out' /\
       written_mat A zero out out' nr ns (fun i j => apply2 A zero add mul (R Jrt mr i) mr (R Jst ms j) ms u)) /\
  (forall out Jrt nr mr Jst ns ms Jtt nt mt u work,
     nr * ns * nt <= length out -> nr * mr <= length Jrt -> ms * ns <= length Jst -> mt * nt <= length Jtt ->
     mr * (ms * mt) <= length u -> nr * (ms + ns) * mt <= length work ->
     exists out', tensor_3t A zero add mul P out Jrt nr mr Jst ns ms Jtt nt mt u work = Ok out' /\ length out' = length out /\
       (forall i j k, i < nr -> j < ns -> k < nt ->
          get A zero out' (i + nr * (j + ns * k)) = apply3 A zero add mul (R Jrt mr i) mr (R Jst ms j) ms (R Jtt mt k) mt u) /\
       forall i, nr * ns * nt <= i -> get A zero out' i = get A zero out i).
Proof.
  intros A zero one add mul sub opp R P G. cbv zeta. split; intros.
  - eapply t2_ok; eauto.
  - eapply t3_ok; eauto.
Qed.
Print Assumptions C47_tensor_products.

(** Integers are such a ring; a concrete case of each kernel. *)
Open Scope Z_scope.
Example ints_good : good Z 0 Z.add Z.mul (naive Z 0 Z.add Z.mul).
Proof. eapply C47_products. exact Zth. Qed.
Notation zn := (naive Z 0 Z.add Z.mul).
Example ig3_example :
  tensor_ig3 Z 0 Z.add Z.mul zn [1; 2; 3; 4] 2 [5; 6; 7; 8] 2 [9; 1; 2; 3] 2 [1; 2; 3; 4; 5; 6; 7; 8] (repeat 0 14)
  = Ok (1042, [2358; 1410; 851]) /\
  apply3 Z 0 Z.add Z.mul (row Z 0 [1; 2; 3; 4] 2 1) 2 (row Z 0 [5; 6; 7; 8] 2 0) 2 (row Z 0 [9; 1; 2; 3] 2 0) 2 [1; 2; 3; 4; 5; 6; 7; 8] = 2358.
Proof. vm_compute. auto. Qed.
Example t3_example :
  tensor_3t Z 0 Z.add Z.mul zn [9; 9; 9] [1; 2] 1 2 [3; 4; 5; 6] 2 2 [1; 1] 1 2 [1; 2; 3; 4; 5; 6; 7; 8] (repeat 0 8)
  = Ok [202; 314; 9].
Proof. vm_compute. reflexivity. Qed.
