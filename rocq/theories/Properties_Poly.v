(** Properties C45, C46: Lagrange bases and Legendre polynomials (in exact arithmetic). *)
From Verif Require Import Base Poly PolySpec PolyProof1 PolyProof2 PolyProof3.
From Coq Require Import Reals Lra.
Open Scope R_scope.

(** C45.  lagrange_setup for distinct nodes touches only the lagrange_size(n) numbers of data, and
    makes every later sequence of evaluations return the basis and its derivatives. *)
Theorem C45_lagrange : forall n z data, (1 <= n)%nat -> (n <= length z)%nat -> (lagrange_size n <= length data)%nat -> distinct z n ->
  exists data', lagrange_setup data z n = Ok data' /\ length data' = length data /\
    (forall k, (lagrange_size n <= k)%nat -> get data' k = get data k) /\
    forall calls, Forall (valid_call n) calls ->
      exists outs, evals lagrange_eval data' n calls = Ok outs /\ Forall2 (fun '(p, der, x) p' => evaluates z n der x p p') calls outs.
Proof.
  intros n z data Hn Hz Hd D. destruct (setup_ok data z n Hn Hd Hz D) as (d' & E & L & O & Hr). exists d'. split; [auto|]. split; [auto|]. split; [auto|].
  intros calls HF. apply evals_ok; auto.
Qed.
Print Assumptions C45_lagrange.

(** Each basis polynomial is 1 at its node and 0 at the others. *)
Theorem C45_nodes : forall n z i k, distinct z n -> (i < n)%nat -> (k < n)%nat -> basis z n i (get z k) = if (k =? i)%nat then 1 else 0.
Proof. intros. apply basis_node_; auto. Qed.
Print Assumptions C45_nodes.

(** Interpolation reproduces every polynomial of degree less than n, everywhere, and the basis is
    made of such polynomials. *)
Theorem C45_interpolation : forall n z c x, distinct z n -> (length c <= n)%nat ->
  rsum n (fun i => peval c (get z i) * basis z n i x) = peval c x.
Proof. intros. apply interpolation_; auto. Qed.
Print Assumptions C45_interpolation.

Theorem C45_polynomial : forall n z i, (i < n)%nat -> exists c, (length c <= n)%nat /\ forall x, peval c x = basis z n i x.
Proof. intros. apply basis_peval; auto. Qed.
Print Assumptions C45_polynomial.

(** C46.  legendre, legendre_d1 (n > 0) and legendre_d2 (n > 1, as their comments require). *)
Theorem C46_legendre : forall n x, legendre n x = P n x.
Proof. exact legendre_P. Qed.
Print Assumptions C46_legendre.

Theorem C46_legendre_d1 : forall n x, (1 <= n)%nat -> derivable_pt_lim (P n) x (legendre_d1 n x).
Proof. intros n x H. rewrite legendre_d1_P by auto. apply P_der. Qed.
Print Assumptions C46_legendre_d1.

Theorem C46_legendre_d2 : forall n x, (2 <= n)%nat -> derivative2 (P n) x (legendre_d2 n x).
Proof. intros n x H. rewrite legendre_d2_P by auto. exists (P1 n). split; [intros; apply P_der|apply P1_der]. Qed.
Print Assumptions C46_legendre_d2.

(** The preconditions are needed: P_0' = 0 and P_1'' = 0. *)
Theorem C46_preconditions_refuted :
  (~ forall x, derivable_pt_lim (P 0) x (legendre_d1 0 x)) /\ (~ forall x, derivative2 (P 1) x (legendre_d2 1 x)).
Proof.
  split; intros H.
  - pose proof (uniqueness_limite _ _ _ _ (H 1) (P_der 0 1)) as E. cbn in E. lra.
  - destruct (H 1) as (g & G1 & G2). pose proof (fun y => uniqueness_limite _ _ _ _ (G1 y) (P_der 1 y)) as Eg.
    pose proof (der_unique g (P1 1) 1 _ _ Eg G2 (P1_der 1 1)) as E. cbn in E. lra.
Qed.
Print Assumptions C46_preconditions_refuted.

(** Three nodes, and the values at 1/2. *)
Example three_nodes : distinct [-1; 0; 1] 3.
Proof. intros [|[|[|i]]] [|[|[|j]]] Hi Hj E; try lia; cbn in E; lra. Qed.
Example three_values : basis [-1; 0; 1] 3 0 (1 / 2) = - (1 / 8) /\ basis [-1; 0; 1] 3 1 (1 / 2) = 3 / 4 /\ basis [-1; 0; 1] 3 2 (1 / 2) = 3 / 8.
Proof. unfold basis. cbn. lra. Qed.
Example three_valid : Forall (valid_call 3) [(repeat 0 9, 2%nat, 1 / 2); (repeat 7 5, 0%nat, -1)].
Proof. repeat constructor. Qed.
(** P_3 = (5x^3-3x)/2. *)
Example P_3 x : P 3 x = (5 * x ^ 3 - 3 * x) / 2.
Proof. cbn. field. Qed.
Example legendre_d1_3 : legendre_d1 3 1 = 6.
Proof. unfold legendre_d1. cbn. field. Qed.
