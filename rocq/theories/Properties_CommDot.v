(** C58: comm_dot. *)
From Verif Require Import Base Net OpsSpec Comm CommSpec Tensor TensorSpec CommDot CommDotProof.
From Coq Require Import ZArith Ring Ring_theory InitialRing.

(** comm_dot returns, in every execution and on every process, the sum over all processes q and
    all i < n q of v_q[i] * w_q[i]; the numbers n q may differ, and be 0.  (Over any commutative ring;
    for doubles this leaves out rounding.) *)
Theorem C58_comm_dot : forall (A : Type) (zero one : A) (add mul sub : A -> A -> A) (opp : A -> A),
  ring_theory zero one add mul sub opp (@eq A) ->
  forall np (v w : nat -> list A) (n : nat -> nat) (b : nat -> A), 1 <= np -> (forall p, p < np -> n p <= length (v p) /\ n p <= length (w p)) ->
  always_returns (map (fun p => comm_dot A zero add mul np p (v p) (w p) (n p) (b p)) (seq 0 np))
    (map (fun _ => sum A zero add np (fun q => sum A zero add (n q) (fun i => mul (get A zero (v q) i) (get A zero (w q) i)))) (seq 0 np)).
Proof. intros A zero one add mul sub opp Rth. exact (comm_dot_ok A zero one add mul sub opp Rth). Qed.
Print Assumptions C58_comm_dot.

(** Three processes with 2, 0 and 1 numbers: all get 1*3 + 2*4 + 5*6 = 41. *)
Example C58_example : let v := fun p => nth p [[1; 2]; []; [5]]%Z [] in let w := fun p => nth p [[3; 4]; []; [6]]%Z [] in
  always_returns (map (fun p => comm_dot Z 0%Z Z.add Z.mul 3 p (v p) (w p) (length (v p)) 99%Z) (seq 0 3)) [41; 41; 41]%Z.
Proof.
  refine (C58_comm_dot Z 0%Z 1%Z Z.add Z.mul Z.sub Z.opp Zth 3 (fun p => nth p [[1; 2]; []; [5]]%Z []) (fun p => nth p [[3; 4]; []; [6]]%Z []) (fun p => length (nth p [[1; 2]; []; [5]]%Z [])) (fun _ => 99%Z) _ _); [lia|].
  intros p Hp. destruct p as [|[|[|p]]]; cbn; lia.
Qed.
