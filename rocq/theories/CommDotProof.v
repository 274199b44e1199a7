From Verif Require Import Base BaseLemmas OpsSpec Net NetProof Comm CommSpec CommProof Tensor TensorSpec TensorProof CommDot.
From Coq Require Import Ring.
Section P.
Variable A : Type.
Variable zero one : A.
Variable add mul sub : A -> A -> A.
Variable opp : A -> A.
Variable Rth : ring_theory zero one add mul sub opp (@eq A).
Add Ring Aring : Rth.
Lemma ring_cmonoid : cmonoid add zero.
Proof. constructor; intros; ring. Qed.
Lemma sum_fold np (f : nat -> A) : reduction add zero f 0 np = sum A zero add np f.
Proof. unfold reduction. induction np as [|k IH]; [reflexivity|]. rewrite seq_S, map_app, fold_left_app, IH. reflexivity. Qed.
Lemma comm_dot_ok np (v w : nat -> list A) (n : nat -> nat) (b : nat -> A) : 1 <= np -> (forall p, p < np -> n p <= length (v p) /\ n p <= length (w p)) ->
  always_returns (map (fun p => comm_dot A zero add mul np p (v p) (w p) (n p) (b p)) (seq 0 np))
    (map (fun _ => sum A zero add np (fun q => sum A zero add (n q) (fun i => mul (get A zero (v q) i) (get A zero (w q) i)))) (seq 0 np)).
Proof.
  intros Hnp Hl. apply goes_always_fun.
  set (acc := fun p => [sum A zero add (n p) (fun i => mul (get A zero (v p) i) (get A zero (w p) i))]).
  eapply goes_trans; [|eapply goes_trans; [exact (goes_bind np (fun _ r => match r with y :: _ => Ret y | [] => Stop end)
    (fun p => comm_allreduce add np p 1 (acc p) [b p]) _ (allreduce_goes add zero np 1 acc (fun p => [b p]) ring_cmonoid Hnp (fun p Hp => conj eq_refl eq_refl)))|]].
  - apply goes_ext. intros p Hp. destruct (Hl p Hp) as [L1 L2]. unfold comm_dot. rewrite (tensor_dot_ok A zero one add mul sub opp Rth) by auto. reflexivity.
  - apply goes_ext. intros p Hp. cbn [vec seq map]. rewrite <- sum_fold. reflexivity.
Qed.
End P.
