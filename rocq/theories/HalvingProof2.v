(** Proofs for C61: comm_reduce and comm_dot. *)
From Verif Require Import Base BaseLemmas Net NetProof Comm CommSpec OpsSpec CommProof Tensor CommDot BracketSpec HalvingSpec HalvingProof.

Lemma vec_map {T} vn (f : nat -> T) : vec vn f = map f (seq 0 vn).
Proof. reflexivity. Qed.
Theorem allreduce_any {T} (op : T -> T -> T) (e : T) np vn (v buf : nat -> list T) : 1 <= np ->
  (forall p, p < np -> length (v p) = vn /\ length (buf p) = vn) ->
  always_returns (map (fun p => comm_allreduce op np p vn (v p) (buf p)) (seq 0 np))
    (map (fun _ => map (fun i => eval op e (fun q _ _ => nth i (v q) e) (halving np 0 np)) (seq 0 vn)) (seq 0 np)).
Proof. intros Hnp Hl. exact (goes_always_fun _ np _ (allreduce_goes_any op e np vn v buf Hnp Hl)). Qed.

Lemma one_goes {T} (op : T -> T -> T) (e : T) np (acc : nat -> T) (b : nat -> list T) : 1 <= np -> (forall p, p < np -> length (b p) = 1) ->
  goes np (fun p => pbind (comm_allreduce op np p 1 [acc p] (b p)) (fun r => match r with x :: _ => Ret x | [] => Stop end))
    (fun _ => Ret (eval op e (fun q _ _ => acc q) (halving np 0 np))).
Proof.
  intros Hnp Hb. eapply goes_trans; [exact (goes_bind np (fun _ r => match r with y :: _ => Ret y | [] => Stop end)
    (fun p => comm_allreduce op np p 1 [acc p] (b p)) _ (allreduce_goes_any op e np 1 (fun p => [acc p]) b Hnp (fun p Hp => conj eq_refl (Hb p Hp))))|].
  apply goes_ext. intros p Hp. cbn [vec seq map]. reflexivity.
Qed.
Theorem reduce_any {T} (op : T -> T -> T) (e : T) np (inp buf : nat -> list T) : 1 <= np -> (forall p, p < np -> length (buf p) = 1) ->
  always_returns (map (fun p => comm_reduce op e np p (inp p) (length (inp p)) (buf p)) (seq 0 np))
    (map (fun _ => eval op e (fun q _ _ => fold_left op (inp q) e) (halving np 0 np)) (seq 0 np)).
Proof.
  intros Hnp Hb. apply goes_always_fun. eapply goes_trans; [|apply (one_goes op e np (fun p => fold_left op (inp p) e) buf); auto].
  apply goes_ext. intros p Hp. unfold comm_reduce. rewrite reduce_accum_ok by auto. reflexivity.
Qed.
Lemma dot_loop_fold {A} (add mul : A -> A -> A) n : forall v w s, n <= length v -> n <= length w ->
  dot_loop A add mul n v w s = Ok (fold_left add (map (fun x => mul (fst x) (snd x)) (firstn n (combine v w))) s).
Proof.
  induction n as [|n IH]; intros [|x v] [|y w] s Hv Hw; cbn in *; auto; try lia. rewrite IH by lia. auto.
Qed.
Theorem dot_any {A} (zero : A) (add mul : A -> A -> A) np (v w : nat -> list A) (n : nat -> nat) (b : nat -> A) : 1 <= np ->
  (forall p, p < np -> n p <= length (v p) /\ n p <= length (w p)) ->
  always_returns (map (fun p => comm_dot A zero add mul np p (v p) (w p) (n p) (b p)) (seq 0 np))
    (map (fun _ => eval add zero (fun q _ _ => fold_left add (map (fun x => mul (fst x) (snd x)) (firstn (n q) (combine (v q) (w q)))) zero) (halving np 0 np)) (seq 0 np)).
Proof.
  intros Hnp Hl. apply goes_always_fun. eapply goes_trans; [|apply (one_goes add zero np _ (fun p => [b p])); auto].
  apply goes_ext. intros p Hp. destruct (Hl p Hp) as [L1 L2]. unfold comm_dot, tensor_dot. rewrite dot_loop_fold by auto. reflexivity.
Qed.
