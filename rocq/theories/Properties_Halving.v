(** C61: comm_allreduce (its own implementation), comm_reduce and comm_dot with any operation. *)
From Coq Require Import Reals Lra.
From Verif Require Import Base Net Comm CommDot BracketSpec HalvingSpec HalvingProof2 HalvingRound.

(** Every process gets the same vector, in every execution, for every operation: element i combines the
    elements i of all processes in their order, by halving. *)
Theorem C61_comm_allreduce {T} (op : T -> T -> T) (e : T) np vn (v buf : nat -> list T) : 1 <= np ->
  (forall p, p < np -> length (v p) = vn /\ length (buf p) = vn) ->
  always_returns (map (fun p => comm_allreduce op np p vn (v p) (buf p)) (seq 0 np))
    (map (fun _ => map (fun i => eval op e (fun q _ _ => nth i (v q) e) (halving np 0 np)) (seq 0 vn)) (seq 0 np)).
Proof. exact (allreduce_any op e np vn v buf). Qed.
Print Assumptions C61_comm_allreduce.
(** comm_reduce: each process reduces its own numbers from left to right, starting with the identity. *)
Theorem C61_comm_reduce {T} (op : T -> T -> T) (e : T) np (inp buf : nat -> list T) : 1 <= np -> (forall p, p < np -> length (buf p) = 1) ->
  always_returns (map (fun p => comm_reduce op e np p (inp p) (length (inp p)) (buf p)) (seq 0 np))
    (map (fun _ => eval op e (fun q _ _ => fold_left op (inp q) e) (halving np 0 np)) (seq 0 np)).
Proof. exact (reduce_any op e np inp buf). Qed.
Print Assumptions C61_comm_reduce.
(** comm_dot: each process adds up its products from left to right, starting with zero. *)
Theorem C61_comm_dot {A} (zero : A) (add mul : A -> A -> A) np (v w : nat -> list A) (n : nat -> nat) (b : nat -> A) : 1 <= np ->
  (forall p, p < np -> n p <= length (v p) /\ n p <= length (w p)) ->
  always_returns (map (fun p => comm_dot A zero add mul np p (v p) (w p) (n p) (b p)) (seq 0 np))
    (map (fun _ => eval add zero (fun q _ _ => fold_left add (map (fun x => mul (fst x) (snd x)) (firstn (n q) (combine (v q) (w q)))) zero) (halving np 0 np)) (seq 0 np)).
Proof. exact (dot_any zero add mul np v w n b). Qed.
Print Assumptions C61_comm_dot.

(** Halving uses every process once, in their order, and passes each value through at most log2 np operations, rounded up. *)
Theorem C61_order np : 1 <= np -> map (fun c => fst (fst c)) (leaves (halving np 0 np)) = seq 0 np.
Proof. intros H. apply halving_leaves; auto. Qed.
Theorem C61_depth np : depth (halving np 0 np) <= Nat.log2_up np.
Proof. apply halving_depth, log2_up_pow. Qed.
Print Assumptions C61_order.
Print Assumptions C61_depth.

(** Rounded addition and multiplication, with relative error at most eps: the error of comm_allreduce grows with the logarithm of the number of
    processes. *)
Theorem C61_rounding (op : R -> R -> R) (eps : R) np vn (v buf : nat -> list R) :
  (0 <= eps)%R -> (forall a b, Rabs (op a b - (a + b)) <= eps * Rabs (a + b))%R -> 1 <= np ->
  (forall p, p < np -> length (v p) = vn /\ length (buf p) = vn) ->
  exists w, length w = vn /\
  always_returns (map (fun p => comm_allreduce op np p vn (v p) (buf p)) (seq 0 np)) (map (fun _ => w) (seq 0 np)) /\
  forall i, i < vn -> let V := map (fun q => nth i (v q) 0%R) (seq 0 np) in
    (Rabs (nth i w 0 - fold_right Rplus 0 V) <= ((1 + eps) ^ Nat.log2_up np - 1) * fold_right Rplus 0 (map Rabs V))%R.
Proof.
  intros He Ho Hnp Hl. eexists. split; [|split; [exact (C61_comm_allreduce op 0%R np vn v buf Hnp Hl)|]]; [rewrite map_length, seq_length; auto|].
  intros i Hi V. set (f := fun i => eval op 0%R (fun q _ _ : nat => nth i (v q) 0%R) (halving np 0 np)).
  rewrite (nth_indep _ 0%R (f 0)) by (rewrite map_length, seq_length; auto). rewrite map_nth, seq_nth by auto. cbn [Nat.add]. unfold f.
  pose proof (halving_near eps He op Ho 0%R (fun q => nth i (v q) 0%R) (fun q => nth i (v q) 0%R) (fun q => Rabs (nth i (v q) 0%R)) 0 (Nat.log2_up np) np 0 np Hnp (le_n np) (log2_up_pow np) (fun q _ => near_exact eps _)) as [_ B].
  rewrite Nat.add_0_r in B. unfold V. rewrite map_map. exact B.
Qed.
Print Assumptions C61_rounding.
(** comm_dot of at most N numbers per process. *)
Theorem C61_comm_dot_rounding (add mul : R -> R -> R) (eps : R) np (v w : nat -> list R) (n : nat -> nat) (b : nat -> R) N :
  (0 <= eps)%R -> (forall a b, Rabs (add a b - (a + b)) <= eps * Rabs (a + b))%R -> (forall a b, Rabs (mul a b - a * b) <= eps * Rabs (a * b))%R ->
  1 <= np -> (forall p, p < np -> n p <= length (v p) /\ n p <= length (w p) /\ n p <= N) ->
  exists s, always_returns (map (fun p => comm_dot R 0%R add mul np p (v p) (w p) (n p) (b p)) (seq 0 np)) (map (fun _ => s) (seq 0 np)) /\
  let V := concat (map (fun q => map (fun x => (fst x * snd x)%R) (firstn (n q) (combine (v q) (w q)))) (seq 0 np)) in
    (Rabs (s - fold_right Rplus 0 V) <= ((1 + eps) ^ (Nat.log2_up np + (N + 1)) - 1) * fold_right Rplus 0 (map Rabs V))%R.
Proof.
  intros He Ha Hm Hnp Hl. eexists. split; [apply (C61_comm_dot 0%R add mul np v w n b Hnp); intros p Hp; split; apply (Hl p Hp)|].
  intros V. set (l := fun q => firstn (n q) (combine (v q) (w q))).
  assert (Rs : forall L : list (list R), fold_right Rplus 0%R (concat L) = fold_right Rplus 0%R (map (fold_right Rplus 0%R) L)).
  { induction L as [|x L IH]; auto. cbn. rewrite <- IH, fold_right_app. generalize (fold_right Rplus 0%R (concat L)). intros c. clear. induction x; cbn; lra. }
  destruct (halving_near eps He add Ha 0%R (fun q => fold_left add (map (fun x => mul (fst x) (snd x)) (l q)) 0%R)
    (fun q => fold_right Rplus 0%R (map (fun x => (fst x * snd x)%R) (l q))) (fun q => fold_right Rplus 0%R (map Rabs (map (fun x => (fst x * snd x)%R) (l q)))) (N + 1) (Nat.log2_up np) np 0 np Hnp (le_n np) (log2_up_pow np)) as [_ B].
  - intros q Hq. destruct (Hl q) as (L1 & L2 & L3); [lia|]. apply (dot_near eps He add Ha mul Hm).
    unfold l. rewrite firstn_length. lia.
  - unfold V. rewrite concat_map, !Rs, !map_map. exact B.
Qed.
Print Assumptions C61_comm_dot_rounding.

(** Five processes: ((v0 v1) (v2 (v3 v4))); subtraction of 1, 2, 3, 4, 5 this way gives -1 - (3 - -1) = -5. *)
Example ex_halving : halving 5 0 5 = Combine (Combine (Value 0 0 0) (Value 1 0 0)) (Combine (Value 2 0 0) (Combine (Value 3 0 0) (Value 4 0 0))).
Proof. reflexivity. Qed.
Example ex_allreduce : always_returns (map (fun p => comm_allreduce Z.sub 5 p 1 [Z.of_nat p + 1]%Z [99%Z]) (seq 0 5)) (map (fun _ => [-5]%Z) (seq 0 5)).
Proof.
  exact (C61_comm_allreduce Z.sub 0%Z 5 1 (fun p => [Z.of_nat p + 1]%Z) (fun _ => [99%Z]) ltac:(lia) (fun _ _ => conj eq_refl eq_refl)).
Qed.
