(** Rounding error of comm_allreduce, comm_reduce and comm_dot. *)
From Coq Require Import Reals Lra.
From Verif Require Import Base BracketSpec HalvingSpec.
Local Open Scope R_scope.

Section Near.
Variable eps : R.
Hypothesis eps_pos : 0 <= eps.
(** x approximates S, whose terms have absolute values that sum up to A, after k operations. *)
Definition near (k : nat) (x S A : R) : Prop := Rabs S <= A /\ Rabs (x - S) <= ((1 + eps) ^ k - 1) * A.
Lemma pow_ge n : 1 <= (1 + eps) ^ n.
Proof. apply pow_R1_Rle. lra. Qed.
Lemma near_pos k x S A : near k x S A -> 0 <= A.
Proof. intros [H _]. pose proof (Rabs_pos S). lra. Qed.
Lemma near_le k l x S A : (k <= l)%nat -> near k x S A -> near l x S A.
Proof.
  intros L H. pose proof (near_pos _ _ _ _ H). destruct H as [H1 H2]. split; auto. eapply Rle_trans; [exact H2|]. apply Rmult_le_compat_r; auto.
  assert ((1 + eps) ^ k <= (1 + eps) ^ l) by (apply Rle_pow; [lra|auto]). lra.
Qed.
Lemma near_exact x : near 0 x x (Rabs x).
Proof. split; [lra|]. replace (x - x) with 0 by ring. rewrite Rabs_R0. cbn. pose proof (Rabs_pos x). lra. Qed.
Lemma near_round k z x S A : near k x S A -> Rabs (z - x) <= eps * Rabs x -> near (1 + k) z S A.
Proof.
  intros H E. pose proof (near_pos _ _ _ _ H) as PA. destruct H as [H1 H2]. split; auto.
  assert (X : Rabs x <= (1 + eps) ^ k * A). { replace x with ((x - S) + S) by ring. eapply Rle_trans; [apply Rabs_triang|]. lra. }
  replace (z - S) with ((z - x) + (x - S)) by ring. eapply Rle_trans; [apply Rabs_triang|]. cbn [Nat.add pow].
  assert (eps * Rabs x <= eps * ((1 + eps) ^ k * A)) by (apply Rmult_le_compat_l; auto). lra.
Qed.
Lemma near_plus k x y S S' A A' : near k x S A -> near k y S' A' -> near k (x + y) (S + S') (A + A').
Proof.
  intros [H1 H2] [H3 H4]. split; [eapply Rle_trans; [apply Rabs_triang|]; lra|].
  replace (x + y - (S + S')) with ((x - S) + (y - S')) by ring. eapply Rle_trans; [apply Rabs_triang|]. lra.
Qed.

Variable op : R -> R -> R.
Hypothesis op_err : forall a b, Rabs (op a b - (a + b)) <= eps * Rabs (a + b).
Lemma near_op k x y S S' A A' : near k x S A -> near k y S' A' -> near (1 + k) (op x y) (S + S') (A + A').
Proof. intros H H'. apply (near_round k _ (x + y)); auto. apply near_plus; auto. Qed.

(** Sums of f over a, ..., a+n-1. *)
Definition tot (f : nat -> R) (a n : nat) : R := fold_right Rplus 0 (map f (seq a n)).
Lemma tot_app f a n m : tot f a (n + m) = tot f a n + tot f (a + n) m.
Proof. unfold tot. rewrite seq_app, map_app, fold_right_app. generalize (fold_right Rplus 0 (map f (seq (a + n) m))). intros c. induction (map f (seq a n)); cbn; lra. Qed.

Lemma half_fits k n : (1 < n <= 2 ^ S k)%nat -> (n / 2 <= 2 ^ k)%nat /\ (n - n / 2 <= 2 ^ k)%nat /\ (0 < n / 2)%nat /\ (n / 2 < n)%nat.
Proof. intros [L H]. cbn [Nat.pow] in H. pose proof (Nat.div_mod n 2 ltac:(lia)). pose proof (Nat.mod_upper_bound n 2 ltac:(lia)). lia. Qed.

Lemma halving_near e (v : nat -> R) (f g : nat -> R) k0 : forall k fuel a n, (1 <= n)%nat -> (n <= fuel)%nat -> (n <= 2 ^ k)%nat ->
  (forall q, (a <= q < a + n)%nat -> near k0 (v q) (f q) (g q)) ->
  near (k + k0) (eval op e (fun q _ _ => v q) (halving fuel a n)) (tot f a n) (tot g a n).
Proof.
  induction k as [|k IH]; intros fuel a n H1 H2 H3 Hn.
  - assert (n = 1)%nat by (cbn in H3; lia). subst n. destruct fuel as [|fuel]; [lia|]. cbn [halving Nat.leb eval Nat.add]. unfold tot. cbn. rewrite !Rplus_0_r. apply Hn. lia.
  - destruct fuel as [|fuel]; [lia|]. cbn [halving]. destruct (Nat.leb_spec n 1) as [L|L].
    + assert (n = 1)%nat by lia. subst n. cbn [eval]. unfold tot. cbn [seq map fold_right]. rewrite !Rplus_0_r. apply (near_le k0); [lia|]. apply Hn. lia.
    + destruct (half_fits k n (conj L H3)) as (A & B & C & D). cbn [eval].
      assert (E : forall h, tot h a n = tot h a (n / 2) + tot h (a + n / 2)%nat (n - n / 2)) by (intros h; rewrite <- tot_app; f_equal; lia). rewrite (E f), (E g). apply near_op; apply IH; try lia; intros q Hq; apply Hn; lia.
Qed.
Lemma fold_near l : forall k acc S A, near k acc S A ->
  near (length l + k) (fold_left op l acc) (S + fold_right Rplus 0 l) (A + fold_right Rplus 0 (map Rabs l)).
Proof.
  induction l as [|x l IH]; intros k acc S A H; cbn [fold_left length Nat.add fold_right map]; [rewrite !Rplus_0_r; auto|].
  rewrite <- !Rplus_assoc. replace (Datatypes.S (length l + k)) with (length l + (1 + k))%nat by lia. apply IH.
  apply near_op; auto. apply (near_le 0); [lia|apply near_exact].
Qed.
Variable mul : R -> R -> R.
Hypothesis mul_err : forall a b, Rabs (mul a b - a * b) <= eps * Rabs (a * b).
Lemma dot_near N (l : list (R * R)) : (length l <= N)%nat ->
  near (N + 1) (fold_left op (map (fun x => mul (fst x) (snd x)) l) 0) (fold_right Rplus 0 (map (fun x => fst x * snd x) l)) (fold_right Rplus 0 (map Rabs (map (fun x => fst x * snd x) l))).
Proof.
  intros L. assert (G : forall l k acc S A, near (1 + k) acc S A ->
    near (length l + (1 + k)) (fold_left op (map (fun x => mul (fst x) (snd x)) l) acc) (S + fold_right Rplus 0 (map (fun x => fst x * snd x) l)) (A + fold_right Rplus 0 (map Rabs (map (fun x => fst x * snd x) l)))).
  { clear l L. induction l as [|x l IH]; intros k acc S A H; cbn [fold_left length Nat.add fold_right map]; [rewrite !Rplus_0_r; auto|].
    rewrite <- !Rplus_assoc. replace (Datatypes.S (length l + Datatypes.S k)) with (length l + (1 + (1 + k)))%nat by lia. apply IH.
    apply near_op; auto. apply (near_le 1); [lia|]. apply (near_round 0 _ (fst x * snd x)); [apply near_exact|apply mul_err]. }
  assert (Z : near (1 + 0) 0 0 0) by (apply (near_le 0); [lia|]; pose proof (near_exact 0) as Z; rewrite Rabs_R0 in Z; exact Z).
  specialize (G l 0%nat 0 0 0 Z). rewrite !Rplus_0_l in G. eapply near_le; [|exact G]. lia.
Qed.
End Near.

Section Shape.
Local Close Scope R_scope.
Lemma halving_leaves : forall fuel a n, 1 <= n -> n <= fuel -> map (fun c => fst (fst c)) (leaves (halving fuel a n)) = seq a n.
Proof.
  induction fuel as [|fuel IH]; intros a n H1 H2; [lia|]. cbn [halving]. destruct (Nat.leb_spec n 1) as [L|L].
  - assert (n = 1) by lia. subst n. reflexivity.
  - assert (n / 2 < n) by (apply Nat.div_lt; lia). assert (0 < n / 2) by (apply Nat.div_str_pos; lia).
    cbn [leaves]. rewrite map_app, !IH by lia. rewrite <- seq_app. f_equal. lia.
Qed.
Lemma halving_depth : forall k fuel a n, n <= 2 ^ k -> depth (halving fuel a n) <= k.
Proof.
  induction k as [|k IH]; intros fuel a n H.
  - destruct fuel; cbn [halving]; auto. cbn in H. destruct (Nat.leb_spec n 1); auto. lia.
  - destruct fuel as [|fuel]; cbn [halving]; [cbn; lia|]. destruct (Nat.leb_spec n 1) as [L|L]; [cbn; lia|].
    destruct (half_fits k n (conj L H)) as (A & B & _). cbn [depth]. pose proof (IH fuel a _ A). pose proof (IH fuel (a + n / 2) _ B). lia.
Qed.
Lemma log2_up_pow n : n <= 2 ^ Nat.log2_up n.
Proof. destruct (le_lt_dec n 1); [pose proof (Nat.pow_nonzero 2 (Nat.log2_up n)); lia|]. apply Nat.log2_up_spec. auto. Qed.
End Shape.
