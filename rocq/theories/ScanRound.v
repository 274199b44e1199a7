(** Order, depth and rounding error of comm_scan. *)
From Coq Require Import Permutation Reals Lra.
From Verif Require Import Base BracketSpec HalvingSpec HalvingRound ScanSpec.

Lemma prefix_leaves : forall fuel a n p x, n <= fuel -> a <= p < a + n ->
  Permutation (map (fun c => fst (fst c)) (leaves (prefix fuel a n p x))) (map (fun c => fst (fst c)) (leaves x) ++ seq a (p - a)).
Proof.
  induction fuel as [|fuel IH]; intros a n p x H1 H2; [lia|]. cbn [prefix]. destruct (Nat.leb_spec n 1) as [L|L].
  - replace (p - a) with 0 by lia. rewrite app_nil_r. apply Permutation_refl.
  - assert (n / 2 < n) by (apply Nat.div_lt; lia). assert (0 < n / 2) by (apply Nat.div_str_pos; lia).
    destruct (Nat.ltb_spec p (a + n / 2)) as [B|B]; [apply IH; lia|].
    eapply Permutation_trans; [apply IH; lia|]. cbn [leaves]. rewrite map_app, halving_leaves by lia.
    replace (p - a) with (n / 2 + (p - (a + n / 2))) by lia. rewrite seq_app, app_assoc. apply Permutation_app_tail, Permutation_app_comm.
Qed.
Lemma prefix_depth : forall k fuel a n p x, n <= 2 ^ k -> depth (prefix fuel a n p x) <= k + Nat.max (k - 1) (depth x).
Proof.
  induction k as [|k IH]; intros fuel a n p x H.
  - destruct fuel; cbn [prefix]; [lia|]. cbn in H. destruct (Nat.leb_spec n 1); lia.
  - destruct fuel as [|fuel]; cbn [prefix]; [lia|]. destruct (Nat.leb_spec n 1) as [L|L]; [lia|].
    destruct (half_fits k n (conj L H)) as (A & B & _). destruct (p <? a + n / 2).
    + pose proof (IH fuel a _ p x A). lia.
    + pose proof (IH fuel (a + n / 2) _ p (Combine (halving (n / 2) a (n / 2)) x) B) as Q. cbn [depth] in Q.
      pose proof (halving_depth k (n / 2) a _ A). lia.
Qed.

Section Near.
Local Open Scope R_scope.
Variable eps : R.
Hypothesis eps_pos : 0 <= eps.
Variable op : R -> R -> R.
Hypothesis op_err : forall a b, Rabs (op a b - (a + b)) <= eps * Rabs (a + b).
Notation near := (near eps).
Lemma prefix_near e (v : nat -> R) : forall k fuel a n p x m S A, (n <= fuel)%nat -> (n <= 2 ^ k)%nat -> (a <= p < a + n)%nat ->
  near m (eval op e (fun q _ _ => v q) x) S A ->
  near (k + Nat.max (k - 1) m) (eval op e (fun q _ _ => v q) (prefix fuel a n p x)) (S + tot v a (p - a)) (A + tot (fun q => Rabs (v q)) a (p - a)).
Proof.
  assert (Z : forall k fuel a n p x m S A, (n <= 1)%nat -> (n <= fuel)%nat -> (a <= p < a + n)%nat -> near m (eval op e (fun q _ _ => v q) x) S A ->
    near (k + Nat.max (k - 1) m) (eval op e (fun q _ _ => v q) (prefix fuel a n p x)) (S + tot v a (p - a)) (A + tot (fun q => Rabs (v q)) a (p - a))).
  { intros k fuel a n p x m S A L F B H. replace (p - a)%nat with 0%nat by lia. unfold tot. cbn [seq map fold_right]. rewrite !Rplus_0_r.
    destruct fuel as [|fuel]; [lia|]. cbn [prefix]. destruct (Nat.leb_spec n 1); [|lia]. apply (near_le eps eps_pos m); [lia|auto]. }
  induction k as [|k IH]; intros fuel a n p x m S A F H B N.
  - apply (Z 0%nat fuel a n); auto.
  - destruct (le_lt_dec n 1) as [L|L]; [apply (Z (Datatypes.S k) fuel a n); auto|].
    destruct fuel as [|fuel]; [lia|]. cbn [prefix]. destruct (Nat.leb_spec n 1); [lia|].
    destruct (half_fits k n (conj L H)) as (A1 & A2 & A3 & A4). destruct (Nat.ltb_spec p (a + n / 2)) as [C|C].
    + eapply (near_le eps eps_pos); [|apply IH; [lia|exact A1|lia|exact N]]. lia.
    + assert (E : forall f, tot f a (p - a) = tot f a (n / 2) + tot f (a + n / 2) (p - (a + n / 2))) by (intros f; rewrite <- tot_app; f_equal; lia).
      rewrite (E v), (E (fun q => Rabs (v q))), <- !Rplus_assoc.
      eapply (near_le eps eps_pos); [|apply IH with (m := (1 + Nat.max k m)%nat); [lia|exact A2|lia|]]; [lia|].
      cbn [eval]. rewrite (Rplus_comm S), (Rplus_comm A). apply near_op; auto.
      * eapply (near_le eps eps_pos); [|exact (halving_near eps eps_pos op op_err e v v (fun q => Rabs (v q)) 0 k (n / 2) a (n / 2) A3 (le_n _) A1 (fun q _ => near_exact eps _))]. lia.
      * apply (near_le eps eps_pos m); [lia|exact N].
Qed.
End Near.
