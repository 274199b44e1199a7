(** The struct sorts used by gs.c, in terms of numeric keys. *)
From Verif Require Import Base BaseLemmas Sort SortSpec SortLemmas Sarray SarraySpec SarrayProof Transfer GsTop ListLemmas.
From Coq Require Import Sorting.Sorted NArith Nnat.

Lemma stably_sorts_ext {A} (lt1 lt2 : A -> A -> bool) inp out :
  (forall x y, In x inp -> In y inp -> lt1 x y = lt2 x y) -> stably_sorts lt1 inp out -> stably_sorts lt2 inp out.
Proof.
  intros E [P S F]. constructor; auto.
  - intros i j x y Hij Hx Hy. rewrite <- E.
    + eapply S; eauto.
    + eapply Permutation_in; [symmetry; exact P|]. eapply nth_error_In; eauto.
    + eapply Permutation_in; [symmetry; exact P|]. eapply nth_error_In; eauto.
  - intros k Hk. specialize (F k Hk).
    assert (G : forall l, (forall x, In x l -> In x inp) -> filter (equivb lt2 k) l = filter (equivb lt1 k) l).
    { intros l Hl. apply filter_ext_in. intros x Hx. unfold equivb. rewrite !E; auto. }
    rewrite !G; auto. intros x Hx. eapply Permutation_in; [symmetry; exact P|]; auto.
Qed.

Definition key_fun {T} (k : key T) : T -> nat := match k with KU f => f | KL f => f end.

Section Sorts.
Variable usize lsize : nat.

Definition key_ok {T} (A : list T) (k : key T) : Prop :=
  match k with
  | KU f => forall x, In x A -> f x < ulim usize
  | KL f => forall x, In x A -> f x < ulim lsize
  end.

Lemma pow256_N D : (N.of_nat (256 ^ D) = 2 ^ (8 * N.of_nat D))%N.
Proof.
  rewrite N.pow_mul_r. change (2 ^ 8)%N with 256%N.
  induction D as [|D IH]; [reflexivity|].
  rewrite Nat.pow_succ_r', Nat2N.inj_mul, IH.
  replace (N.of_nat (S D)) with (N.succ (N.of_nat D)) by lia. rewrite N.pow_succ_r'. reflexivity.
Qed.

Lemma key_field_ok {T} (A : list T) k : key_ok A k -> field_ok A (key_field usize lsize (length A) k).
Proof.
  unfold key_field. destruct k as [f|f]; cbn [field_ok key_ok]; intros H; rewrite !repeat_length; repeat split;
    intros x Hx; rewrite <- pow256_N; apply H in Hx; unfold ulim in Hx; lia.
Qed.

Lemma key_field_lt {T} n (k : key T) x y : key_lt (key_field usize lsize n k) x y = nlt (key_fun k) x y.
Proof.
  unfold nlt. destruct k as [f|f]; simpl;
  destruct (Nat.ltb_spec (f x) (f y)); [apply N.ltb_lt|apply N.ltb_ge|apply N.ltb_lt|apply N.ltb_ge]; lia.
Qed.

Lemma sort_by_1 {T} (k : key T) A : key_ok A k ->
  exists B, sort_by usize lsize [k] A = Ok B /\ stably_sorts (nlt (key_fun k)) A B.
Proof.
  intros H. destruct (sarray_sort_ok A (repeat 0 (length A)) (map (key_field usize lsize (length A)) [k])) as (B & E & S).
  - discriminate.
  - intros f [<-|[]]. apply key_field_ok; auto.
  - apply repeat_length.
  - exists B. split; auto. eapply stably_sorts_ext; [|exact S]. intros x y _ _. cbn [map lexicographic].
    rewrite key_field_lt, andb_false_r, orb_false_r. auto.
Qed.

Lemma sort_by_2 {T} (k1 k2 : key T) M A : key_ok A k1 -> key_ok A k2 ->
  (forall x, In x A -> key_fun k2 x < M) ->
  exists B, sort_by usize lsize [k1; k2] A = Ok B /\
    stably_sorts (nlt (fun x => key_fun k1 x * M + key_fun k2 x)) A B.
Proof.
  intros H1 H2 HM. destruct (sarray_sort_ok A (repeat 0 (length A)) (map (key_field usize lsize (length A)) [k1; k2])) as (B & E & S).
  - discriminate.
  - intros f [<-|[<-|[]]]; apply key_field_ok; auto.
  - apply repeat_length.
  - exists B. split; auto. eapply stably_sorts_ext; [|exact S]. intros x y Hx Hy. cbn [map lexicographic].
    unfold equivb. rewrite !key_field_lt, andb_false_r, orb_false_r. unfold nlt.
    specialize (HM x Hx) as Mx. specialize (HM y Hy) as My.
    set (a := key_fun k1 x) in *. set (b := key_fun k1 y) in *. set (c := key_fun k2 x) in *. set (d := key_fun k2 y) in *.
    destruct (Nat.ltb_spec a b), (Nat.ltb_spec b a), (Nat.ltb_spec c d), (Nat.ltb_spec (a * M + c) (b * M + d)); simpl; auto; exfalso; nia.
Qed.

Lemma sort_by_2' {T} (k1 k2 : key T) A : key_ok A k1 -> key_ok A k2 ->
  exists B M, sort_by usize lsize [k1; k2] A = Ok B /\ (forall x, In x A -> key_fun k2 x < M) /\
    stably_sorts (nlt (fun x => key_fun k1 x * M + key_fun k2 x)) A B.
Proof.
  intros H1 H2.
  assert (HM : exists M, forall x, In x A -> key_fun k2 x < M).
  { clear. induction A as [|a A [M IH]]; [exists 0; intros x []|].
    exists (M + S (key_fun k2 a)). intros x [<-|Hx]; [lia|]. apply IH in Hx. lia. }
  destruct HM as [M HM]. destruct (sort_by_2 k1 k2 M A H1 H2 HM) as (B & E & S). eauto.
Qed.
End Sorts.
