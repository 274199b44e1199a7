(** More facts about lists. *)
From Verif Require Import Base BaseLemmas SortSpec SortLemmas.
From Coq Require Import Sorting.Sorted.

Lemma filter_andb {A} (f g : A -> bool) l : filter f (filter g l) = filter (fun x => g x && f x) l.
Proof. induction l as [|a l IH]; simpl; auto. destruct (g a); simpl; [destruct (f a)|]; rewrite ?IH; auto. Qed.

Lemma filter_map {A B} (f : A -> B) (g : B -> bool) l : filter g (map f l) = map f (filter (fun x => g (f x)) l).
Proof. induction l as [|a l IH]; simpl; auto. destruct (g (f a)); simpl; rewrite IH; auto. Qed.

Lemma filter_flat_map {A B} (f : A -> list B) (g : B -> bool) l :
  filter g (flat_map f l) = flat_map (fun a => filter g (f a)) l.
Proof. induction l as [|a l IH]; simpl; auto. rewrite filter_app, IH. auto. Qed.

Lemma flat_map_ext_in {A B} (f g : A -> list B) l : (forall a, In a l -> f a = g a) -> flat_map f l = flat_map g l.
Proof. intros H. induction l as [|a l IH]; simpl; auto. rewrite H by (left; auto). rewrite IH; auto. intros; apply H; right; auto. Qed.

Lemma flat_map_flat_map {A B C} (f : A -> list B) (g : B -> list C) l :
  flat_map g (flat_map f l) = flat_map (fun a => flat_map g (f a)) l.
Proof. induction l as [|a l IH]; simpl; auto. rewrite flat_map_app, IH; auto. Qed.

Lemma flat_map_map {A B C} (f : A -> B) (g : B -> list C) l : flat_map g (map f l) = flat_map (fun a => g (f a)) l.
Proof. induction l as [|a l IH]; simpl; auto. rewrite IH; auto. Qed.

Lemma map_flat_map {A B C} (f : A -> list B) (g : B -> C) l : map g (flat_map f l) = flat_map (fun a => map g (f a)) l.
Proof. induction l as [|a l IH]; simpl; auto. rewrite map_app, IH; auto. Qed.

Lemma flat_map_nil {A B} (f : A -> list B) l : (forall a, In a l -> f a = []) -> flat_map f l = [].
Proof. induction l as [|a l IH]; intros H; simpl; auto. rewrite H by (left; auto). simpl. apply IH; intros; apply H; right; auto. Qed.

(** A list split by the values of a key. *)
Lemma split_by_key {A} (key : A -> nat) ks : NoDup ks -> forall l, (forall x, In x l -> In (key x) ks) ->
  Permutation l (flat_map (fun k => filter (fun x => key x =? k) l) ks).
Proof.
  induction ks as [|k ks IH]; intros ND l H; simpl.
  - destruct l as [|x l]; auto. destruct (H x (or_introl eq_refl)).
  - apply NoDup_cons_iff in ND. destruct ND as [Hk ND].
    assert (P : Permutation l (filter (fun x => key x =? k) l ++ filter (fun x => negb (key x =? k)) l)).
    { clear. induction l as [|x l IH]; simpl; auto. destruct (key x =? k); simpl.
      - constructor; auto.
      - etransitivity; [apply perm_skip; exact IH|]. apply Permutation_middle. }
    etransitivity; [exact P|]. apply Permutation_app_head.
    etransitivity; [apply (IH ND (filter (fun x => negb (key x =? k)) l))|].
    + intros x Hx. apply filter_In in Hx. destruct Hx as [Hx Hn]. destruct (H x Hx) as [->|]; auto.
      rewrite Nat.eqb_refl in Hn. discriminate.
    + erewrite flat_map_ext_in; [reflexivity|]. intros j Hj. simpl. rewrite filter_andb. apply filter_ext.
      intros x. destruct (Nat.eqb_spec (key x) j), (Nat.eqb_spec (key x) k); auto. congruence.
Qed.

(** Comparison by a numeric key. *)
Definition nlt {A} (key : A -> nat) (x y : A) : bool := key x <? key y.
Lemma nlt_strict_weak {A} (key : A -> nat) : strict_weak (nlt key).
Proof.
  unfold nlt. constructor; intros; rewrite ?Nat.ltb_lt, ?Nat.ltb_ge in *; try lia.
Qed.
Lemma equivb_nlt {A} (key : A -> nat) x y : equivb (nlt key) x y = (key y =? key x).
Proof.
  unfold equivb, nlt. destruct (Nat.ltb_spec (key x) (key y)), (Nat.ltb_spec (key y) (key x)), (Nat.eqb_spec (key y) (key x)); simpl; auto; lia.
Qed.

Lemma StronglySorted_lt_NoDup l : StronglySorted lt l -> NoDup l.
Proof.
  induction 1 as [|a l HS IH HF]; constructor; auto. rewrite Forall_forall in HF. intros Hin. apply HF in Hin. lia.
Qed.

(** The stable sort by a key is the concatenation of the groups of equal key. *)
Lemma stable_sort_groups {A} (key : A -> nat) (l out : list A) ks : StronglySorted lt ks ->
  (forall x, In x l -> In (key x) ks) -> stably_sorts (nlt key) l out ->
  out = flat_map (fun k => filter (fun x => key x =? k) l) ks.
Proof.
  intros HS Hk H. apply (stable_iff (nlt key) (nlt_strict_weak key)) in H.
  apply (stable_unique (nlt key) (nlt_strict_weak key) l); auto.
  apply (stable_iff (nlt key) (nlt_strict_weak key)). constructor.
  - apply split_by_key; auto. apply StronglySorted_lt_NoDup; auto.
  - apply (SS_sorted_by (nlt key)). clear H Hk. induction HS as [|k ks HS IH HF]; simpl; [constructor|].
    rewrite Forall_forall in HF.
    assert (G : forall m, (forall x, In x m -> key x = k) -> SS (nlt key) (m ++ flat_map (fun k0 => filter (fun x => key x =? k0) l) ks)).
    { induction m as [|x m IHm]; intros Hm; simpl; auto. apply SS_cons; auto.
      - apply IHm. intros; apply Hm; right; auto.
      - intros y Hy. unfold ngt, nlt. apply Nat.ltb_ge. rewrite (Hm x) by (left; auto).
        apply in_app_or in Hy. destruct Hy as [Hy|Hy].
        + rewrite (Hm y) by (right; auto). lia.
        + apply in_flat_map in Hy. destruct Hy as (k0 & Hk0 & Hy). apply filter_In in Hy. destruct Hy as [_ Hy].
          apply Nat.eqb_eq in Hy. apply HF in Hk0. lia. }
    apply G. intros x Hx. apply filter_In in Hx. apply Nat.eqb_eq. tauto.
  - intros x Hx. rewrite filter_flat_map.
    assert (E : forall k, filter (equivb (nlt key) x) (filter (fun y => key y =? k) l) =
                if k =? key x then filter (equivb (nlt key) x) l else []).
    { intros k. rewrite filter_andb. destruct (Nat.eqb_spec k (key x)) as [->|Hne].
      - apply filter_ext. intros y. rewrite equivb_nlt. apply andb_diag.
      - apply filter_nil_all. intros y _. rewrite equivb_nlt.
        destruct (Nat.eqb_spec (key y) k), (Nat.eqb_spec (key y) (key x)); auto. congruence. }
    erewrite flat_map_ext_in; [|intros; apply E].
    specialize (Hk x Hx). apply StronglySorted_lt_NoDup in HS. clear -Hk HS.
    induction ks as [|k ks IH]; simpl; [destruct Hk|]. apply NoDup_cons_iff in HS. destruct HS as [Hn HS].
    destruct (Nat.eqb_spec k (key x)) as [->|Hne].
    + rewrite flat_map_nil, app_nil_r; auto. intros a Ha. destruct (Nat.eqb_spec a (key x)); auto. congruence.
    + simpl. apply IH; auto. destruct Hk; auto. congruence.
Qed.

Lemma StronglySorted_filter {A} (R : A -> A -> Prop) (f : A -> bool) l : StronglySorted R l -> StronglySorted R (filter f l).
Proof.
  induction 1 as [|a l HS IH HF]; simpl; [constructor|]. destruct (f a); auto. constructor; auto.
  rewrite Forall_forall in *. intros x Hx. apply filter_In in Hx. apply HF; tauto.
Qed.
Lemma StronglySorted_seq s n : StronglySorted lt (seq s n).
Proof.
  revert s; induction n as [|n IH]; intros s; simpl; constructor; auto.
  rewrite Forall_forall. intros x Hx. apply in_seq in Hx. lia.
Qed.

(** Two increasing lists with the same elements are equal. *)
Lemma sorted_same_elements (l1 l2 : list nat) : StronglySorted lt l1 -> StronglySorted lt l2 ->
  (forall x, In x l1 <-> In x l2) -> l1 = l2.
Proof.
  intros H1. revert l2. induction H1 as [|a l1 HS IH HF]; intros l2 H2 E.
  - destruct l2 as [|b l2]; auto. destruct (proj2 (E b)); left; auto.
  - destruct l2 as [|b l2]; [destruct (proj1 (E a)); left; auto|].
    inversion H2 as [|? ? HS2 HF2]; subst. rewrite Forall_forall in HF, HF2.
    assert (a = b).
    { destruct (proj1 (E a) (or_introl eq_refl)) as [|Ha]; auto.
      destruct (proj2 (E b) (or_introl eq_refl)) as [|Hb]; auto.
      apply HF in Hb. apply HF2 in Ha. lia. }
    subst b. f_equal. apply IH; auto. intros x; split; intros Hx.
    + destruct (proj1 (E x) (or_intror Hx)) as [->|]; auto. apply HF in Hx. lia.
    + destruct (proj2 (E x) (or_intror Hx)) as [->|]; auto. apply HF2 in Hx. lia.
Qed.

Lemma fold_left_perm {T} (op : T -> T -> T) : (forall a b, op a b = op b a) ->
  (forall a b c, op (op a b) c = op a (op b c)) ->
  forall l1 l2, Permutation l1 l2 -> forall e, fold_left op l1 e = fold_left op l2 e.
Proof.
  intros C A l1 l2 P. induction P; intros e; simpl; auto.
  - f_equal. rewrite !A, (C x y). auto.
  - rewrite IHP1. auto.
Qed.

(** The result of sorting when the keys are distinct. *)
Lemma sorted_unique {A} (key : A -> nat) B : forall C, sorted_by (nlt key) B -> Permutation B C ->
  StronglySorted (fun a b => key a < key b) C -> B = C.
Proof.
  intros C HB. apply (SS_sorted_by (nlt key)) in HB.
  revert C. induction HB as [|b B HB IH HF]; intros C P HC.
  - apply Permutation_nil in P. auto.
  - destruct HC as [|c C HC HFC]; [symmetry in P; apply Permutation_nil in P; discriminate|].
    rewrite Forall_forall in HF, HFC.
    assert (E : b = c).
    { assert (Hb : In b (c :: C)) by (eapply Permutation_in; [exact P|left; auto]).
      assert (Hc : In c (b :: B)) by (eapply Permutation_in; [symmetry; exact P|left; auto]).
      destruct Hb as [|Hb]; auto. destruct Hc as [|Hc]; auto.
      apply HFC in Hb. apply HF in Hc. unfold ngt, nlt in Hc. apply Nat.ltb_ge in Hc. lia. }
    subst c. f_equal. apply IH; auto. eapply Permutation_cons_inv; eauto.
Qed.

Lemma sort_distinct {A} (key : A -> nat) (l B C : list A) : stably_sorts (nlt key) l B -> Permutation l C ->
  StronglySorted (fun a b => key a < key b) C -> B = C.
Proof.
  intros [P S _] PC HC. apply (sorted_unique key); auto. rewrite <- P. auto.
Qed.

Lemma StronglySorted_map {A B} (f : A -> B) (R : B -> B -> Prop) l :
  StronglySorted (fun a b => R (f a) (f b)) l <-> StronglySorted R (map f l).
Proof.
  induction l as [|a l IH]; cbn [map]; split; intros H; try constructor; inversion H; subst; try (apply IH; auto).
  - rewrite Forall_forall in *. intros x Hx. apply in_map_iff in Hx. destruct Hx as (y & <- & Hy). auto.
  - rewrite Forall_forall in *. intros x Hx. apply H3. apply in_map. auto.
Qed.
