(** The distributed search: the points reach every process with a candidate element, the results
    come back, and the best is kept. *)
From Verif Require Import Base BaseLemmas Sort SortSpec SortLemmas Net NetProof NetWords NetWordsProof
  Transfer TransferSpec TransferProof TransferProof2 TransferProof4 GsTop GsSpec GsSortProof GsTopProof3 GsSetupProof ListLemmas CrystalProof
  Findpts FindptsGlobal FindptsSpec
  FindptsProof1 FindptsProof2 FindptsProof3 FindptsProof5 FindptsGlobalProof1 FindptsGlobalProof2 FindptsGlobalProof4 FindptsSearchProof1.
From Coq Require Import QArith Qround Lqa Sorting.Sorted.
Open Scope nat_scope.

(** *** Lists *)
Lemma total_sum {X} np (T : nat -> list X) : total np T = sum (map (fun s => length (T s)) (seq 0 np)).
Proof. unfold total, sum. induction (seq 0 np) as [|s l IH]; cbn [map concat fold_right]; auto. rewrite app_length, IH. auto. Qed.
Lemma sum_swap (g : nat -> nat -> nat) l1 l2 :
  sum (map (fun a => sum (map (g a) l2)) l1) = sum (map (fun b => sum (map (fun a => g a b) l1)) l2).
Proof.
  unfold sum. induction l1 as [|a l1 IH]; cbn [map fold_right].
  - induction l2; cbn [map fold_right]; auto.
  - rewrite IH. clear IH. induction l2 as [|b l2 IH]; cbn [map fold_right]; auto. rewrite <- IH. lia.
Qed.
Lemma sum_one k n : k < n -> sum (map (fun r => if k =? r then 1 else 0) (seq 0 n)) = 1.
Proof.
  intros H. replace n with (k + (1 + (n - k - 1))) by lia. rewrite !seq_app, !map_app, !sum_app. cbn [seq map Nat.add].
  assert (Z : forall s m, (forall r, s <= r < s + m -> r <> k) -> sum (map (fun r => if k =? r then 1 else 0) (seq s m)) = 0).
  { clear. intros s m. revert s. induction m as [|m IH]; intros s H; cbn [seq map]; auto. unfold sum in *. cbn [fold_right].
    rewrite IH by (intros; apply H; lia). destruct (Nat.eqb_spec k s) as [->|]; auto. exfalso. apply (H s); lia. }
  rewrite !Z by (intros; lia). unfold sum. cbn [fold_right]. rewrite Nat.eqb_refl. auto.
Qed.
Lemma total_sent {X Y} np (tg : X -> nat) (f : nat -> X -> Y) A : (forall s x, s < np -> In x (A s) -> tg x < np) ->
  total np (fun r => sent_to np r tg f A) = total np A.
Proof.
  intros H. rewrite total_sum, (total_sum np A).
  rewrite (map_ext _ (fun r => sum (map (fun s => length (filter (fun x => tg x =? r) (A s))) (seq 0 np)))).
  2:{ intros r. unfold sent_to, sum. induction (seq 0 np) as [|s l IH]; cbn [map concat fold_right]; auto. rewrite app_length, map_length, IH. auto. }
  rewrite sum_swap. f_equal. apply map_ext_in. intros s Hs. apply in_seq in Hs.
  assert (Hl : forall x, In x (A s) -> tg x < np) by (intros x Hx; apply (H s); auto; lia). revert Hl. generalize (A s). clear.
  induction l as [|x l IH]; intros Hl; cbn [filter length].
  - unfold sum. induction (seq 0 np); cbn [map fold_right length]; auto.
  - rewrite <- IH by (intros; apply Hl; right; auto). rewrite <- Nat.add_1_l, <- (sum_one (tg x) np) by (apply Hl; left; auto).
    clear IH Hl. unfold sum. induction (seq 0 np) as [|r rs IHr]; cbn [map fold_right]; auto. destruct (tg x =? r); cbn [length]; lia.
Qed.
Lemma NoDup_flat_map_in {A B} (f : A -> list B) l : NoDup l -> (forall a, In a l -> NoDup (f a)) ->
  (forall a a' b, In a l -> In a' l -> In b (f a) -> In b (f a') -> a = a') -> NoDup (flat_map f l).
Proof.
  induction 1 as [|a l Ha _ IH]; intros H1 H2; cbn [flat_map]; [constructor|]. apply NoDup_app_dis.
  - apply H1. left; auto.
  - apply IH; [intros; apply H1; right; auto|]. intros; eapply H2; eauto; right; auto.
  - intros b Hb Hb'. apply in_flat_map in Hb'. destruct Hb' as (a' & Ha' & Hb'). rewrite (H2 a a' b) in Ha; auto; [left; auto|right; auto].
Qed.
Lemma NoDup_map_in {A B} (f : A -> B) l : NoDup l -> (forall a a', In a l -> In a' l -> f a = f a' -> a = a') -> NoDup (map f l).
Proof.
  induction 1 as [|a l Ha _ IH]; intros H; cbn [map]; constructor.
  - intros Hf. apply in_map_iff in Hf. destruct Hf as (a' & E & Ha'). rewrite (H a a') in Ha; auto; [left; auto|right; auto].
  - apply IH. intros; apply H; auto; right; auto.
Qed.
Lemma NoDup_of_map {A B} (f : A -> B) l : NoDup (map f l) -> NoDup l.
Proof.
  induction l as [|a l IH]; cbn [map]; intros H; [constructor|]. inversion H; subst. constructor; auto. intros Ha. apply H2. apply in_map. auto.
Qed.
Lemma NoDup_map_filter {A B} (f : A -> B) c l : NoDup (map f l) -> NoDup (map f (filter c l)).
Proof.
  induction l as [|a l IH]; cbn [map filter]; intros H; auto. inversion H; subst. destruct (c a); cbn [map]; auto. constructor; auto.
  intros Ha. apply H2. apply in_map_iff in Ha. destruct Ha as (a' & <- & Ha'). apply filter_In in Ha'. apply in_map. tauto.
Qed.
Lemma in_combine_nth {A B} (a : list A) (b : list B) : forall i x y, nth_error (combine a b) i = Some (x, y) <-> nth_error a i = Some x /\ nth_error b i = Some y.
Proof.
  revert b. induction a as [|u a IH]; intros [|v b] [|i] x y; cbn [combine nth_error]; try (split; [discriminate|intros [? ?]; discriminate]).
  - split; [intros H; injection H as -> ->; auto|intros [H1 H2]; congruence].
  - apply IH.
Qed.
Lemma in_numbered {A} (l : list A) i x : In (i, x) (combine (seq 0 (length l)) l) <-> nth_error l i = Some x.
Proof.
  assert (G : forall s, In (i, x) (combine (seq s (length l)) l) <-> s <= i /\ nth_error l (i - s) = Some x).
  { induction l as [|a l IH]; intros s; cbn [length seq combine].
    - split; [intros []|]. intros [_ H]. destruct (i - s); discriminate.
    - split.
      + intros [E|H]; [injection E as <- <-; rewrite Nat.sub_diag; auto|]. apply IH in H. destruct H as [H1 H2].
        split; [lia|]. replace (i - s) with (S (i - S s)) by lia. auto.
      + intros [H1 H2]. destruct (Nat.eq_dec i s) as [->|Hne].
        * rewrite Nat.sub_diag in H2. injection H2 as ->. left; auto.
        * right. apply IH. split; [lia|]. replace (i - s) with (S (i - S s)) in H2 by lia. auto. }
  rewrite G, Nat.sub_0_r. split; [tauto|]. intros H. split; auto. lia.
Qed.
Lemma map_fst_combine {A B} (a : list A) (b : list B) : length a = length b -> map fst (combine a b) = a.
Proof. revert b. induction a as [|u a IH]; intros [|v b] H; cbn in *; try discriminate; auto. f_equal. apply IH. lia. Qed.
Lemma concat_if {A B} (c : A -> bool) (g : A -> B) l : concat (map (fun x => if c x then [g x] else []) l) = map g (filter c l).
Proof. induction l as [|x l IH]; cbn [map concat filter]; auto. destruct (c x); cbn [app map]; rewrite IH; auto. Qed.

(** The cell of a point. *)
Section CellAt.
Variable F : doubles.
Variable rnd : Q -> Q.
Lemma digits_cell_at w n (bd : box F) x : 1 <= w -> 1 <= n -> n ^ length bd <= 256 ^ w -> convertible F rnd w n bd x ->
  cell_at F rnd n bd x (cindex n (digits F rnd n bd x)) /\
  cell_digits n (length bd) (cindex n (digits F rnd n bd x)) = digits F rnd n bd x.
Proof.
  intros w1 Hn Hl H. destruct (index_ok F rnd w w1 n bd x Hn Hl H) as (_ & A & L).
  assert (Hc : cindex n (digits F rnd n bd x) < n ^ length bd) by (rewrite <- L; apply cindex_lt; auto).
  destruct (cdo n (length bd) Hn _ Hc) as (L' & A' & C' & N').
  assert (Ed : cell_digits n (length bd) (cindex n (digits F rnd n bd x)) = digits F rnd n bd x).
  { apply (cindex_inj n); auto. congruence. }
  split; auto. split; auto. intros k xk rc Hx Hb.
  assert (Hk : k < length bd) by (eapply nth_error_Some_lt; eauto). specialize (N' k Hk). rewrite Ed in N'.
  assert (E2 : nth_error (digits F rnd n bd x) k = Some (cell_of F rnd n rc xk)).
  { unfold digits. erewrite map_nth_error; [|apply in_combine_nth; eauto]. reflexivity. }
  rewrite E2 in N'. injection N' as N'. rewrite <- N'. reflexivity.
Qed.
End CellAt.
