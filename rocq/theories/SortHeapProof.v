(** Correctness of the heap sort model. *)
From Verif Require Import Base BaseLemmas Sort SortSpec SortLemmas.
From Coq Require Import ZifyBool ZifyNat.
Ltac Zify.zify_post_hook ::= Z.to_euclidean_division_equations.

Section Upd.
Context {T : Type}.
Implicit Types l : list T.

Lemma nth_upd l i j v d :
  nth j (upd l i v) d = if (i =? j) && (j <? length l) then v else nth j l d.
Proof.
  revert i j; induction l as [|a l IH]; intros [|i] [|j]; simpl; auto.
  - destruct (i =? j); auto.
  - rewrite IH. change (S i =? S j) with (i =? j). change (S j <? S (length l)) with (j <? length l).
    auto.
Qed.

Lemma nth_upd_ne l i j v d : i <> j -> nth j (upd l i v) d = nth j l d.
Proof. intros; rewrite nth_upd. destruct (Nat.eqb_spec i j); [lia|]; auto. Qed.

Lemma nth_upd_eq l i v d : i < length l -> nth i (upd l i v) d = v.
Proof. intros; rewrite nth_upd, Nat.eqb_refl. destruct (Nat.ltb_spec i (length l)); auto; lia. Qed.

Lemma list_split l i d : i < length l ->
  exists l1 l2, l = l1 ++ nth i l d :: l2 /\ length l1 = i.
Proof.
  intros H. exists (firstn i l), (skipn (S i) l). split.
  - rewrite <- (firstn_skipn i l) at 1. f_equal.
    apply skipn_cons. apply nth_error_nth'; auto.
  - rewrite firstn_length; lia.
Qed.

Lemma perm_swap_lt l i j x y d : i < j -> j < length l ->
  nth i l d = x -> nth j l d = y ->
  Permutation l (upd (upd l i y) j x).
Proof.
  intros Hij Hj Hx Hy.
  destruct (list_split l j d Hj) as (l12 & l3 & E & L12).
  assert (Hi : i < length l12) by lia.
  destruct (list_split l12 i d Hi) as (l1 & l2 & E2 & L1).
  assert (Hn : nth i l12 d = x).
  { rewrite <- Hx, E. rewrite app_nth1; auto. }
  rewrite Hn in E2. rewrite Hy in E. subst l12. rewrite app_length in L12. simpl in L12.
  assert (E3 : l = l1 ++ x :: l2 ++ y :: l3) by (rewrite E, <- app_assoc; auto).
  rewrite E3. rewrite upd_app_r by lia. replace (i - length l1) with 0 by lia. simpl.
  rewrite upd_app_r by lia. replace (j - length l1) with (S (length l2)) by lia. simpl.
  rewrite upd_app_r by lia. rewrite Nat.sub_diag. simpl.
  apply Permutation_app_head.
  change (x :: l2 ++ y :: l3) with ((x :: l2) ++ y :: l3).
  change (y :: l2 ++ x :: l3) with ((y :: l2) ++ x :: l3).
  etransitivity; [symmetry; apply Permutation_middle|].
  etransitivity; [|apply Permutation_middle]. simpl. apply perm_swap.
Qed.

(** Moving the hole from h to p. *)
Lemma perm_hole l h p x d : h <> p -> h < length l -> p < length l ->
  Permutation (upd l h x) (upd (upd l h (nth p l d)) p x).
Proof.
  intros Hne Hh Hp.
  destruct (lt_dec h p).
  - pose proof (perm_swap_lt (upd l h x) h p x (nth p l d) d) as H.
    rewrite upd_upd in H. apply H; auto; rewrite ?upd_length; auto.
    + apply nth_upd_eq; auto.
    + apply nth_upd_ne; auto.
  - pose proof (perm_swap_lt (upd l h x) p h (nth p l d) x d) as H.
    rewrite (upd_comm _ p h) in H by auto. rewrite upd_upd in H.
    apply H; auto; try lia; rewrite ?upd_length; auto.
    + apply nth_upd_ne; auto.
    + apply nth_upd_eq; auto.
Qed.
End Upd.

Section Heap.
Context {T : Type} (ltb geb : T -> T -> bool).
Hypothesis SW : strict_weak ltb.
Hypothesis Hgeb : forall a b, geb a b = negb (ltb a b).

(** x >= y *)
Definition ge (x y : T) : Prop := ltb x y = false.
Lemma ge_refl x : ge x x. Proof. apply sw_irrefl; auto. Qed.
Lemma ge_trans x y z : ge x y -> ge y z -> ge x z.
Proof. unfold ge; intros H1 H2; destruct (ltb x z) eqn:E; auto.
       destruct (sw_weak _ SW x y z E); congruence. Qed.
Lemma lt_ge x y : ltb x y = true -> ge y x.
Proof. apply (lt_asym ltb SW). Qed.

Definition heap (d : T) (m : nat) (l : list T) : Prop :=
  forall k, 1 <= k < m -> ge (nth ((k - 1) / 2) l d) (nth k l d).

Definition up_inv (d : T) (m h : nat) (B : list T) : Prop :=
  (forall k, 1 <= k < m -> k <> h -> ge (nth ((k - 1) / 2) B d) (nth k B d)) /\
  (1 <= h -> forall k, 1 <= k < m -> (k - 1) / 2 = h ->
     ge (nth ((h - 1) / 2) B d) (nth k B d)).

Lemma hs_up_ok d item m : forall fuel A h,
  1 <= h < m -> m <= length A -> h < fuel ->
  up_inv d m h (upd A h item) ->
  ltb (nth ((h - 1) / 2) A d) item = true ->
  exists A', hs_up ltb fuel A item h ((h - 1) / 2) = Ok A' /\
    heap d m A' /\ Permutation (upd A h item) A' /\ length A' = length A /\
    (forall j, m <= j -> nth j A' d = nth j A d).
Proof.
  induction fuel as [|fuel IH]; intros A h Hh Hm Hf [Ha Hb] Hlt; [lia|].
  set (p := (h - 1) / 2) in *.
  assert (Hp : p < h) by (unfold p; lia).
  set (ap := nth p A d) in *.
  set (A1 := upd A h ap). set (B := upd A h item) in *. set (B1 := upd A1 p item).
  assert (LA1 : length A1 = length A) by apply upd_length.
  assert (Nh : nth h B d = item) by (apply nth_upd_eq; lia).
  assert (NB : forall j, j <> h -> nth j B d = nth j A d) by (intros; apply nth_upd_ne; auto).
  assert (N1p : nth p B1 d = item) by (apply nth_upd_eq; lia).
  assert (N1h : nth h B1 d = ap).
  { unfold B1, A1. rewrite nth_upd_ne by lia. apply nth_upd_eq; lia. }
  assert (N1 : forall j, j <> h -> j <> p -> nth j B1 d = nth j B d).
  { intros j H1 H2. unfold B1, A1. rewrite !nth_upd_ne by auto. symmetry; auto. }
  assert (NBp : nth p B d = ap) by (apply NB; lia).
  assert (P1 : Permutation B B1) by (apply perm_hole; lia).
  assert (Ha1 : forall k, 1 <= k < m -> k <> p -> ge (nth ((k - 1) / 2) B1 d) (nth k B1 d)).
  { intros k Hk Hkp. destruct (Nat.eq_dec k h) as [->|Hkh].
    - fold p. rewrite N1p, N1h. apply lt_ge; auto.
    - rewrite (N1 k) by auto.
      destruct (Nat.eq_dec ((k - 1) / 2) h) as [Eh|Nh'].
      + rewrite Eh, N1h, <- NBp. apply Hb; auto; lia.
      + destruct (Nat.eq_dec ((k - 1) / 2) p) as [Ep|Np'].
        * rewrite Ep, N1p. apply ge_trans with ap; [apply lt_ge; auto|].
          rewrite <- NBp, <- Ep. apply Ha; auto.
        * rewrite N1 by auto. apply Ha; auto. }
  assert (Hb1 : 1 <= p -> forall k, 1 <= k < m -> (k - 1) / 2 = p ->
                ge (nth ((p - 1) / 2) B1 d) (nth k B1 d)).
  { intros Hp1 k Hk Ek. rewrite (N1 ((p - 1) / 2)) by lia.
    assert (ge (nth ((p - 1) / 2) B d) (nth p B d)) by (apply Ha; lia).
    destruct (Nat.eq_dec k h) as [->|Hkh].
    - rewrite N1h, <- NBp; auto.
    - rewrite (N1 k) by lia. apply ge_trans with (nth p B d); auto.
      rewrite <- Ek. apply Ha; auto. }
  assert (Frame : forall j, m <= j -> nth j B1 d = nth j A d).
  { intros j Hj. rewrite N1 by lia. apply NB; lia. }
  cbn [hs_up]. rewrite (rd_nth _ _ d) by lia. cbn [bind].
  fold ap. rewrite wr_ok by lia. cbn [bind]. fold A1.
  destruct (Nat.eqb_spec p 0) as [Hp0|Hp0].
  - exists B1. rewrite wr_ok by lia. unfold B1 at 1. split; auto. split; [|split; [|split]]; auto.
    + intros k Hk. apply Ha1; auto; lia.
    + unfold B1; rewrite upd_length; auto.
  - rewrite (rd_nth _ _ d) by lia. cbn [bind].
    assert (EA1 : nth ((p - 1) / 2) A1 d = nth ((p - 1) / 2) B1 d).
    { unfold B1. rewrite nth_upd_ne by lia. auto. }
    destruct (ltb (nth ((p - 1) / 2) A1 d) item) eqn:E.
    + destruct (IH A1 p) as (A' & R & Hheap & HP & HL & HF); auto; try lia.
      { split; auto. }
      exists A'. split; auto. split; [|split; [|split]]; auto.
      * etransitivity; eauto.
      * lia.
      * intros j Hj. rewrite HF by auto. unfold A1. apply nth_upd_ne; lia.
    + exists B1. rewrite wr_ok by lia. split; auto. split; [|split; [|split]]; auto.
      * intros k Hk. destruct (Nat.eq_dec k p) as [->|]; [|apply Ha1; auto].
        rewrite N1p, <- EA1. exact E.
      * unfold B1; rewrite upd_length; auto.
Qed.

Lemma hs_insert_ok d A i :
  1 <= i < length A -> heap d i A ->
  exists A', hs_insert ltb geb A i = Ok A' /\ heap d (S i) A' /\ Permutation A A' /\
    length A' = length A.
Proof.
  intros Hi Hh. unfold hs_insert.
  rewrite (rd_nth _ _ d) by lia. cbn [bind]. rewrite (rd_nth _ _ d) by lia. cbn [bind].
  rewrite Hgeb. destruct (ltb (nth ((i - 1) / 2) A d) (nth i A d)) eqn:E; simpl negb; cbv iota.
  - assert (EU : upd A i (nth i A d) = A).
    { apply upd_same. apply nth_error_nth'; lia. }
    destruct (hs_up_ok d (nth i A d) (S i) (S i) A i) as (A' & R & Hheap & HP & HL & HF); auto; try lia.
    + rewrite EU. split.
      * intros k Hk Hki. apply Hh; lia.
      * intros _ k Hk Ek. lia.
    + rewrite EU in HP. eauto.
  - exists A. split; auto. split; [|split]; auto.
    intros k Hk. destruct (Nat.eq_dec k i) as [->|]; auto. apply Hh; lia.
Qed.

Lemma hs_build_ok d A : 1 <= length A ->
  exists A', hs_build ltb geb A (length A) = Ok A' /\ heap d (length A) A' /\
    Permutation A A' /\ length A' = length A.
Proof.
  intros HA. unfold hs_build.
  assert (H : forall m, m <= length A - 1 ->
    exists A', foldM (hs_insert ltb geb) (seq 1 m) A = Ok A' /\ heap d (S m) A' /\
      Permutation A A' /\ length A' = length A).
  { induction m as [|m IH]; intros Hm.
    - exists A. split; auto. split; [|split]; auto. intros k Hk; lia.
    - destruct IH as (A1 & R1 & H1 & P1 & L1); [lia|].
      rewrite seq_S, foldM_app, R1. cbn [bind foldM].
      destruct (hs_insert_ok d A1 (S m)) as (A2 & R2 & H2 & P2 & L2); auto; [lia|].
      change (1 + m) with (S m). rewrite R2. cbn [bind].
      exists A2. split; auto. split; [|split]; auto; [etransitivity; eauto|lia]. }
  destruct (H (length A - 1)) as (A' & R & Hh & P & L); [lia|].
  replace (S (length A - 1)) with (length A) in Hh by lia. eauto.
Qed.

Lemma heap_max d m l : heap d m l -> forall k, k < m -> ge (nth 0 l d) (nth k l d).
Proof.
  intros H k; induction k as [k IH] using lt_wf_ind; intros Hk.
  destruct k as [|k]; [apply ge_refl|].
  apply ge_trans with (nth ((S k - 1) / 2) l d); [apply IH; lia|]. apply H; lia.
Qed.

Definition down_inv (d : T) (i h : nat) (B : list T) : Prop :=
  (forall k, 1 <= k < i -> (k - 1) / 2 <> h -> ge (nth ((k - 1) / 2) B d) (nth k B d)) /\
  (1 <= h -> forall k, 1 <= k < i -> (k - 1) / 2 = h ->
     ge (nth ((h - 1) / 2) B d) (nth k B d)).

Lemma hs_down_ok d item i : forall fuel A h,
  h < i -> i <= length A -> i - h < fuel ->
  down_inv d i h (upd A h item) ->
  exists A', hs_down ltb geb fuel A item i h = Ok A' /\
    heap d i A' /\ Permutation (upd A h item) A' /\ length A' = length A /\
    (forall j, i <= j -> nth_error A' j = nth_error A j).
Proof.
  induction fuel as [|fuel IH]; intros A h Hh Hi Hf [Ha Hb]; [lia|].
  set (B := upd A h item) in *.
  assert (LB : length B = length A) by apply upd_length.
  assert (Nh : nth h B d = item) by (apply nth_upd_eq; lia).
  assert (NB : forall j, j <> h -> nth j B d = nth j A d) by (intros; apply nth_upd_ne; auto).
  assert (FrameB : forall j, i <= j -> nth_error B j = nth_error A j).
  { intros j Hj. apply nth_error_upd_ne; lia. }
  cbn [hs_down].
  set (ch0 := 1 + 2 * h).
  set (chosen := if ch0 + 1 <? i then if ltb (nth ch0 A d) (nth (ch0 + 1) A d) then ch0 + 1 else ch0 else ch0).
  assert (Ech : (if ch0 + 1 <? i then
               ac <- rd A ch0 ;; ar <- rd A (ch0 + 1) ;; Ok (if ltb ac ar then ch0 + 1 else ch0)
             else Ok ch0) = Ok chosen).
  { unfold chosen. destruct (Nat.ltb_spec (ch0 + 1) i); auto.
    rewrite !(rd_nth _ _ d) by lia. reflexivity. }
  rewrite Ech. cbn [bind]. clear Ech.
  assert (Hch : chosen = ch0 \/ chosen = ch0 + 1 /\ ch0 + 1 < i).
  { unfold chosen. destruct (Nat.ltb_spec (ch0 + 1) i); auto.
    destruct (ltb (nth ch0 A d) (nth (ch0 + 1) A d)); auto. }
  assert (Hmax : forall k, 1 <= k < i -> (k - 1) / 2 = h -> chosen < i ->
                 ge (nth chosen A d) (nth k A d)).
  { intros k Hk Ek Hc. assert (k = ch0 \/ k = ch0 + 1) as Hkc by (unfold ch0; lia).
    unfold chosen in *. destruct (Nat.ltb_spec (ch0 + 1) i).
    - destruct (ltb (nth ch0 A d) (nth (ch0 + 1) A d)) eqn:E; destruct Hkc as [-> | ->];
        try apply ge_refl; auto. apply lt_ge; auto.
    - destruct Hkc as [-> | ->]; [apply ge_refl|lia]. }
  destruct (Nat.leb_spec i chosen) as [Hci|Hci].
  - rewrite wr_ok by lia. exists B. split; auto. split; [|split; [|split]]; auto.
    intros k Hk. apply Ha; auto. unfold ch0 in *; lia.
  - rewrite (rd_nth _ _ d) by lia. cbn [bind]. rewrite Hgeb.
    assert (Hchild : (chosen - 1) / 2 = h) by (unfold ch0 in *; lia).
    destruct (ltb item (nth chosen A d)) eqn:E; simpl negb; cbv iota.
    + set (ac := nth chosen A d) in *. rewrite wr_ok by lia. cbn [bind].
      set (A1 := upd A h ac). set (B1 := upd A1 chosen item).
      assert (LA1 : length A1 = length A) by apply upd_length.
      assert (Hne : h <> chosen) by lia.
      assert (P1 : Permutation B B1) by (apply perm_hole; lia).
      assert (N1h : nth h B1 d = ac).
      { unfold B1, A1. rewrite nth_upd_ne by lia. apply nth_upd_eq; lia. }
      assert (N1c : nth chosen B1 d = item) by (apply nth_upd_eq; lia).
      assert (N1 : forall j, j <> h -> j <> chosen -> nth j B1 d = nth j B d).
      { intros j H1 H2. unfold B1, A1. rewrite !nth_upd_ne by auto. symmetry; auto. }
      assert (NBc : nth chosen B d = ac) by (apply NB; lia).
      destruct (IH A1 chosen) as (A' & R & Hheap & HP & HL & HF); auto; try lia.
      { split.
        - fold B1. intros k Hk Hpk.
          destruct (Nat.eq_dec ((k - 1) / 2) h) as [Eh|Nh'].
          + rewrite Eh, N1h. destruct (Nat.eq_dec k chosen) as [->|].
            * rewrite N1c. apply lt_ge; auto.
            * rewrite N1, NB by lia. apply Hmax; auto.
          + destruct (Nat.eq_dec k h) as [->|].
            * rewrite N1h, N1 by lia. rewrite <- NBc. apply Hb; lia.
            * rewrite !N1 by lia. apply Ha; auto.
        - fold B1. intros _ k Hk Ek. rewrite Hchild, N1h, <- NBc.
          rewrite N1 by lia. rewrite <- Ek. apply Ha; lia. }
      exists A'. split; auto. split; [|split; [|split]]; auto.
      * etransitivity; eauto.
      * lia.
      * intros j Hj. rewrite HF by auto. unfold A1. apply nth_error_upd_ne; lia.
    + rewrite wr_ok by lia. exists B. split; auto. split; [|split; [|split]]; auto.
      intros k Hk. destruct (Nat.eq_dec ((k - 1) / 2) h) as [Eh|Nh']; [|apply Ha; auto].
      rewrite Eh, Nh, NB by lia. apply ge_trans with (nth chosen A d); auto.
Qed.

(** Loop invariant of the extraction: positions >= m are final. *)
Definition fin (d : T) (m : nat) (A : list T) : Prop :=
  forall a b, a < b -> b < length A -> m <= b -> ge (nth b A d) (nth a A d).

Lemma firstn_perm (A B : list T) i :
  length A = length B -> i <= length A ->
  (forall j, i <= j -> nth_error A j = nth_error B j) -> Permutation A B ->
  Permutation (firstn i A) (firstn i B).
Proof.
  intros HL Hi HF HP.
  assert (E : skipn i A = skipn i B).
  { apply nth_error_ext. intros k.
    assert (X : forall l : list T, nth_error (skipn i l) k = nth_error l (i + k)).
    { clear. revert k; induction i as [|i IH]; intros k [|a l]; simpl; auto. destruct k; auto. }
    rewrite !X. apply HF; lia. }
  rewrite <- (firstn_skipn i A), <- (firstn_skipn i B), E in HP.
  eapply Permutation_app_inv_r; eauto.
Qed.

Lemma nth_in_firstn (d : T) l i k : k < i -> i <= length l -> In (nth k l d) (firstn i l).
Proof.
  intros Hk Hi. replace (nth k l d) with (nth k (firstn i l) d).
  - apply nth_In. rewrite firstn_length; lia.
  - rewrite <- (firstn_skipn i l) at 2. rewrite app_nth1; auto. rewrite firstn_length; lia.
Qed.

Lemma in_firstn_nth (d : T) l i x : In x (firstn i l) -> exists k, k < i /\ k < length l /\ x = nth k l d.
Proof.
  intros H. apply (In_nth _ _ d) in H as (k & Hk & <-). rewrite firstn_length in Hk.
  exists k; split; [lia|]. split; [lia|].
  rewrite <- (firstn_skipn i l) at 2. rewrite app_nth1; auto. rewrite firstn_length; lia.
Qed.

Lemma hs_extract_ok d A i :
  1 <= i < length A -> heap d (S i) A -> fin d (S i) A ->
  exists A', hs_extract ltb geb A i = Ok A' /\ heap d i A' /\ fin d i A' /\
    Permutation A A' /\ length A' = length A.
Proof.
  intros Hi Hh Hfin. unfold hs_extract.
  rewrite (rd_nth _ _ d) by lia. cbn [bind]. rewrite (rd_nth _ _ d) by lia. cbn [bind].
  rewrite wr_ok by lia. cbn [bind].
  set (item := nth i A d). set (A1 := upd A i (nth 0 A d)).
  assert (LA1 : length A1 = length A) by apply upd_length.
  set (B := upd A1 0 item).
  assert (PB : Permutation A B).
  { pose proof (perm_hole A i 0 item d) as H.
    assert (E : upd A i item = A) by (apply upd_same, nth_error_nth'; lia).
    rewrite E in H. apply H; lia. }
  assert (N0 : nth 0 B d = item) by (apply nth_upd_eq; lia).
  assert (Ni : nth i B d = nth 0 A d).
  { unfold B, A1. rewrite nth_upd_ne by lia. apply nth_upd_eq; lia. }
  assert (NB : forall j, j <> 0 -> j <> i -> nth j B d = nth j A d).
  { intros; unfold B, A1. rewrite !nth_upd_ne by auto. auto. }
  destruct (hs_down_ok d item i (S i) A1 0) as (A' & R & Hheap & HP & HL & HF); auto; try lia.
  { fold B. split; [|lia]. intros k Hk Hpk. rewrite !NB by lia. apply Hh; lia. }
  fold B in HP.
  assert (LB : length B = length A) by (unfold B; rewrite upd_length; auto).
  assert (HFB : forall j, i <= j -> nth_error B j = nth_error A' j).
  { intros j Hj. rewrite HF by auto. unfold B. apply nth_error_upd_ne; lia. }
  assert (HFn : forall j, i <= j -> nth j A' d = nth j B d).
  { intros j Hj. rewrite <- !nth_default_eq. unfold nth_default. rewrite HFB by auto. auto. }
  assert (PF : Permutation (firstn i B) (firstn i A')).
  { apply firstn_perm; auto; lia. }
  (* every element of A' in [0,i) is an element of A in [0,i] *)
  assert (Hfrom : forall a, a < i -> exists k, k <= i /\ nth a A' d = nth k A d).
  { intros a Ha. assert (In (nth a A' d) (firstn i A')) by (apply nth_in_firstn; lia).
    eapply Permutation_in in H; [|symmetry; exact PF].
    apply (in_firstn_nth d) in H as (k & Hk & Hk2 & ->).
    destruct (Nat.eq_dec k 0) as [->|].
    - exists i. split; auto.
    - exists k. split; [lia|]. apply NB; lia. }
  exists A'. split; auto. split; auto. split; [|split].
  - intros a b Hab Hb Hib. rewrite HL, LA1 in Hb. rewrite (HFn b) by auto.
    destruct (Nat.eq_dec b i) as [->|Hbi].
    + rewrite Ni. destruct (Hfrom a) as (k & Hk & ->); [lia|]. apply heap_max with (S i); auto; lia.
    + rewrite (NB b) by lia. destruct (lt_dec a i).
      * destruct (Hfrom a) as (k & Hk & ->); [lia|]. apply Hfin; lia.
      * rewrite (HFn a) by lia. destruct (Nat.eq_dec a i) as [->|].
        -- rewrite Ni. apply Hfin; lia.
        -- rewrite NB by lia. apply Hfin; lia.
  - etransitivity; eauto.
  - lia.
Qed.

Theorem heap_sortv_ok A : 1 <= length A ->
  exists A', heap_sortv ltb geb A = Ok A' /\ Permutation A A' /\ sorted_by ltb A'.
Proof.
  intros HA. destruct A as [|d A0] eqn:EA; [simpl in HA; lia|]. rewrite <- EA in *. clear EA A0.
  unfold heap_sortv.
  destruct (hs_build_ok d A HA) as (A1 & R1 & H1 & P1 & L1). rewrite R1. cbn [bind].
  assert (H : forall m A1, S m <= length A1 -> heap d (S m) A1 -> fin d (S m) A1 ->
    exists A', foldM (hs_extract ltb geb) (rev (seq 1 m)) A1 = Ok A' /\ Permutation A1 A' /\
      length A' = length A1 /\ fin d 1 A').
  { clear - SW Hgeb. induction m as [|m IH]; intros A Hm Hh Hfin.
    - exists A. simpl. auto.
    - rewrite seq_S, rev_app_distr. simpl rev. simpl app. cbn [foldM].
      destruct (hs_extract_ok d A (S m)) as (A2 & R2 & H2 & F2 & P2 & L2); auto; [lia|].
      change (1 + m) with (S m). rewrite R2. cbn [bind].
      destruct (IH A2) as (A3 & R3 & P3 & L3 & F3); auto; [lia|].
      exists A3. split; auto. split; [etransitivity; eauto|]. split; [lia|auto]. }
  destruct (H (length A - 1) A1) as (A' & R & P & L & F).
  - lia.
  - replace (S (length A - 1)) with (length A) by lia; auto.
  - intros a b Hab Hb Hm. lia.
  - exists A'. split; auto. split; [etransitivity; eauto|].
    intros i j x y Hij Hi Hj.
    assert (j < length A') by (eapply nth_error_Some_lt; eauto).
    assert (ge (nth j A' d) (nth i A' d)) by (apply F; lia).
    rewrite (nth_error_nth _ _ d Hi), (nth_error_nth _ _ d Hj) in *. auto.
Qed.
End Heap.
