(** Correctness of the iterative merge sort model. *)
From Verif Require Import Base BaseLemmas Sort SortSpec SortLemmas.
From Coq Require Import Sorted.
From Coq Require Import ZifyBool ZifyNat.
Ltac Zify.zify_post_hook ::= Z.to_euclidean_division_equations.

Definition slice {D} (b n : nat) (l : list D) : list D := firstn n (skipn b l).

Section SliceLemmas.
Context {D : Type}.
Implicit Types l : list D.

Lemma slice_length b n l : b + n <= length l -> length (slice b n l) = n.
Proof. intros; unfold slice. rewrite firstn_length, skipn_length. lia. Qed.

Lemma skipn_skipn' a b l : skipn a (skipn b l) = skipn (b + a) l.
Proof. revert l; induction b as [|b IH]; intros l; simpl; auto. destruct l; auto. apply skipn_nil. Qed.

Lemma slice_decomp b n l : l = firstn b l ++ slice b n l ++ skipn (b + n) l.
Proof.
  unfold slice. rewrite <- skipn_skipn', firstn_skipn, firstn_skipn. auto.
Qed.

Lemma nth_error_firstn' n l i : i < n -> nth_error (firstn n l) i = nth_error l i.
Proof. revert l i; induction n as [|n IH]; intros [|a l] [|i] H; simpl; auto; try lia. apply IH; lia. Qed.

Lemma nth_error_skipn' n l i : nth_error (skipn n l) i = nth_error l (n + i).
Proof. revert l; induction n as [|n IH]; intros [|a l]; simpl; auto. destruct i; auto. Qed.

Lemma nth_error_slice b n l i : i < n -> nth_error (slice b n l) i = nth_error l (b + i).
Proof. intros; unfold slice. rewrite nth_error_firstn', nth_error_skipn'; auto. Qed.

Lemma nth_error_slice_oob b n l i : n <= i -> nth_error (slice b n l) i = None.
Proof. intros; unfold slice. apply nth_error_None. rewrite firstn_length; lia. Qed.

Lemma slice_ext b n l1 l2 :
  (forall j, b <= j < b + n -> nth_error l1 j = nth_error l2 j) ->
  slice b n l1 = slice b n l2.
Proof.
  intros H; apply nth_error_ext; intros i. destruct (le_lt_dec n i).
  - rewrite !nth_error_slice_oob; auto.
  - rewrite !nth_error_slice by auto. apply H; lia.
Qed.

Lemma slice_app b n m l : slice b (n + m) l = slice b n l ++ slice (b + n) m l.
Proof.
  apply nth_error_ext; intros i.
  destruct (le_lt_dec (length l) (b + n)) as [Hl|Hl].
  - assert (slice (b + n) m l = []) as ->.
    { unfold slice. rewrite skipn_all2 by auto. apply firstn_nil. }
    rewrite app_nil_r. destruct (le_lt_dec n i).
    + rewrite (nth_error_slice_oob b n) by auto. destruct (le_lt_dec (n + m) i).
      * apply nth_error_slice_oob; auto.
      * rewrite nth_error_slice by auto. apply nth_error_None; lia.
    + rewrite !nth_error_slice by lia; auto.
  - destruct (le_lt_dec n i).
    + rewrite nth_error_app2 by (rewrite slice_length; lia). rewrite slice_length by lia.
      destruct (le_lt_dec (n + m) i).
      * rewrite !nth_error_slice_oob by lia; auto.
      * rewrite !nth_error_slice by lia. f_equal; lia.
    + rewrite nth_error_app1 by (rewrite slice_length; lia).
      rewrite !nth_error_slice by lia; auto.
Qed.

Lemma slice_mid P M Q : slice (length P) (length M) (P ++ M ++ Q : list D) = M.
Proof.
  unfold slice. rewrite skipn_app, Nat.sub_diag, skipn_all. simpl.
  rewrite firstn_app, Nat.sub_diag, firstn_all. simpl. apply app_nil_r.
Qed.
End SliceLemmas.

Section MS.
Context {D : Type} (lt : D -> D -> bool) (SW : strict_weak lt).

Lemma merge_2_stable v0 v1 :
  let '(p0, p1) := merge_2 lt v0 v1 in stable lt [v0; v1] [p0; p1].
Proof.
  unfold merge_2. pose proof (stable_merge lt SW _ _ _ _ (stable_single lt v0) (stable_single lt v1)) as H.
  simpl in H. destruct (lt v1 v0); auto.
Qed.

Lemma merge_3_stable v0 v1 v2 :
  let '(p0, p1, p2) := merge_3 lt v0 v1 v2 in stable lt [v0; v1; v2] [p0; p1; p2].
Proof.
  unfold merge_3.
  pose proof (stable_merge lt SW _ _ _ _ (stable_single lt v0) (stable_single lt v1)) as H01.
  pose proof (stable_merge lt SW _ _ _ _ H01 (stable_single lt v2)) as H.
  simpl in H. destruct (lt v1 v0) eqn:E10; simpl in H.
  - destruct (lt v2 v1) eqn:E21; auto. destruct (lt v2 v0) eqn:E20; auto.
  - destruct (lt v2 v0) eqn:E20; auto. destruct (lt v2 v1) eqn:E21; auto.
Qed.

Lemma copy_tail_ok (L : list D) : forall fuel (P G Q PA QA : list D),
  L <> [] -> length G = length L -> length L <= fuel ->
  ms_copy_tail fuel (PA ++ L ++ QA) (P ++ G ++ Q) (length P) (length PA) (length PA + length L)
  = Ok (P ++ L ++ Q).
Proof.
  induction L as [|x L IH]; intros fuel P G Q PA QA HL HG Hf; [congruence|].
  destruct G as [|g G]; [discriminate|]. destruct fuel as [|fuel]; [simpl in Hf; lia|].
  cbn [ms_copy_tail].
  erewrite rd_ok; [|rewrite nth_error_app2, Nat.sub_diag by auto; reflexivity]. cbn [bind].
  rewrite wr_ok by (rewrite !app_length; simpl; lia). cbn [bind].
  rewrite upd_app_r, Nat.sub_diag by auto. simpl upd.
  destruct L as [|x' L].
  - destruct G; [|discriminate]. simpl length.
    destruct (Nat.eqb_spec (S (length PA)) (length PA + 1)); [|lia]. auto.
  - destruct (Nat.eqb_spec (S (length PA)) (length PA + length (x :: x' :: L)));
      [simpl in *; lia|].
    specialize (IH fuel (P ++ [x]) G Q (PA ++ [x]) QA).
    rewrite !app_length in IH.
    replace (length P + length [x]) with (S (length P)) in IH by (simpl; lia).
    replace (length PA + length [x]) with (S (length PA)) in IH by (simpl; lia).
    rewrite <- !app_assoc in IH. simpl in IH. simpl.
    replace (length PA + S (S (length L))) with (S (length PA) + S (length L)) by lia.
    apply IH; [discriminate| simpl in HG; lia | simpl in Hf; lia].
Qed.

Lemma ms_merge_ok : forall (L R : list D) fuel (P G Q PA QA : list D),
  L <> [] -> R <> [] -> length G = length L -> length L + length R <= fuel ->
  ms_merge lt fuel (PA ++ L ++ QA) (P ++ G ++ R ++ Q) (length P) (length PA)
     (length PA + length L) (length P + length L) (length P + length L + length R)
  = Ok (P ++ mergeL lt L R ++ Q).
Proof.
  intros L R; apply (merge_ind lt (fun L R => forall fuel P G Q PA QA,
  L <> [] -> R <> [] -> length G = length L -> length L + length R <= fuel ->
  ms_merge lt fuel (PA ++ L ++ QA) (P ++ G ++ R ++ Q) (length P) (length PA)
     (length PA + length L) (length P + length L) (length P + length L + length R)
  = Ok (P ++ mergeL lt L R ++ Q))); clear L R; try congruence.
  - intros x L y R E IH fuel P G Q PA QA HL HR HG Hf.
    destruct G as [|g G]; [discriminate|]. destruct fuel as [|fuel]; [simpl in Hf; lia|].
    cbn [ms_merge].
    erewrite rd_ok; [|rewrite app_assoc, nth_error_app2;
       [rewrite app_length, HG, Nat.sub_diag; reflexivity|rewrite app_length, HG; auto]].
    cbn [bind].
    erewrite rd_ok; [|rewrite nth_error_app2, Nat.sub_diag by auto; reflexivity]. cbn [bind].
    rewrite E.
    rewrite wr_ok by (rewrite !app_length; simpl; lia). cbn [bind].
    rewrite upd_app_r, Nat.sub_diag by auto. simpl upd.
    destruct R as [|y' R].
    + destruct (Nat.eqb_spec (S (length P + length (x :: L))) (length P + length (x :: L) + length [y]));
        [|simpl in *; lia].
      pose proof (copy_tail_ok (x :: L) (length PA + length (x :: L) - length PA) (P ++ [y]) (G ++ [y]) Q PA QA) as C.
      rewrite !app_length in C. simpl length in C.
      replace (length P + 1) with (S (length P)) in C by lia.
      rewrite <- !app_assoc in C. simpl in C. simpl. rewrite C; [|discriminate| simpl in HG; lia | lia].
      rewrite E. auto.
    + destruct (Nat.eqb_spec (S (length P + length (x :: L))) (length P + length (x :: L) + length (y :: y' :: R)));
        [simpl in *; lia|].
      specialize (IH fuel (P ++ [y]) (G ++ [y]) Q PA QA).
      rewrite !app_length in IH.
      replace (length P + length [y]) with (S (length P)) in IH by (simpl; lia).
      rewrite <- !app_assoc in IH. rewrite mergeL_cons, E.
      simpl app.
      replace (S (length P + length (x :: L))) with (S (length P) + length (x :: L)) by lia.
      replace (length P + length (x :: L) + length (y :: y' :: R))
        with (S (length P) + length (x :: L) + length (y' :: R)) by (simpl; lia).
      simpl app in IH. etransitivity; [apply IH|]; auto; try discriminate; simpl in *; lia.
  - intros x L y R E IH fuel P G Q PA QA HL HR HG Hf.
    destruct G as [|g G]; [discriminate|]. destruct fuel as [|fuel]; [simpl in Hf; lia|].
    cbn [ms_merge].
    erewrite rd_ok; [|rewrite app_assoc, nth_error_app2;
       [rewrite app_length, HG, Nat.sub_diag; reflexivity|rewrite app_length, HG; auto]].
    cbn [bind].
    erewrite rd_ok; [|rewrite nth_error_app2, Nat.sub_diag by auto; reflexivity]. cbn [bind].
    rewrite E.
    rewrite wr_ok by (rewrite !app_length; simpl; lia). cbn [bind].
    rewrite upd_app_r, Nat.sub_diag by auto. simpl upd.
    rewrite mergeL_cons, E.
    destruct L as [|x' L].
    + destruct G; [|discriminate].
      destruct (Nat.eqb_spec (S (length PA)) (length PA + length [x])); [|simpl in *; lia]. auto.
    + destruct (Nat.eqb_spec (S (length PA)) (length PA + length (x :: x' :: L)));
        [simpl in *; lia|].
      specialize (IH fuel (P ++ [x]) G Q (PA ++ [x]) QA).
      rewrite !app_length in IH.
      replace (length P + length [x]) with (S (length P)) in IH by (simpl; lia).
      replace (length PA + length [x]) with (S (length PA)) in IH by (simpl; lia).
      rewrite <- !app_assoc in IH. simpl app in IH. simpl app.
      replace (length PA + length (x :: x' :: L)) with (S (length PA) + length (x' :: L)) by (simpl; lia).
      replace (length P + length (x :: x' :: L)) with (S (length P) + length (x' :: L)) by (simpl; lia).
      etransitivity; [apply IH|]; auto; try discriminate; simpl in *; lia.
Qed.

Lemma ms_merge_slice : forall na nb base (ba bb : list D),
  1 <= na -> 1 <= nb -> base + na <= length ba -> base + na + nb <= length bb ->
  ms_merge lt (na + nb) ba bb base base (base + na) (base + na) (base + na + nb) =
  Ok (firstn base bb ++ mergeL lt (slice base na ba) (slice (base + na) nb bb)
        ++ skipn (base + na + nb) bb).
Proof.
  intros na nb base ba bb Ha Hb Hla Hlb.
  pose proof (ms_merge_ok (slice base na ba) (slice (base + na) nb bb) (na + nb)
     (firstn base bb) (slice base na bb) (skipn (base + na + nb) bb)
     (firstn base ba) (skipn (base + na) ba)) as H.
  rewrite <- slice_decomp in H.
  replace (firstn base bb ++ slice base na bb ++ slice (base + na) nb bb ++
           skipn (base + na + nb) bb) with bb in H.
  2:{ rewrite (slice_decomp base (na + nb) bb) at 1. rewrite slice_app, <- app_assoc.
      rewrite Nat.add_assoc. auto. }
  rewrite !slice_length, !firstn_length, !Nat.min_l in H by lia.
  apply H; auto.
  - intros C. assert (Hx : length (slice base na ba) = na) by (apply slice_length; lia).
    rewrite C in Hx; simpl in Hx; lia.
  - intros C. assert (Hx : length (slice (base + na) nb bb) = nb) by (apply slice_length; lia).
    rewrite C in Hx; simpl in Hx; lia.
Qed.

Lemma ms_descend_fuel n : forall f1 f2 odd c b, n <= f1 -> n <= f2 ->
  ms_descend f1 n odd c b = ms_descend f2 n odd c b.
Proof.
  induction n as [n IH] using lt_wf_ind; intros f1 f2 odd c b H1 H2.
  destruct f1 as [|f1]; destruct f2 as [|f2]; cbn [ms_descend]; auto.
  - destruct (Nat.ltb_spec 3 n); auto; lia.
  - destruct (Nat.ltb_spec 3 n); auto; lia.
  - destruct (Nat.ltb_spec 3 n); auto. apply IH; lia.
Qed.

Definition getb (b : bool) (x0 x1 : list D) := if b then x1 else x0.

Variable setval : nat -> res D.
Variable vals : list D.
Hypothesis Hset : forall j v, nth_error vals j = Some v -> setval j = Ok v.

Definition run1 (f : nat) (s : mstate) : res mstate :=
  if m_c s =? 0 then Ok s else s' <- ms_process lt setval s ;; ms_loop lt f setval s'.

Definition desc (i n odd c : nat) (b : bool) (base : Z) (b0 b1 : list D) : mstate :=
  let '(n', odd', c', b') := ms_descend n n odd c b in MS i n' odd' c' b' base b0 b1.

Definition frame (base n : nat) (l l' : list D) : Prop :=
  length l' = length l /\
  forall j, j < base \/ base + n <= j -> nth_error l' j = nth_error l j.

Lemma frame_refl base n l : frame base n l l.
Proof. split; auto. Qed.

Lemma frame_sub base n base' n' l l' :
  frame base' n' l l' -> base <= base' -> base' + n' <= base + n -> frame base n l l'.
Proof. intros [H1 H2] Ha Hb; split; auto. intros j Hj; apply H2; lia. Qed.

Lemma frame_trans base n l1 l2 l3 : frame base n l1 l2 -> frame base n l2 l3 -> frame base n l1 l3.
Proof. intros [H1 H2] [H3 H4]; split; [congruence|]. intros j Hj; rewrite H4, H2; auto. Qed.

Lemma frame_replace base (M : list D) l : base + length M <= length l ->
  frame base (length M) l (firstn base l ++ M ++ skipn (base + length M) l).
Proof.
  intros H; split.
  - rewrite !app_length, firstn_length, skipn_length; lia.
  - intros j Hj. assert (E : length (firstn base l) = base) by (rewrite firstn_length; lia).
    destruct Hj as [Hj|Hj].
    + rewrite nth_error_app1 by lia. apply nth_error_firstn'; auto.
    + rewrite nth_error_app2, nth_error_app2, nth_error_skipn' by lia. f_equal; lia.
Qed.

Lemma run1_loop f s : ms_loop lt (S f) setval s = run1 f (ms_select s).
Proof. reflexivity. Qed.

Lemma upd2_replace base p0 p1 (l : list D) : base + 2 <= length l ->
  upd (upd l base p0) (base + 1) p1 = firstn base l ++ [p0; p1] ++ skipn (base + 2) l.
Proof.
  intros H. rewrite (slice_decomp base 2 l) at 1.
  assert (E : length (firstn base l) = base) by (rewrite firstn_length; lia).
  pose proof (slice_length base 2 l H) as HS.
  destruct (slice base 2 l) as [|a [|b [|]]]; try discriminate.
  rewrite upd_app_r by lia. rewrite E, Nat.sub_diag. simpl.
  rewrite upd_app_r by lia. rewrite E. replace (base + 1 - base) with 1 by lia. auto.
Qed.

Lemma upd3_replace base p0 p1 p2 (l : list D) : base + 3 <= length l ->
  upd (upd (upd l base p0) (base + 1) p1) (base + 2) p2
  = firstn base l ++ [p0; p1; p2] ++ skipn (base + 3) l.
Proof.
  intros H. rewrite (slice_decomp base 3 l) at 1.
  assert (E : length (firstn base l) = base) by (rewrite firstn_length; lia).
  pose proof (slice_length base 3 l H) as HS.
  destruct (slice base 3 l) as [|a [|b [|c [|]]]]; try discriminate.
  rewrite upd_app_r by lia. rewrite E, Nat.sub_diag. simpl.
  rewrite upd_app_r by lia. rewrite E. replace (base + 1 - base) with 1 by lia. simpl.
  rewrite upd_app_r by lia. rewrite E. replace (base + 2 - base) with 2 by lia. auto.
Qed.

Lemma slice_replace base (M : list D) l : base + length M <= length l ->
  slice base (length M) (firstn base l ++ M ++ skipn (base + length M) l) = M.
Proof.
  intros H. assert (E : length (firstn base l) = base) by (rewrite firstn_length; lia).
  rewrite <- E at 1. apply slice_mid.
Qed.

Lemma node_ok : forall n, 2 <= n -> exists k, k <= 2 * n - 2 /\
  forall i odd c b base b0 b1,
  1 <= c -> base + n <= length b0 -> base + n <= length b1 -> i + n <= length vals ->
  exists b0' b1',
    (forall f, run1 (k + f) (desc i n odd c b (Z.of_nat base) b0 b1)
             = ms_loop lt f setval (MS (i + n) n odd c b (Z.of_nat base) b0' b1')) /\
    frame base n b0 b0' /\ frame base n b1 b1' /\
    stable lt (slice i n vals) (slice base n (getb b b0' b1')).
Proof.
  induction n as [n IH] using lt_wf_ind; intros Hn.
  destruct (le_lt_dec n 3) as [Hn3|Hn3].
  - (* leaves *)
    exists 0; split; [lia|]. intros i odd c b base b0 b1 Hc Hl0 Hl1 Hv.
    assert (Hdesc : desc i n odd c b (Z.of_nat base) b0 b1 = MS i n odd c b (Z.of_nat base) b0 b1).
    { unfold desc. destruct n as [|n']; auto. cbn [ms_descend].
      destruct (Nat.ltb_spec 3 (S n')); auto; lia. }
    rewrite Hdesc. clear Hdesc.
    pose proof (slice_length i n vals Hv) as HSV.
    assert (Hn' : n = 2 \/ n = 3) by lia. destruct Hn' as [->| ->].
    + destruct (slice i 2 vals) as [|v0 [|v1 [|]]] eqn:ES; try discriminate.
      assert (H0 : setval i = Ok v0).
      { apply Hset. replace i with (i + 0) by lia. rewrite <- (nth_error_slice i 2) by lia.
        rewrite ES; auto. }
      assert (H1 : setval (i + 1) = Ok v1).
      { apply Hset. rewrite <- (nth_error_slice i 2) by lia. rewrite ES; auto. }
      pose proof (merge_2_stable v0 v1) as HM. destruct (merge_2 lt v0 v1) as [p0 p1] eqn:EM.
      pose (new l := firstn base l ++ [p0; p1] ++ skipn (base + 2) l).
      exists (if b then b0 else new b0), (if b then new b1 else b1).
      split; [|split; [|split]].
      * intros f. unfold run1. simpl m_c. destruct (Nat.eqb_spec c 0); [lia|].
        unfold ms_process. destruct (Z.ltb_spec (Z.of_nat base) 0); [lia|].
        rewrite Nat2Z.id. simpl Nat.eqb. cbv iota. rewrite H0, H1. cbn [bind]. rewrite EM.
        destruct b; rewrite wr_ok by lia; cbn [bind]; rewrite wr_ok by (rewrite upd_length; lia);
          cbn [bind]; rewrite upd2_replace by lia; auto.
      * destruct b; [apply frame_refl|]. apply (frame_replace base [p0; p1]); simpl; lia.
      * destruct b; [|apply frame_refl]. apply (frame_replace base [p0; p1]); simpl; lia.
      * unfold getb, new. destruct b; rewrite (slice_replace base [p0; p1]) by (simpl; lia); auto.
    + destruct (slice i 3 vals) as [|v0 [|v1 [|v2 [|]]]] eqn:ES; try discriminate.
      assert (H0 : setval i = Ok v0).
      { apply Hset. replace i with (i + 0) by lia. rewrite <- (nth_error_slice i 3) by lia.
        rewrite ES; auto. }
      assert (H1 : setval (i + 1) = Ok v1).
      { apply Hset. rewrite <- (nth_error_slice i 3) by lia. rewrite ES; auto. }
      assert (H2 : setval (i + 2) = Ok v2).
      { apply Hset. rewrite <- (nth_error_slice i 3) by lia. rewrite ES; auto. }
      pose proof (merge_3_stable v0 v1 v2) as HM. destruct (merge_3 lt v0 v1 v2) as [[p0 p1] p2] eqn:EM.
      pose (new l := firstn base l ++ [p0; p1; p2] ++ skipn (base + 3) l).
      exists (if b then b0 else new b0), (if b then new b1 else b1).
      split; [|split; [|split]].
      * intros f. unfold run1. simpl m_c. destruct (Nat.eqb_spec c 0); [lia|].
        unfold ms_process. destruct (Z.ltb_spec (Z.of_nat base) 0); [lia|].
        rewrite Nat2Z.id. simpl Nat.eqb. cbv iota. rewrite H0, H1, H2. cbn [bind]. rewrite EM.
        destruct b; rewrite wr_ok by lia; cbn [bind]; rewrite wr_ok by (rewrite upd_length; lia);
          cbn [bind]; rewrite wr_ok by (rewrite !upd_length; lia); cbn [bind];
          rewrite upd3_replace by lia; auto.
      * destruct b; [apply frame_refl|]. apply (frame_replace base [p0; p1; p2]); simpl; lia.
      * destruct b; [|apply frame_refl]. apply (frame_replace base [p0; p1; p2]); simpl; lia.
      * unfold getb, new. destruct b; rewrite (slice_replace base [p0; p1; p2]) by (simpl; lia); auto.
  - (* internal nodes *)
    pose (nl := n / 2). pose (nr := nl + n mod 2).
    assert (Enl : nl = n / 2) by auto. assert (Enr : nr = n / 2 + n mod 2) by auto.
    assert (Enr' : nr = (n + 1) / 2) by lia.
    assert (Ent : n = nl + nr) by lia.
    destruct (IH nl) as [k1 [Hk1 IH1]]; [lia|lia|].
    destruct (IH nr) as [k2 [Hk2 IH2]]; [lia|lia|]. clear IH.
    exists (k1 + S (k2 + 1)); split; [lia|].
    intros i odd c b base b0 b1 Hc Hl0 Hl1 Hv.
    destruct (IH1 i (2 * odd + n mod 2) (2 * c) (negb b) base b0 b1)
      as (b0a & b1a & Run1 & F01 & F11 & St1); try lia.
    destruct F01 as [Len0a Fr0a]. destruct F11 as [Len1a Fr1a].
    destruct (IH2 (i + nl) (2 * odd + n mod 2) (2 * c + 1) b (base + nl) b0a b1a)
      as (b0b & b1b & Run2 & F02 & F12 & St2); try lia.
    pose proof F02 as F02'. pose proof F12 as F12'.
    destruct F02' as [Len0b Fr0b]. destruct F12' as [Len1b Fr1b].
    pose (bb := getb b b0b b1b). pose (ba := getb (negb b) b0b b1b).
    pose (M := mergeL lt (slice base nl ba) (slice (base + nl) nr bb)).
    pose (new := firstn base bb ++ M ++ skipn (base + n) bb).
    assert (HbbL : base + n <= length bb) by (unfold bb, getb; destruct b; lia).
    assert (HbaL : base + n <= length ba) by (unfold ba, getb; destruct b; simpl; lia).
    assert (HM : length M = n).
    { unfold M. rewrite mergeL_length, !slice_length; lia. }
    exists (if b then b0b else new), (if b then new else b1b).
    assert (FrameNew : frame base n bb new).
    { unfold new. rewrite <- HM. apply frame_replace; lia. }
    assert (St1' : stable lt (slice i nl vals) (slice base nl ba)).
    { replace (slice base nl ba) with (slice base nl (getb (negb b) b0a b1a)); auto.
      apply slice_ext. intros j Hj. unfold ba, getb. destruct b; simpl.
      - symmetry; apply Fr0b; lia.
      - symmetry; apply Fr1b; lia. }
    split; [|split; [|split]].
    + intros f.
      assert (Hdesc : desc i n odd c b (Z.of_nat base) b0 b1 =
                      desc i nl (2 * odd + n mod 2) (2 * c) (negb b) (Z.of_nat base) b0 b1).
      { unfold desc. destruct n as [|n']; [lia|]. cbn [ms_descend].
        destruct (Nat.ltb_spec 3 (S n')); [|lia].
        rewrite (ms_descend_fuel (S n' / 2) n' nl) by lia. auto. }
      rewrite Hdesc, <- Nat.add_assoc, Run1. clear Hdesc.
      replace (S (k2 + 1) + f) with (S (k2 + S f)) by lia.
      rewrite run1_loop.
      assert (Hsel : ms_select (MS (i + nl) nl (2 * odd + n mod 2) (2 * c) (negb b) (Z.of_nat base) b0a b1a)
               = desc (i + nl) nr (2 * odd + n mod 2) (2 * c + 1) b (Z.of_nat (base + nl)) b0a b1a).
      { unfold ms_select, desc. cbn [m_c m_odd m_n m_base m_i m_b m_buf0 m_buf1].
        destruct (Nat.eqb_spec ((2 * c) mod 2) 0); [|lia].
        replace ((2 * odd + n mod 2) mod 2) with (n mod 2) by lia.
        replace (nl + n mod 2) with nr by lia. rewrite negb_involutive.
        rewrite <- Nat2Z.inj_add. reflexivity. }
      rewrite Hsel. rewrite Run2. clear Hsel. rewrite run1_loop.
      assert (Hsel : ms_select (MS (i + nl + nr) nr (2 * odd + n mod 2) (2 * c + 1) b
                        (Z.of_nat (base + nl)) b0b b1b)
               = MS (i + n) n odd c b (Z.of_nat base) b0b b1b).
      { unfold ms_select. cbn [m_c m_odd m_n m_base m_i m_b m_buf0 m_buf1].
        destruct (Nat.eqb_spec ((2 * c + 1) mod 2) 0); [lia|].
        replace ((2 * odd + n mod 2) mod 2) with (n mod 2) by lia.
        f_equal; lia. }
      rewrite Hsel. unfold run1. simpl m_c. destruct (Nat.eqb_spec c 0); [lia|].
      unfold ms_process. destruct (Z.ltb_spec (Z.of_nat base) 0); [lia|].
      rewrite Nat2Z.id.
      destruct (Nat.eqb_spec n 2); [lia|]. destruct (Nat.eqb_spec n 3); [lia|].
      rewrite <- Enl, <- Enr'. change (if b then b1b else b0b) with bb.
      replace (if b then b0b else b1b) with ba by (unfold ba, getb; destruct b; auto).
      rewrite ms_merge_slice by lia. cbn [bind].
      replace (base + nl + nr) with (base + n) by lia.
      fold M. fold new. destruct b; auto.
    + destruct b.
      * apply frame_trans with b0a; [split; auto; intros; apply Fr0a; lia|].
        eapply frame_sub; eauto; lia.
      * apply frame_trans with b0a; [split; auto; intros; apply Fr0a; lia|].
        apply frame_trans with b0b; [eapply frame_sub; eauto; lia|]. exact FrameNew.
    + destruct b.
      * apply frame_trans with b1a; [split; auto; intros; apply Fr1a; lia|].
        apply frame_trans with b1b; [eapply frame_sub; eauto; lia|]. exact FrameNew.
      * apply frame_trans with b1a; [split; auto; intros; apply Fr1a; lia|].
        eapply frame_sub; eauto; lia.
    + replace (getb b (if b then b0b else new) (if b then new else b1b)) with new
        by (destruct b; auto).
      assert (ESl : slice base n new = M).
      { unfold new. rewrite <- HM. apply slice_replace; lia. }
      rewrite ESl, Ent, slice_app. apply stable_merge; auto.
Qed.

Theorem merge_sort_ok n b0 b1 :
  2 <= n -> length vals = n -> length b0 = n -> length b1 = n ->
  exists out, merge_sort lt setval n b0 b1 = Ok out /\ stable lt vals out.
Proof.
  intros Hn Hv H0 H1.
  destruct (node_ok n Hn) as [k [Hk HN]].
  destruct (HN 0 0 1 false 0 b0 b1) as (b0' & b1' & Run & F0 & F1 & St); try lia.
  exists b0'. split.
  - unfold merge_sort.
    replace (2 * n + 2) with (S (k + S (2 * n - k))) by lia. rewrite run1_loop.
    assert (Hsel : ms_select (MS 0 n 0 0 true (- Z.of_nat n) b0 b1) = desc 0 n 0 1 false (Z.of_nat 0) b0 b1).
    { unfold ms_select, desc. cbn [m_c m_odd m_n m_base m_i m_b m_buf0 m_buf1]. simpl Nat.modulo. simpl Nat.eqb. cbv iota.
      rewrite Nat.add_0_r. replace (- Z.of_nat n + Z.of_nat n)%Z with (Z.of_nat 0) by lia. auto. }
    rewrite Hsel, Run. auto.
  - assert (E : slice 0 n vals = vals).
    { unfold slice. simpl. rewrite <- Hv. apply firstn_all. }
    rewrite E in St. destruct F0 as [L0 _].
    assert (E' : slice 0 n (getb false b0' b1') = b0').
    { unfold slice, getb. simpl. rewrite <- H0, <- L0. apply firstn_all. }
    rewrite E' in St. auto.
Qed.
End MS.
