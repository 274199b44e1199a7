(** Setup of the pairwise method from a list of exchanged labels. *)
From Verif Require Import Base BaseLemmas Sort SortSpec Sarray Transfer KernelSpec KernelProof ListLemmas
  GsTop GsSortProof GsTopProof1 GsTopProof4 GsExec GsPwProof1.
From Coq Require Import Sorting.Sorted.

Lemma SS_app {A} (R : A -> A -> Prop) l1 l2 : StronglySorted R l1 -> StronglySorted R l2 ->
  (forall a b, In a l1 -> In b l2 -> R a b) -> StronglySorted R (l1 ++ l2).
Proof.
  induction 1 as [|a l H IH HF]; intros H2 HC; cbn [app]; auto. constructor.
  - apply IH; auto. intros x y Hx Hy. apply HC; auto. right; auto.
  - rewrite Forall_forall in *. intros x Hx. apply in_app_or in Hx as [Hx|Hx]; auto. apply HC; auto. left; auto.
Qed.
Lemma SS_flat_map {A B} (R : B -> B -> Prop) (f : A -> list B) (Q : A -> A -> Prop) l : StronglySorted Q l ->
  (forall a, In a l -> StronglySorted R (f a)) -> (forall a b x y, Q a b -> In x (f a) -> In y (f b) -> R x y) ->
  StronglySorted R (flat_map f l).
Proof.
  induction 1 as [|a l H IH HF]; intros H2 HC; cbn [flat_map]; [constructor|]. apply SS_app; auto.
  - apply H2. left; auto.
  - apply IH; auto. intros x Hx. apply H2. right; auto.
  - intros x y Hx Hy. apply in_flat_map in Hy as (b & Hb & Hy). rewrite Forall_forall in HF. eapply HC; eauto.
Qed.

Lemma filter_le {A} (f : A -> bool) l : length (filter f l) <= length l.
Proof. induction l; cbn; auto. destruct (f a); cbn; lia. Qed.
Lemma map_nth_inv {A B} (f : A -> B) l i b : nth_error (map f l) i = Some b -> exists a, nth_error l i = Some a /\ f a = b.
Proof. rewrite nth_error_map. destruct (nth_error l i); cbn; intros E; [injection E as <-; eauto|discriminate]. Qed.

(** Pairing a list with the numbers of its elements. *)
Lemma comb_gather {R V} (g : R -> nat) (i : nat) (a : nat -> V) (h : R -> V) : forall (l : list R) s,
  (forall j r, nth_error l j = Some r -> a (s + j) = h r) ->
  map (fun q => a (snd q)) (filter (fun q => fst q =? i) (combine (map g l) (seq s (length l)))) =
  map h (filter (fun r => g r =? i) l).
Proof.
  induction l as [|r l IH]; intros s Ha; cbn [length seq map combine filter fst snd]; auto.
  assert (A0 : a s = h r) by (rewrite <- (Ha 0 r eq_refl); f_equal; lia).
  assert (IH' := IH (S s) ltac:(intros j r' Hj; rewrite <- (Ha (S j) r' Hj); f_equal; lia)).
  destruct (g r =? i); cbn [map snd]; rewrite ?IH', ?A0; auto.
Qed.
Lemma comb_scatter {R} (g : R -> nat) : forall (l : list R) s j r, nth_error l j = Some r ->
  filter (fun q => snd q =? s + j) (combine (map g l) (seq s (length l))) = [(g r, s + j)].
Proof.
  induction l as [|r l IH]; intros s j r' Hj; [destruct j; discriminate|].
  cbn [length seq map combine filter fst snd]. destruct j as [|j].
  - injection Hj as <-. replace (s + 0) with s by lia. rewrite Nat.eqb_refl. f_equal.
    rewrite (filter_ext_in _ (fun _ => false)).
    + induction (combine (map g l) (seq (S s) (length l))); auto.
    + intros [a b] Hin. apply in_combine_r in Hin. apply in_seq in Hin. cbn. apply Nat.eqb_neq. lia.
  - destruct (Nat.eqb_spec s (s + S j)); [lia|]. replace (s + S j) with (S s + j) by lia. apply IH. auto.
Qed.
Lemma comb_map {A} (fi fj : A -> nat) : forall l s, map fj l = seq s (length l) ->
  map (fun x => (fi x, fj x)) l = combine (map fi l) (seq s (length l)).
Proof.
  induction l as [|a l IH]; intros s E; cbn [length seq map combine] in *; auto. injection E as E1 E2.
  rewrite (IH (S s)), E1; auto.
Qed.

Section Plan.
Variable usize lsize np : nat.
(** Label x is held by process p; held only flagged; the index of its representing entry. *)
Variable H FL : nat -> nat -> bool.
(** Processes p and q list each other for label x (argument order x p q). *)
Variable ex : nat -> nat -> nat -> bool.
Variable PI : nat -> nat -> nat.
Variable n : nat -> nat.
Notation UMAX := (UINT_MAX usize).

Definition xs (p q : nat) : list nat := filter (fun x => negb (x =? 0) && ex x p q) (seq 0 (ULONG_MAX lsize)).
Definition row (p q x : nat) : shared_id := SH x (PI p x) q (PI q x) 0 (FL x p) (FL x q).
Definition canon (p : nat) : list shared_id := flat_map (fun q => map (row p q) (xs p q)) (seq 0 np).

Record plan_ok : Prop := {
  pk_us : 1 <= usize; pk_ls : 1 <= lsize; pk_np : np < ulim usize;
  pk_n : forall p, p < np -> n p <= UMAX;
  pk_lab : forall x p, p < np -> x <> 0 -> H x p = true -> x < ULONG_MAX lsize;
  pk_pi : forall x p, p < np -> x <> 0 -> H x p = true -> PI p x < n p;
  pk_inj : forall x y p, p < np -> x <> 0 -> y <> 0 -> H x p = true -> H y p = true -> PI p x = PI p y -> x = y;
  pk_sym : forall x p q, ex x p q = ex x q p;
  pk_ex1 : forall x p q, p < np -> q < np -> ex x p q = true -> H x p = true /\ H x q = true /\ p <> q;
  pk_ex2 : forall x p q, p < np -> q < np -> x <> 0 -> H x p = true -> H x q = true -> p <> q ->
    FL x p = false \/ FL x q = false -> ex x p q = true;
  pk_size : forall p, p < np -> 2 * length (canon p) <= UMAX }.
Hypothesis ok : plan_ok.

Lemma xs_sym p q : xs p q = xs q p.
Proof. unfold xs. apply filter_ext. intros x. rewrite (pk_sym ok x p q). auto. Qed.
Lemma in_xs p q x : p < np -> q < np -> (In x (xs p q) <-> x <> 0 /\ ex x p q = true).
Proof.
  intros Hp Hq. unfold xs. rewrite filter_In, andb_true_iff, negb_true_iff, Nat.eqb_neq, in_seq. split; [tauto|].
  intros [Hx He]. split; [|split; auto]. split; [lia|]. apply (pk_ex1 ok) in He; auto. apply (pk_lab ok x p); tauto.
Qed.
Lemma ULONG_lt : ULONG_MAX lsize < ulim lsize.
Proof. pose proof (ulim_pos lsize). unfold ULONG_MAX. lia. Qed.
Lemma UINT_lt : UMAX < ulim usize.
Proof. pose proof (ulim_pos usize). unfold UINT_MAX. lia. Qed.

Lemma canon_sorted p : p < np ->
  StronglySorted (fun a b => s_p a * ulim lsize + s_id a < s_p b * ulim lsize + s_id b) (canon p).
Proof.
  intros Hp. apply (SS_flat_map _ _ lt).
  - apply StronglySorted_seq.
  - intros q _. apply (proj2 (StronglySorted_map (fun s => s_p s * ulim lsize + s_id s) lt _)). rewrite map_map. cbn [s_p s_id row].
    apply (proj1 (StronglySorted_map (fun x => q * ulim lsize + x) lt _)). unfold xs. apply StronglySorted_filter.
    apply (proj2 (StronglySorted_map (fun x => q * ulim lsize + x) lt _)).
    generalize (ULONG_MAX lsize). intros m. generalize 0. induction m as [|m IH]; intros s; cbn [seq map]; constructor; auto.
    apply Forall_forall. intros y Hy. apply in_map_iff in Hy as (z & <- & Hz). apply in_seq in Hz. lia.
  - intros a b x y Hab Hx Hy. apply in_map_iff in Hx as (u & <- & Hu), Hy as (v & <- & Hv). cbn.
    unfold xs in Hu. apply filter_In in Hu as [Hu _]. apply in_seq in Hu. pose proof ULONG_lt. nia.
Qed.

Lemma in_canon p s : p < np -> (In s (canon p) <-> exists q x, q < np /\ x <> 0 /\ ex x p q = true /\ s = row p q x).
Proof.
  intros Hp. unfold canon. rewrite in_flat_map. split.
  - intros (q & Hq & Hs). apply in_seq in Hq. apply in_map_iff in Hs as (x & <- & Hx). apply in_xs in Hx; auto; [|lia].
    exists q, x. repeat split; try tauto; lia.
  - intros (q & x & Hq & Hx & He & ->). exists q. split; [apply in_seq; lia|]. apply in_map. apply in_xs; auto.
Qed.

Lemma erase_row p q x : erase (row p q x) = row p q x.
Proof. reflexivity. Qed.
Lemma erase_canon p : map erase (canon p) = canon p.
Proof. unfold canon. rewrite map_flat_map. apply flat_map_ext. intros q. rewrite map_map. apply map_ext. reflexivity. Qed.

Lemma in_sh p sh s : Permutation (map erase sh) (canon p) -> In s sh -> In (erase s) (canon p).
Proof. intros P Hs. eapply Permutation_in; [exact P|]. apply in_map. auto. Qed.

(** What a mask selects. *)
Definition keeps (remote : bool) (x p q : nat) : bool := negb (if remote then FL x q else FL x p).
Definition ys (remote : bool) (p q : nat) : list nat := filter (fun x => keeps remote x p q) (xs p q).
Definition slots (remote : bool) (p : nat) : list (nat * nat) :=
  flat_map (fun q => map (fun x => (q, x)) (ys remote p q)) (seq 0 np).

Lemma masked_erase remote s : masked remote (erase s) = masked remote s.
Proof. unfold masked. destruct remote; auto. Qed.

Lemma filter_canon remote p : filter (fun s => negb (masked remote s)) (canon p) =
  map (fun qx => row p (fst qx) (snd qx)) (slots remote p).
Proof.
  unfold canon, slots. rewrite filter_flat_map, map_flat_map. apply flat_map_ext. intros q.
  rewrite filter_map, map_map. cbn [fst snd]. unfold ys. f_equal; apply filter_ext; intros x; unfold keeps, masked; destruct remote; auto.
Qed.

Lemma slots_le remote p : p < np -> 2 * length (slots remote p) <= UMAX.
Proof.
  intros Hp. pose proof (pk_size ok p Hp). rewrite <- (map_length (fun qx => row p (fst qx) (snd qx))), <- filter_canon.
  pose proof (filter_le (fun s => negb (masked remote s)) (canon p)). lia.
Qed.

Lemma in_slots remote p q x : p < np -> (In (q, x) (slots remote p) <->
  q < np /\ x <> 0 /\ ex x p q = true /\ keeps remote x p q = true).
Proof.
  intros Hp. unfold slots. rewrite in_flat_map. split.
  - intros (r & Hr & Hin). apply in_map_iff in Hin as (y & E & Hy). injection E as -> ->.
    unfold ys in Hy. apply filter_In in Hy as [Hy Hk]. apply in_seq in Hr. apply in_xs in Hy; auto; [|lia]. repeat split; try tauto; lia.
  - intros (Hq & Hx & He & Hk). exists q. split; [apply in_seq; lia|]. apply in_map. apply filter_In. split; auto. apply in_xs; auto.
Qed.

(** One direction of the pairwise data. *)
Definition side_ok (remote : bool) (p : nat) (c : pw_comm_data) (m : list nat) : Prop :=
  pc_msgs c = map (fun q => (q, length (ys remote p q))) (filter (fun q => negb (length (ys remote p q) =? 0)) (seq 0 np)) /\
  pc_total c = length (slots remote p) /\
  exists gs, m = encode UMAX gs /\ (forall g, In g gs -> snd g <> []) /\
    Permutation (pairs gs) (combine (map (fun qx => PI p (snd qx)) (slots remote p)) (seq 0 (length (slots remote p)))).

Lemma map_filter_erase remote l : map erase (filter (fun s => negb (masked remote s)) l) =
  filter (fun s => negb (masked remote s)) (map erase l).
Proof. rewrite filter_map. f_equal; apply filter_ext; intros s; rewrite masked_erase; auto. Qed.

Lemma side_setup remote p sh : p < np -> Permutation (map erase sh) (canon p) ->
  exists c sh1 m sh2, pw_comm_setup usize lsize remote sh = Ok (c, sh1) /\ pw_map_setup usize lsize sh1 = Ok (m, sh2) /\
    side_ok remote p c m /\ Permutation (map erase sh2) (canon p).
Proof.
  intros Hp P. pose proof ULONG_lt as UL. pose proof UINT_lt as UI.
  assert (Hin : forall s, In s sh -> s_p s < ulim usize /\ s_id s < ulim lsize /\ s_i s < ulim usize).
  { intros s Hs. apply (in_sh p) in Hs; auto. apply in_canon in Hs; auto. destruct Hs as (q & x & Hq & Hx & He & E).
    assert (s_p s = q /\ s_id s = x /\ s_i s = PI p x) as (-> & -> & ->) by (unfold erase, row in E; injection E; auto).
    apply (pk_ex1 ok) in He as (He & _); auto. pose proof (pk_lab ok x p Hp Hx He). pose proof (pk_np ok). pose proof (pk_pi ok x p Hp Hx He).
    pose proof (pk_n ok p Hp). lia. }
  destruct (sort_by_2 usize lsize (KU s_p) (KL s_id) (ulim lsize) sh) as (sh1 & E1 & S1).
  { intros s Hs. apply Hin; auto. } { intros s Hs. apply Hin; auto. } { intros s Hs. apply Hin; auto. }
  cbn [key_fun] in S1.
  assert (C1 : map erase sh1 = canon p).
  { apply (sorted_unique (fun s => s_p s * ulim lsize + s_id s)).
    - intros i j a b Hij Ha Hb. apply map_nth_inv in Ha as (a' & Ha & <-), Hb as (b' & Hb & <-).
      exact (ss_sorted _ _ _ S1 i j a' b' Hij Ha Hb).
    - rewrite <- P. apply Permutation_map. symmetry. apply S1.
    - apply canon_sorted; auto. }
  unfold pw_comm_setup. rewrite E1. cbn [bind].
  destruct (pw_assign usize remote 0 sh1) as [sh2 cnt] eqn:E2.
  destruct (pw_assign_ok usize remote sh1 0 sh2 cnt E2) as (A1 & A2 & A3 & A4).
  assert (F1 : map erase (filter (fun s => negb (masked remote s)) sh1) = map (fun qx => row p (fst qx) (snd qx)) (slots remote p))
    by (rewrite map_filter_erase, C1; apply filter_canon).
  assert (F2 : map erase (filter (fun s => negb (masked remote s)) sh2) = map (fun qx => row p (fst qx) (snd qx)) (slots remote p))
    by (rewrite map_filter_erase, A1, C1; apply filter_canon).
  assert (L1 : length (filter (fun s => negb (masked remote s)) sh1) = length (slots remote p))
    by (rewrite <- (map_length erase), F1, map_length; auto).
  assert (L2 : length (filter (fun s => negb (masked remote s)) sh2) = length (slots remote p))
    by (rewrite <- (map_length erase), F2, map_length; auto).
  rewrite L1 in A2, A3. pose proof (slots_le remote p Hp) as SL.
  destruct (sort_by_1 usize lsize (KU s_i) sh2) as (sh3 & E3 & S3).
  { intros s Hs. assert (Hs' : In (erase s) (map erase sh1)) by (rewrite <- A1; apply in_map; auto).
    apply in_map_iff in Hs' as (s' & Es & Hs'). apply (Permutation_in _ (Permutation_sym (ss_perm _ _ _ S1))) in Hs'.
    apply Hin in Hs'. unfold erase in Es. injection Es as _ Ei _ _ _ _. cbn. rewrite <- Ei. tauto. }
  eexists _, _, _, _. split; [reflexivity|]. unfold pw_map_setup. rewrite E3. cbn [bind]. split; [reflexivity|].
  assert (LV : filter (live usize) sh2 = filter (fun s => negb (masked remote s)) sh2).
  { apply filter_ext_in. intros s Hs. unfold live. destruct (masked remote s) eqn:Em; cbn [negb].
    - rewrite (A4 s Hs Em), Nat.eqb_refl. auto.
    - apply negb_true_iff, Nat.eqb_neq. intros Eb.
      assert (Hb : In (s_bi s) (map s_bi (filter (fun s => negb (masked remote s)) sh2))).
      { apply in_map. apply filter_In. rewrite Em. auto. }
      rewrite A3 in Hb. apply in_seq in Hb. lia. }
  split; [|rewrite <- (Permutation_map erase (ss_perm _ _ _ S3)), A1, C1; auto].
  split; [|split]; cbn [pc_msgs pc_total].
  - rewrite pw_messages_runs.
    replace (map s_p (filter (fun s => negb (masked remote s)) sh2)) with (map (fun s => s_p (erase s)) (filter (fun s => negb (masked remote s)) sh2))
      by (apply map_ext; reflexivity).
    rewrite <- (map_map erase s_p), F2, map_map. cbn [s_p row]. unfold slots. rewrite map_flat_map.
    rewrite (flat_map_ext _ (fun q => repeat q (length (ys remote p q)))).
    + rewrite runs_blocks; [reflexivity|apply seq_NoDup|]. intros Hin'. apply in_seq in Hin'. pose proof (pk_np ok). unfold UINT_MAX in *. lia.
    + intros q. rewrite map_map. cbn [fst]. induction (ys remote p q); cbn; auto. f_equal; auto.
  - lia.
  - destruct (proj1 (pw_map_ok usize sh3)) as (gs & Eg & Pg & Ng). exists gs. split; auto. split; auto. rewrite Pg.
    assert (PF : Permutation (filter (live usize) sh3) (filter (live usize) sh2)).
    { clear -S3. destruct S3 as [P _ _]. apply Permutation_sym in P. induction P; cbn [filter]; auto.
      - destruct (live usize x); auto.
      - destruct (live usize x), (live usize y); auto. apply perm_swap.
      - etransitivity; eauto. }
    rewrite PF, LV. rewrite (comb_map s_i s_bi _ 0) by (rewrite L2; auto). rewrite L2.
    replace (map s_i (filter (fun s => negb (masked remote s)) sh2)) with (map (fun s => s_i (erase s)) (filter (fun s => negb (masked remote s)) sh2))
      by (apply map_ext; reflexivity).
    rewrite <- (map_map erase s_i), F2, map_map. reflexivity.
Qed.

Theorem pw_setup_ok p sh : p < np -> Permutation (map erase sh) (canon p) ->
  exists d sh', pw_setup usize lsize sh = Ok (d, sh') /\ Permutation (map erase sh') (canon p) /\
    side_ok true p (pw_comm0 d) (pw_map0 d) /\ side_ok false p (pw_comm1 d) (pw_map1 d).
Proof.
  intros Hp P. destruct (side_setup true p sh Hp P) as (c0 & sh1 & m0 & sh2 & E1 & E2 & S0 & P2).
  destruct (side_setup false p sh2 Hp P2) as (c1 & sh3 & m1 & sh4 & E3 & E4 & S1 & P4).
  unfold pw_setup. rewrite E1. cbn [bind]. rewrite E2. cbn [bind]. rewrite E3. cbn [bind]. rewrite E4. cbn [bind].
  eexists _, _. split; [reflexivity|]. cbn. auto.
Qed.
End Plan.
