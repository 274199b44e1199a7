(** make_topology_unique: its result, and gs_unique. *)
From Verif Require Import Base BaseLemmas SortSpec SortLemmas Transfer GsTop GsSpec ListLemmas GsSortProof GsTopProof1 GsTopProof2 GsTopProof4
  GsCrProof4 GsPwProof1 GsPwProof2 GsPwProof3 GsRunProof GsSetupProof GsUniqueProof1 GsUniqueProof2.
From Coq Require Import Permutation Sorting.Sorted.

Section Unique.
Variable usize lsize INT_MAX np : nat.
Variable ids : nat -> list Z.
Hypothesis fits : setup_fits usize lsize INT_MAX np ids.
Variable p : nat.
Hypothesis Hp : p < np.
Notation l := (ids p).
Notation owns := (owns np ids).
Notation parts x := (partners np ids x p).
Notation shares := (sharing np ids p).
Notation run := (run np ids p).
Notation newrun := (newrun np ids p).

Definition shl : list nat := filter shares (labels l).

Lemma size_fit q : q < np -> 2 * length (ids q) <= ulim usize.
Proof. intros Hq. apply (sf_ids _ _ _ _ _ fits q Hq). Qed.
Lemma usize_lim : 1 < ulim usize.
Proof. pose proof (ulim_256 usize (sf_us _ _ _ _ _ fits)). lia. Qed.

Lemma prim_fit q x : q < np -> has (ids q) x = true -> prim (ids q) x < ulim usize.
Proof. intros Hq Hh. apply prim_lt in Hh. pose proof (size_fit q Hq). pose proof usize_lim. lia. Qed.
Lemma label_fit' x : has l x = true -> x < ulim lsize.
Proof. intros Hh. apply (label_fit _ _ _ _ _ fits p) in Hh; auto. unfold ULONG_MAX in Hh. lia. Qed.

Lemma sort_nz nz : Permutation nz (nz_rows l) -> sort_by usize lsize [KU z_i] nz = Ok (rows0 l).
Proof.
  intros P. destruct (sort_by_1 usize lsize (KU z_i) nz) as (B & E & SB).
  - intros r Hr. apply (Permutation_in _ P) in Hr. apply in_nz_rows in Hr as (i & Hi & _ & ->). cbn. pose proof (size_fit p Hp). pose proof usize_lim. lia.
  - rewrite E. f_equal. cbn [key_fun] in SB. apply (sort_distinct z_i _ _ _ SB).
    + rewrite P. apply nz_rows0.
    + apply (proj2 (StronglySorted_map z_i lt _)). unfold rows0. rewrite map_map. cbn [row0 z_i]. rewrite map_id. apply indices_sorted.
Qed.

Lemma sh_spec_run : sh_spec np ids p = flat_map run (labels l).
Proof. reflexivity. Qed.
Lemma run_labels : flat_map run (labels l) = flat_map run shl.
Proof. symmetry. apply flat_filter. intros x _ Hs. unfold GsUniqueProof2.run. rewrite (parts_nil _ _ _ _ Hs). auto. Qed.
Lemma newrun_labels : flat_map newrun (labels l) = flat_map newrun shl.
Proof. symmetry. apply flat_filter. intros x _ Hs. unfold GsUniqueProof2.newrun. rewrite (parts_nil _ _ _ _ Hs). auto. Qed.

Lemma in_parts' x q : In q (parts x) <-> q < np /\ exchange ids x p q = true.
Proof. apply in_partners. Qed.

Lemma sort_sh sh : Permutation sh (sh_spec np ids p) -> sort_by usize lsize [KU s_i; KU s_p] sh = Ok (flat_map run (labels l)).
Proof.
  intros P.
  assert (IN : forall s, In s sh -> exists x q, In x (labels l) /\ q < np /\ s = GsUniqueProof2.row ids p x q).
  { intros s Hs. apply (Permutation_in _ P) in Hs. rewrite sh_spec_run in Hs. apply in_flat_map in Hs as (x & Hx & Hs). apply in_map_iff in Hs as (q & <- & Hq).
    apply in_parts' in Hq as [Hq _]. eauto. }
  pose proof (sf_np _ _ _ _ _ fits) as NP.
  destruct (sort_by_2 usize lsize (KU s_i) (KU s_p) np sh) as (B & E & SB).
  - intros s Hs. apply IN in Hs as (x & q & Hx & Hq & ->). cbn. apply in_labels in Hx as [_ Hx]. apply prim_fit; auto.
  - intros s Hs. apply IN in Hs as (x & q & Hx & Hq & ->). cbn. lia.
  - intros s Hs. apply IN in Hs as (x & q & Hx & Hq & ->). cbn. auto.
  - rewrite E. f_equal. cbn [key_fun] in SB. eapply sort_distinct; [exact SB|exact P|].
    apply (SS_flat_map _ _ (fun x y => prim l x < prim l y)).
    + apply labels_sorted.
    + intros x _. apply (proj2 (StronglySorted_map (fun s => s_i s * np + s_p s) lt _)). unfold GsUniqueProof2.run. rewrite map_map. cbn [GsUniqueProof2.row s_i s_p].
      apply (proj1 (StronglySorted_map (fun q => prim l x * np + q) lt _)).
      pose proof (parts_sorted np ids p x) as SS. induction SS as [|a m SS IH HF]; constructor; auto. eapply Forall_impl; [|exact HF]. cbn. intros; lia.
    + intros x y a b Hxy Ha Hb. apply in_map_iff in Ha as (q & <- & Hq), Hb as (r & <- & Hr). apply in_parts' in Hq as [Hq _], Hr as [Hr _].
      cbn [GsUniqueProof2.row s_i s_p]. nia.
Qed.

Lemma newrun_ne x : In x shl -> newrun x <> [] /\ forall s, In s (newrun x) -> s_i s = prim l x /\ s_id s = x /\ s_local s = negb (owns x p).
Proof.
  intros Hx. apply filter_In in Hx as [Hx Hs]. apply in_labels in Hx as [Hx Hh]. split.
  - apply (shares_iff np ids p Hp) in Hs as (q & Hq & He). pose proof He as He'. apply exchange_iff in He' as (_ & Hhq & Npq & HF).
    assert (O : exists r, owns x r = true).
    { apply andb_false_iff in HF as [HF|HF]; [apply (owner_exists np ids x p)|apply (owner_exists np ids x q)]; auto. }
    destruct O as [r Or]. unfold GsUniqueProof2.newrun. intros E. apply map_eq_nil in E.
    destruct (Nat.eq_dec r p) as [->|N].
    + assert (Hin : In q (filter (fun q => owns x p || owns x q) (parts x))) by (apply filter_In; rewrite Or; split; auto; apply in_parts'; auto).
      rewrite E in Hin. destruct Hin.
    + apply owns_holder in Or as Or'. destruct Or' as [Hr Fr].
      assert (Hin : In r (filter (fun q => owns x p || owns x q) (parts x))).
      { apply filter_In. rewrite Or, orb_true_r. split; auto. apply in_parts'. split; auto. apply exchange_iff.
        repeat split; auto; [eapply unflagged_has; eauto|]. rewrite Fr. apply andb_false_r. }
      rewrite E in Hin. destruct Hin.
  - intros s Hin. unfold GsUniqueProof2.newrun in Hin. apply in_map_iff in Hin as (q & <- & _). auto.
Qed.

Definition zs : list nat := filter (fun x => has l x && shares x) (seq 1 (ulim lsize)).
Lemma in_zs x : In x zs <-> In x shl.
Proof.
  unfold zs, shl. rewrite !filter_In, in_seq, in_labels, andb_true_iff. split; [intuition lia|]. intros [[H1 H2] H3]. split; auto. pose proof (label_fit' x H2). lia.
Qed.
Lemma zs_sorted : StronglySorted lt zs.
Proof. apply StronglySorted_filter, StronglySorted_seq. Qed.
Lemma zs_shl : Permutation zs shl.
Proof. apply NoDup_Permutation; [apply StronglySorted_lt_NoDup, zs_sorted|apply NoDup_filter, labels_NoDup|]. apply in_zs. Qed.

Lemma filter_newrun k x : In x shl -> filter (fun s => s_id s =? k) (newrun x) = if x =? k then newrun x else [].
Proof.
  intros Hx. destruct (newrun_ne x Hx) as [_ HN]. destruct (Nat.eqb_spec x k) as [->|N].
  - apply filter_true_all. intros s Hs. apply Nat.eqb_eq. apply HN; auto.
  - apply filter_nil_all. intros s Hs. apply Nat.eqb_neq. destruct (HN s Hs) as (_ & -> & _). auto.
Qed.
Lemma one_block {X} (f : nat -> list X) k xs : NoDup xs -> In k xs -> flat_map (fun x => if x =? k then f x else []) xs = f k.
Proof.
  induction xs as [|x xs IH]; intros ND Hin; [destruct Hin|]. inversion ND as [|? ? NI ND']; subst. cbn [flat_map]. destruct (Nat.eqb_spec x k) as [->|N].
  - rewrite flat_map_nil, app_nil_r; auto. intros y Hy. destruct (Nat.eqb_spec y k) as [->|]; auto. tauto.
  - destruct Hin as [|Hin]; [congruence|]. apply IH; auto.
Qed.

Lemma sort_new : sort_by usize lsize [KL s_id] (flat_map newrun shl) = Ok (flat_map newrun zs).
Proof.
  assert (IN : forall s, In s (flat_map newrun shl) -> In (s_id s) shl).
  { intros s Hs. apply in_flat_map in Hs as (x & Hx & Hs). apply (proj2 (newrun_ne x Hx)) in Hs as (_ & -> & _). auto. }
  destruct (sort_by_1 usize lsize (KL s_id) (flat_map newrun shl)) as (B & E & SB).
  - intros s Hs. apply IN in Hs. cbn. unfold shl in Hs. apply filter_In in Hs as [Hs _]. apply in_labels in Hs as [_ Hs]. apply label_fit'; auto.
  - rewrite E. f_equal. cbn [key_fun] in SB. rewrite (stable_sort_groups s_id (flat_map newrun shl) B zs zs_sorted); auto.
    + apply flat_map_ext_in. intros k Hk. apply in_zs in Hk. rewrite filter_flat_map. erewrite flat_map_ext_in; [|intros x Hx; apply filter_newrun; auto].
      apply one_block; auto. apply NoDup_filter, labels_NoDup.
    + intros s Hs. apply in_zs. auto.
Qed.

Lemma runs_new : runs_of (length (flat_map newrun zs)) (flat_map newrun zs) = map newrun zs.
Proof.
  apply (runs_of_blocks (prim l)); auto.
  - apply map_NoDup_inj; [|apply StronglySorted_lt_NoDup, zs_sorted]. intros x y Hx Hy E. apply in_zs in Hx, Hy. apply filter_In in Hx as [Hx _], Hy as [Hy _].
    apply in_labels in Hx as [_ Hx], Hy as [_ Hy]. rewrite <- (prim_label _ _ Hx), E, (prim_label _ _ Hy). auto.
  - intros x Hx. apply in_zs in Hx. destruct (newrun_ne x Hx) as [A B]. split; auto. intros s Hs. apply B; auto.
Qed.
Lemma runs_old : runs_of (length (flat_map run (labels l))) (flat_map run (labels l)) = map run shl.
Proof.
  rewrite run_labels. apply (runs_of_blocks (prim l)); auto.
  - apply map_NoDup_inj; [|apply NoDup_filter, labels_NoDup]. intros x y Hx Hy E. apply filter_In in Hx as [Hx _], Hy as [Hy _].
    apply in_labels in Hx as [_ Hx], Hy as [_ Hy]. rewrite <- (prim_label _ _ Hx), E, (prim_label _ _ Hy). auto.
  - intros x Hx. apply filter_In in Hx as [_ Hs]. split.
    + apply (shares_iff np ids p Hp) in Hs as (q & Hq & He). unfold GsUniqueProof2.run. intros E. apply map_eq_nil in E.
      assert (Hin : In q (parts x)) by (apply in_parts'; auto). rewrite E in Hin. destruct Hin.
    + intros s Hin. apply in_map_iff in Hin as (q & <- & _). auto.
Qed.

Variable ord : nat -> nat.
Definition pr0 (x : nat) : primary_shared_id := PR x (ord x) (prim l x) (only_flagged l x).
Definition pr1 (x : nat) : primary_shared_id := PR x (ord x) (prim l x) (negb (owns x p)).
Lemma sort_pr pr : Permutation pr (pr_spec np ids ord p) -> sort_by usize lsize [KL p_id] pr = Ok (map pr0 zs).
Proof.
  intros P. change (pr_spec np ids ord p) with (map pr0 shl) in P.
  destruct (sort_by_1 usize lsize (KL p_id) pr) as (B & E & SB).
  - intros r Hr. apply (Permutation_in _ P) in Hr. apply in_map_iff in Hr as (x & <- & Hx). cbn. apply filter_In in Hx as [Hx _]. apply in_labels in Hx as [_ Hx]. apply label_fit'; auto.
  - rewrite E. f_equal. cbn [key_fun] in SB. apply (sort_distinct p_id _ _ _ SB).
    + rewrite P. apply Permutation_map. symmetry. apply zs_shl.
    + apply (proj2 (StronglySorted_map p_id lt _)). rewrite map_map. cbn [pr0 p_id]. rewrite map_id. apply zs_sorted.
Qed.
Lemma match_ok ys : (forall x, In x ys -> In x shl) -> match_flags (map newrun ys) (map pr0 ys) = Ok (map pr1 ys).
Proof.
  induction ys as [|x ys IH]; intros Hy; cbn [map match_flags]; auto.
  destruct (newrun_ne x (Hy x (or_introl eq_refl))) as [NE HN]. destruct (newrun x) as [|s b] eqn:E; [congruence|].
  rewrite IH by (intros; apply Hy; right; auto). cbn [bind]. destruct (HN s (or_introl eq_refl)) as (_ & _ & ->). auto.
Qed.

Theorem make_unique_ok N top id : topology_ok np ids ord N p top -> (forall a, id = Some a -> length a = length l) ->
  exists top', make_topology_unique usize lsize p top id = Ok (top', option_map (fun a => negs l (losers np ids p (labels l)) (negs l (nonprims l) a)) id) /\
    t_total top' = N /\ t_nz top' = flat_map (grp2 np ids p) (labels l) /\ Permutation (t_sh top') (flat_map newrun (labels l)) /\
    Permutation (t_pr top') (map pr1 shl).
Proof.
  intros [T1 T2 T3 T4] Hid. unfold make_topology_unique.
  rewrite (sort_nz (t_nz top)) by (rewrite T2; auto). cbn [bind].
  unfold rows0. rewrite (flag_nonprimaries_eq l); auto; [|intros i Hi; apply in_indices in Hi; tauto]. cbn [bind]. fold (nonprims l).
  rewrite (sorted1 l usize lsize) by (apply size_fit; auto). cbn [bind]. rewrite (sort_sh _ T3). cbn [bind]. rewrite runs_old.
  destruct (assign_all np ids p Hp (labels l) (labels_NoDup l)) with (passed := @nil nonzero_id) (R := @nil nonzero_id)
    (id := option_map (negs l (nonprims l)) id) (out := @nil shared_id) as (P' & Q' & E1 & E2).
  - intros y Hy. apply in_labels; auto.
  - intros r [].
  - intros a Ea. destruct id as [a0|]; [|discriminate]. injection Ea as <-. rewrite negs_length. auto.
  - cbn [app] in E1, E2. unfold shl. rewrite E1. cbn [bind]. fold shl. rewrite sort_new. cbn [bind]. rewrite (sort_pr _ T4). cbn [bind].
    rewrite runs_new, match_ok by (intros x Hx; apply in_zs; auto). cbn [bind].
    eexists. split; [f_equal; f_equal; destruct id; reflexivity|]. cbn [t_total t_nz t_sh t_pr]. split; auto. split; auto. split.
    + rewrite newrun_labels. apply Permutation_flat_map. apply zs_shl.
    + apply Permutation_map, zs_shl.
Qed.

(** The ids after gs_unique. *)
Lemma unique_ids_eq : negs l (losers np ids p (labels l)) (negs l (nonprims l) l) = unique_ids_of np ids p.
Proof.
  apply (nth_ext _ _ 0%Z 0%Z).
  - rewrite !negs_length. unfold unique_ids_of. rewrite map_length, seq_length. auto.
  - intros j Hj. rewrite !negs_length in Hj.
    assert (NL : forall i, In i (nonprims l) -> i < length l) by (intros i Hi; apply filter_In in Hi as [Hi _]; apply in_indices in Hi; tauto).
    assert (LL : forall i, In i (losers np ids p (labels l)) -> i < length l).
    { intros i Hi. apply in_map_iff in Hi as (x & <- & Hx). apply filter_In in Hx as [Hx _]. apply in_labels in Hx as [_ Hx]. apply prim_lt; auto. }
    rewrite negs_nth; rewrite ?negs_length; auto. rewrite negs_nth; auto.
    unfold unique_ids_of. match goal with |- context [map ?g (seq 0 _)] => set (f := g) end. rewrite (nth_indep (map f (seq 0 (length l))) 0%Z (f 0)) by (rewrite map_length, seq_length; auto).
    rewrite map_nth, seq_nth by auto. cbn [plus]. unfold f. clear f. set (x := label_at l j). pose proof (has_label l j Hj) as Hh. fold x in Hh.
    destruct (existsb (Nat.eqb j) (losers np ids p (labels l))) eqn:EL.
    { apply existsb_exists in EL as (i & Hi & E). apply Nat.eqb_eq in E. subst i. apply in_map_iff in Hi as (y & Ey & Hy). apply filter_In in Hy as [Hy Hs].
      apply in_labels in Hy as [_ Hy]. apply andb_true_iff in Hs as [_ Hs]. apply negb_true_iff in Hs.
      assert (x = y) by (unfold x; rewrite <- Ey; apply prim_label; auto). subst y. rewrite Hs. auto. }
    assert (NLo : ~ In j (losers np ids p (labels l))).
    { intros Hin. apply not_true_iff_false in EL. apply EL. apply existsb_exists. exists j. split; auto. apply Nat.eqb_refl. }
    destruct (existsb (Nat.eqb j) (nonprims l)) eqn:EN.
    { apply existsb_exists in EN as (i & Hi & E). apply Nat.eqb_eq in E. subst i. apply filter_In in Hi as [_ Hi]. apply negb_true_iff, Nat.eqb_neq in Hi. fold x in Hi.
      destruct (Nat.eqb_spec (prim l x) j); [congruence|]. rewrite andb_false_r. auto. }
    assert (NNp : ~ In j (nonprims l)).
    { intros Hin. apply not_true_iff_false in EN. apply EN. apply existsb_exists. exists j. split; auto. apply Nat.eqb_refl. }
    change (nth j l 0%Z) with (id_at l j).
    destruct (Nat.eq_dec x 0) as [Ex|Nx].
    { rewrite Ex. destruct (_ && _); cbn; unfold x, label_at in Ex; lia. }
    assert (Ep : prim l x = j).
    { destruct (Nat.eq_dec j (prim l x)) as [|N]; auto. exfalso. apply NNp. unfold nonprims. apply filter_In. split.
      - apply in_indices. split; auto. unfold nonzero. apply negb_true_iff, Nat.eqb_neq; auto.
      - apply negb_true_iff, Nat.eqb_neq. auto. }
    rewrite Ep, Nat.eqb_refl, andb_true_r.
    assert (IDF : forall b, is_flagged l j = b -> id_at l j = if b then (- Z.of_nat x)%Z else Z.of_nat x).
    { intros b Eb. unfold is_flagged in Eb. unfold x, label_at. destruct b; [apply Z.ltb_lt in Eb|apply Z.ltb_ge in Eb]; lia. }
    pose proof (prim_flag l x Hh) as PF. rewrite Ep in PF. rewrite (IDF _ PF).
    destruct (shares x) eqn:Es.
    + destruct (owns x p) eqn:Eo.
      * apply owns_holder in Eo as [_ ->]. auto.
      * exfalso. apply NLo. unfold losers. apply in_map_iff. exists x. split; auto. apply filter_In. split; [apply in_labels; auto|]. rewrite Es, Eo. auto.
    + rewrite (alone np ids p Hp x Hh Es). destruct (only_flagged l x); auto.
Qed.
End Unique.
