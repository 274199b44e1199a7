(** make_topology_unique: what it computes. *)
From Verif Require Import Base BaseLemmas SortSpec SortLemmas Transfer GsTop GsSpec ListLemmas GsSortProof GsTopProof1 GsTopProof2 GsTopProof4 GsPwProof1 GsPwProof2 GsPwProof3 GsSetupProof.
From Coq Require Import Permutation Sorting.Sorted.

(** ** Runs *)
Lemma run_of_block i blk rest : (forall s, In s blk -> s_i s = i) -> (forall s, In s rest -> s_i s <> i) -> run_of i (blk ++ rest) = (blk, rest).
Proof.
  induction blk as [|s blk IH]; intros Hb Hr; cbn [app run_of].
  - destruct rest as [|s rest]; cbn [run_of]; auto. destruct (Nat.eqb_spec (s_i s) i) as [E|]; auto. exfalso. apply (Hr s); [left|]; auto.
  - rewrite (Hb s) by (left; auto). rewrite Nat.eqb_refl, IH; auto. intros t Ht. apply Hb. right; auto.
Qed.
Lemma runs_of_blocks {X} (key : X -> nat) (blk : X -> list shared_id) xs : NoDup (map key xs) ->
  (forall x, In x xs -> blk x <> [] /\ forall s, In s (blk x) -> s_i s = key x) ->
  forall fuel, length (flat_map blk xs) <= fuel -> runs_of fuel (flat_map blk xs) = map blk xs.
Proof.
  induction xs as [|x xs IH]; intros ND Hb fuel Hf; cbn [flat_map map]; [destruct fuel; auto|].
  cbn [flat_map] in Hf. rewrite app_length in Hf. destruct (Hb x (or_introl eq_refl)) as [NE KE].
  cbn [map] in ND. inversion ND as [|? ? NI ND']; subst.
  destruct (blk x) as [|s b] eqn:Eb; [congruence|]. destruct fuel as [|fuel]; [cbn in Hf; lia|]. cbn [app runs_of].
  rewrite (KE s) by (left; auto). change (s :: b ++ flat_map blk xs) with ((s :: b) ++ flat_map blk xs). rewrite run_of_block.
  - f_equal. apply IH; auto; [intros y Hy; apply Hb; right; auto|cbn in Hf; lia].
  - intros t Ht. auto.
  - intros t Ht E. apply in_flat_map in Ht as (y & Hy & Ht). apply Hb in Ht; [|right; auto]. apply NI. rewrite <- E, Ht. apply in_map; auto.
Qed.

(** ** Writing negated labels *)
Section Negs.
Variable l : list Z.
Definition neg (a : list Z) (i : nat) : list Z := upd a i (- Z.of_nat (label_at l i))%Z.
Definition negs (is : list nat) (a : list Z) : list Z := fold_left neg is a.
Lemma negs_length is : forall a, length (negs is a) = length a.
Proof. induction is as [|i is IH]; intros a; cbn; auto. unfold negs in IH. rewrite IH. apply upd_length. Qed.
Lemma negs_nth is : forall a j, j < length a -> (forall i, In i is -> i < length a) ->
  nth j (negs is a) 0%Z = if existsb (Nat.eqb j) is then (- Z.of_nat (label_at l j))%Z else nth j a 0%Z.
Proof.
  induction is as [|i is IH]; intros a j Hj Hi; cbn [negs fold_left existsb]; auto. fold (negs is (neg a i)).
  rewrite IH; unfold neg; rewrite ?upd_length; auto; [|intros; apply Hi; right; auto].
  destruct (Nat.eqb_spec j i) as [->|N]; cbn [orb].
  - destruct (existsb _ is); auto. apply nth_error_nth. apply nth_error_upd_eq; auto.
  - destruct (existsb _ is); auto. pose proof (nth_error_upd_ne a i j (- Z.of_nat (label_at l i))%Z ltac:(auto)) as E.
    destruct (nth_error a j) as [z|] eqn:Ez; [|apply nth_error_None in Ez; lia]. rewrite (nth_error_nth _ _ 0%Z E), (nth_error_nth _ _ 0%Z Ez). auto.
Qed.
Lemma negs_app is js a : negs (is ++ js) a = negs js (negs is a).
Proof. apply fold_left_app. Qed.
End Negs.

(** ** The rows of nz *)
Section Rows.
Variable l : list Z.
Definition row0 (i : nat) : nonzero_id := NZ (label_at l i) i (is_flagged l i) (prim l (label_at l i)).
Definition nonzero (i : nat) : bool := negb (label_at l i =? 0).
Definition flag1 (r : nonzero_id) : nonzero_id := if z_i r =? z_primary r then r else NZ (z_id r) (z_i r) true (z_primary r).
(** Row i after the flagging of the non-primaries. *)
Definition row1 (i : nat) : nonzero_id := flag1 (row0 i).
Definition rows0 : list nonzero_id := map row0 (indices (length l) nonzero).

Lemma in_nz_rows r : In r (nz_rows l) <-> exists i, i < length l /\ label_at l i <> 0 /\ r = row0 i.
Proof.
  unfold nz_rows, grp, rows_of_label. rewrite in_flat_map. split.
  - intros (x & Hx & Hr). apply in_labels in Hx as [Hx _]. apply in_app_or in Hr as [Hr|Hr]; apply in_map_iff in Hr as (i & <- & Hi).
    + apply in_unflagged_at in Hi as (Hi & E & F). exists i. unfold row0. rewrite E, F. auto.
    + apply in_flagged_at in Hi as (Hi & E & F). exists i. unfold row0. rewrite E, F. auto.
  - intros (i & Hi & Hx & ->). exists (label_at l i). split; [apply in_labels; split; auto; apply has_label; auto|]. apply in_or_app. unfold row0.
    destruct (is_flagged l i) eqn:F; [right|left]; apply in_map_iff; exists i; split; auto; [apply in_flagged_at|apply in_unflagged_at]; auto.
Qed.
Lemma nz_rows_NoDup : NoDup (nz_rows l).
Proof.
  unfold nz_rows. apply NoDup_flat_map; [apply labels_NoDup| |].
  - intros x _. unfold grp, rows_of_label. apply NoDup_app_intro.
    + apply NoDup_map_inj; [|apply indices_NoDup]. intros a b E. congruence.
    + apply NoDup_map_inj; [|apply indices_NoDup]. intros a b E. congruence.
    + intros r Hr Hr'. apply in_map_iff in Hr as (i & <- & _), Hr' as (j & E & _). congruence.
  - intros x y r _ _ Hx Hy. apply grp_primary in Hx, Hy. destruct Hx as (_ & <- & _), Hy as (_ & E & _). congruence.
Qed.
Lemma rows0_NoDup : NoDup rows0.
Proof. apply NoDup_map_inj; [|apply indices_NoDup]. intros a b E. unfold row0 in E. congruence. Qed.
Lemma nz_rows0 : Permutation (nz_rows l) rows0.
Proof.
  apply NoDup_Permutation; [apply nz_rows_NoDup|apply rows0_NoDup|]. intros r. rewrite in_nz_rows. unfold rows0. rewrite in_map_iff. split.
  - intros (i & Hi & Hx & ->). exists i. split; auto. apply in_indices. split; auto. unfold nonzero. apply negb_true_iff, Nat.eqb_neq; auto.
  - intros (i & <- & Hi). apply in_indices in Hi as [Hi Hn]. unfold nonzero in Hn. apply negb_true_iff, Nat.eqb_neq in Hn. eauto.
Qed.

Definition nonprims : list nat := filter (fun i => negb (i =? prim l (label_at l i))) (indices (length l) nonzero).
Lemma flag_nonprimaries_eq is : (forall i, In i is -> i < length l) -> forall id,
  (forall a, id = Some a -> length a = length l) ->
  flag_nonprimaries (map row0 is) id = Ok (map row1 is, option_map (negs l (filter (fun i => negb (i =? prim l (label_at l i))) is)) id).
Proof.
  induction is as [|i is IH]; intros Hi id Ha; cbn [map flag_nonprimaries filter]; [destruct id; auto|].
  unfold row1 at 1, flag1. cbn [row0 z_i z_primary z_id]. destruct (Nat.eqb_spec i (prim l (label_at l i))) as [E|N]; cbn [negb].
  - rewrite IH; auto. intros; apply Hi; right; auto.
  - destruct id as [a|].
    + rewrite wr_ok by (rewrite (Ha a) by auto; apply Hi; left; auto). cbn [bind]. rewrite IH; auto.
      * intros; apply Hi; right; auto.
      * intros b E. injection E as <-. rewrite upd_length. auto.
    + cbn [bind]. rewrite IH; auto. intros; apply Hi; right; auto.
Qed.

(** The rows of one label after the sort by primary. *)
Definition grp1 (x : nat) : list nonzero_id := map row1 (all_at l x).
Lemma sorted1 usize lsize : 2 * length l <= ulim usize ->
  sort_by usize lsize [KU z_primary] (map row1 (indices (length l) nonzero)) = Ok (flat_map grp1 (labels l)).
Proof.
  intros Hl.
  assert (KP : forall i, z_primary (row1 i) = prim l (label_at l i)).
  { intros i. unfold row1, flag1. destruct (_ =? _); auto. }
  assert (PR : forall i, i < length l -> nonzero i = true -> prim l (label_at l i) < length l /\ is_prim l (prim l (label_at l i)) = true).
  { intros i Hi Hn. unfold nonzero in Hn. apply negb_true_iff, Nat.eqb_neq in Hn. pose proof (has_label l i Hi) as Hh. split; [apply prim_lt; auto|].
    apply is_prim_iff; [apply prim_lt; auto|]. rewrite (prim_label _ _ Hh). auto. }
  destruct (sort_by_1 usize lsize (KU z_primary) (map row1 (indices (length l) nonzero))) as (B & E & SB).
  { intros r Hr. apply in_map_iff in Hr as (i & <- & Hi). apply in_indices in Hi as [Hi Hn]. cbn. rewrite KP. destruct (PR i Hi Hn). lia. }
  rewrite E. f_equal. cbn [key_fun] in SB.
  rewrite (stable_sort_groups z_primary (map row1 (indices (length l) nonzero)) B (indices (length l) (is_prim l)) (indices_sorted _ _)); auto.
  - unfold labels. rewrite flat_map_map. apply flat_map_ext_in. intros k Hk. apply in_indices in Hk as [Hk Pk]. apply is_prim_iff in Pk as [Pk0 Pk]; auto.
    unfold grp1, all_at, indices. rewrite filter_map, filter_andb. f_equal. apply filter_ext_in. intros i Hi. apply in_seq in Hi. rewrite KP.
    unfold nonzero. destruct (Nat.eqb_spec (label_at l i) (label_at l k)) as [El|Nl].
    + rewrite El. apply andb_true_iff. rewrite Pk, Nat.eqb_refl. split; auto. apply negb_true_iff, Nat.eqb_neq; auto.
    + apply andb_false_iff. right. apply Nat.eqb_neq. intros Ek. apply Nl. rewrite <- Ek. rewrite prim_label; auto. apply has_label. lia.
  - intros r Hr. apply in_map_iff in Hr as (i & <- & Hi). apply in_indices in Hi as [Hi Hn]. rewrite KP. apply in_indices. destruct (PR i Hi Hn); auto.
Qed.
End Rows.
