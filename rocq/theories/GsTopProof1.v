(** nonzero_ids: the local part of the topology. *)
From Verif Require Import Base BaseLemmas SortSpec SortLemmas Transfer GsTop GsSpec ListLemmas GsSortProof.
From Coq Require Import Sorting.Sorted.

(** ** Facts about the vocabulary *)
Lemma in_indices n want i : In i (indices n want) <-> i < n /\ want i = true.
Proof. unfold indices. rewrite filter_In, in_seq. intuition lia. Qed.
Lemma indices_NoDup n want : NoDup (indices n want).
Proof. apply NoDup_filter, seq_NoDup. Qed.
Lemma indices_sorted n want : StronglySorted lt (indices n want).
Proof. apply StronglySorted_filter, StronglySorted_seq. Qed.

Lemma in_all_at l x i : In i (all_at l x) <-> i < length l /\ label_at l i = x.
Proof. unfold all_at. rewrite in_indices, Nat.eqb_eq. tauto. Qed.
Lemma in_unflagged_at l x i : In i (unflagged_at l x) <-> i < length l /\ label_at l i = x /\ is_flagged l i = false.
Proof. unfold unflagged_at. rewrite in_indices, andb_true_iff, Nat.eqb_eq, negb_true_iff. tauto. Qed.
Lemma in_flagged_at l x i : In i (flagged_at l x) <-> i < length l /\ label_at l i = x /\ is_flagged l i = true.
Proof. unfold flagged_at. rewrite in_indices, andb_true_iff, Nat.eqb_eq. tauto. Qed.

Lemma has_iff l x : has l x = true <-> exists i, i < length l /\ label_at l i = x.
Proof.
  unfold has. rewrite negb_true_iff, Nat.eqb_neq. split.
  - intros H. destruct (all_at l x) as [|i r] eqn:E; [simpl in H; lia|]. exists i. apply in_all_at. rewrite E. left; auto.
  - intros (i & H) E. apply length_zero_iff_nil in E. assert (In i (all_at l x)) by (apply in_all_at; auto). rewrite E in *. easy.
Qed.

Lemma prim_in l x : has l x = true -> In (prim l x) (all_at l x).
Proof.
  intros H. apply has_iff in H. destruct H as (i & H1 & H2). unfold prim.
  destruct (unflagged_at l x ++ flagged_at l x) as [|j r] eqn:E.
  - exfalso. assert (In i (unflagged_at l x ++ flagged_at l x)).
    { apply in_or_app. rewrite in_unflagged_at, in_flagged_at. destruct (is_flagged l i); auto. }
    rewrite E in *. easy.
  - simpl. assert (Hj : In j (unflagged_at l x ++ flagged_at l x)) by (rewrite E; left; auto).
    apply in_app_or in Hj. rewrite in_unflagged_at, in_flagged_at in Hj. apply in_all_at. tauto.
Qed.
Lemma prim_lt l x : has l x = true -> prim l x < length l.
Proof. intros H. apply prim_in, in_all_at in H. tauto. Qed.
Lemma prim_label l x : has l x = true -> label_at l (prim l x) = x.
Proof. intros H. apply prim_in, in_all_at in H. tauto. Qed.
Lemma has_label l i : i < length l -> has l (label_at l i) = true.
Proof. intros H. apply has_iff. eauto. Qed.

Lemma prim_flag l x : has l x = true -> is_flagged l (prim l x) = only_flagged l x.
Proof.
  intros H. unfold only_flagged, prim. destruct (unflagged_at l x) as [|j r] eqn:E.
  - simpl. apply has_iff in H. destruct H as (i & H1 & H2).
    destruct (flagged_at l x) as [|k s] eqn:E2.
    + exfalso. destruct (is_flagged l i) eqn:Ef.
      * assert (In i (flagged_at l x)) by (apply in_flagged_at; auto). rewrite E2 in *; easy.
      * assert (In i (unflagged_at l x)) by (apply in_unflagged_at; auto). rewrite E in *; easy.
    + simpl. assert (In k (flagged_at l x)) by (rewrite E2; left; auto). apply in_flagged_at in H. tauto.
  - simpl. assert (In j (unflagged_at l x)) by (rewrite E; left; auto). apply in_unflagged_at in H0. tauto.
Qed.

Lemma is_prim_iff l i : i < length l -> (is_prim l i = true <-> label_at l i <> 0 /\ prim l (label_at l i) = i).
Proof. intros. unfold is_prim. rewrite andb_true_iff, negb_true_iff, Nat.eqb_neq, Nat.eqb_eq. tauto. Qed.

Lemma in_labels l x : In x (labels l) <-> x <> 0 /\ has l x = true.
Proof.
  unfold labels. rewrite in_map_iff. split.
  - intros (i & <- & Hi). apply in_indices in Hi. destruct Hi as [Hi Hp]. apply is_prim_iff in Hp; auto.
    split; [tauto|]. apply has_label; auto.
  - intros [Hx H]. exists (prim l x). rewrite (prim_label l x H). split; auto.
    apply in_indices. split; [apply prim_lt; auto|]. apply is_prim_iff; [apply prim_lt; auto|].
    rewrite (prim_label l x H). auto.
Qed.

Lemma map_NoDup_inj {A B} (f : A -> B) l : (forall x y, In x l -> In y l -> f x = f y -> x = y) -> NoDup l -> NoDup (map f l).
Proof.
  intros H ND. induction ND as [|a l Ha ND IH]; simpl; constructor.
  - rewrite in_map_iff. intros (y & E & Hy). apply Ha. rewrite <- (H y a); auto; [right; auto|left; auto].
  - apply IH. intros; apply H; auto; right; auto.
Qed.

Lemma labels_NoDup l : NoDup (labels l).
Proof.
  unfold labels. apply map_NoDup_inj; [|apply indices_NoDup].
  intros i j Hi Hj E. apply in_indices in Hi, Hj. destruct Hi as [Hi Pi], Hj as [Hj Pj].
  apply is_prim_iff in Pi, Pj; auto. destruct Pi as [_ Pi], Pj as [_ Pj]. congruence.
Qed.

Lemma map_prim_labels l : map (prim l) (labels l) = indices (length l) (is_prim l).
Proof.
  unfold labels. rewrite map_map. rewrite <- (map_id (indices _ _)) at 2. apply map_ext_in.
  intros i Hi. apply in_indices in Hi. destruct Hi as [Hi Hp]. apply is_prim_iff in Hp; tauto.
Qed.

(** ** The rows of one label *)
Definition rows_of_label (l : list Z) (pr x : nat) : list nonzero_id :=
  map (fun i => NZ x i false pr) (unflagged_at l x) ++ map (fun i => NZ x i true pr) (flagged_at l x).
Definition grp (l : list Z) (x : nat) : list nonzero_id := rows_of_label l (prim l x) x.
(** The array nz. *)
Definition nz_rows (l : list Z) : list nonzero_id := flat_map (grp l) (labels l).

Lemma nz_collect_eq l : forall s, nz_collect s l =
  map (fun j => NZ (label_at l j) (s + j) (is_flagged l j) 0)
      (indices (length l) (fun j => negb (label_at l j =? 0))).
Proof.
  induction l as [|z l IH]; intros s; cbn [nz_collect length]; auto.
  unfold indices. cbn [seq filter]. rewrite <- seq_shift, filter_map.
  assert (E0 : label_at (z :: l) 0 = Z.abs_nat z) by reflexivity.
  rewrite E0.
  assert (ET : forall t, nz_collect (S s) l = t ->
     map (fun j => NZ (label_at (z :: l) j) (s + j) (is_flagged (z :: l) j) 0)
      (map S (filter (fun j => negb (label_at (z :: l) (S j) =? 0)) (seq 0 (length l)))) = t).
  { intros t <-. rewrite IH, map_map. apply map_ext. intros j. unfold label_at, is_flagged, id_at. cbn [nth]. f_equal. lia. }
  destruct (Z.eqb_spec z 0) as [->|Hz].
  - cbn [Z.abs_nat Nat.eqb negb]. symmetry. apply ET; auto.
  - assert (Z.abs_nat z <> 0) by lia. destruct (Nat.eqb_spec (Z.abs_nat z) 0); [lia|]. cbn [negb map].
    rewrite (ET _ eq_refl). f_equal. unfold label_at, is_flagged, id_at. cbn [nth]. rewrite Nat.add_0_r. f_equal.
    destruct (Z.eqb_spec z (Z.abs z)), (Z.ltb_spec z 0); simpl; auto; lia.
Qed.

Lemma collect_group l x f : x <> 0 ->
  filter (fun r => z_id r * 2 + flag_key (z_flag r) =? x * 2 + flag_key f) (nz_collect 0 l) =
  map (fun i => NZ x i f 0) (if f then flagged_at l x else unflagged_at l x).
Proof.
  intros Hx. rewrite nz_collect_eq, filter_map. unfold indices. rewrite filter_andb. cbn [z_id z_flag].
  assert (E : filter (fun j => negb (label_at l j =? 0) && (label_at l j * 2 + flag_key (is_flagged l j) =? x * 2 + flag_key f))
     (seq 0 (length l)) = if f then flagged_at l x else unflagged_at l x).
  { unfold flagged_at, unflagged_at, indices. destruct f; apply filter_ext; intros j;
      destruct (Nat.eqb_spec (label_at l j) 0), (Nat.eqb_spec (label_at l j) x), (is_flagged l j);
      cbn [negb andb flag_key]; try reflexivity; try lia;
      try (apply Nat.eqb_eq; lia); try (apply Nat.eqb_neq; lia). }
  rewrite E. apply map_ext_in. intros i Hi. destruct f; [apply in_flagged_at in Hi|apply in_unflagged_at in Hi];
    destruct Hi as (_ & -> & ->); auto.
Qed.

Lemma set_primary_group l x last pr rest : has l x = true -> x <> last ->
  nz_set_primary last pr (rows_of_label l 0 x ++ rest) =
  grp l x ++ nz_set_primary x (prim l x) rest.
Proof.
  intros H Hne. unfold grp, rows_of_label, prim.
  rewrite <- !map_app || idtac.
  set (m := map (fun i => (i, false)) (unflagged_at l x) ++ map (fun i => (i, true)) (flagged_at l x)).
  assert (Em : forall pp, map (fun i => NZ x i false pp) (unflagged_at l x) ++ map (fun i => NZ x i true pp) (flagged_at l x)
               = map (fun q => NZ x (fst q) (snd q) pp) m).
  { intros pp. unfold m. rewrite map_app, !map_map. auto. }
  rewrite !Em.
  assert (Eh : hd 0 (unflagged_at l x ++ flagged_at l x) = hd 0 (map fst m)).
  { unfold m. rewrite map_app, !map_map. cbn [fst]. rewrite !map_id. auto. }
  rewrite Eh. destruct m as [|[i f] m0] eqn:Eq.
  - exfalso. apply prim_in in H. apply in_all_at in H. destruct H as [H1 H2].
    assert (In (prim l x) (map fst m)).
    { unfold m. rewrite map_app, !map_map. cbn [fst]. rewrite !map_id. apply in_or_app.
      rewrite in_unflagged_at, in_flagged_at. destruct (is_flagged l (prim l x)); auto. }
    rewrite Eq in *. easy.
  - cbn [map fst snd hd app nz_set_primary z_id z_i z_flag].
    destruct (Nat.eqb_spec x last); [congruence|]. f_equal.
    clear. induction m0 as [|[j g] m0 IH]; cbn [map app fst snd nz_set_primary z_id z_i z_flag]; auto.
    rewrite Nat.eqb_refl. f_equal. auto.
Qed.

Lemma set_primary_groups l ys : (forall y, In y ys -> has l y = true) -> NoDup ys ->
  forall last pr, ~ In last ys ->
  nz_set_primary last pr (flat_map (rows_of_label l 0) ys) = flat_map (grp l) ys.
Proof.
  intros H ND. induction ys as [|y ys IH]; intros last pr Hl; simpl; auto.
  apply NoDup_cons_iff in ND. destruct ND as [Hn ND].
  rewrite set_primary_group; [|apply H; left; auto|intros ->; apply Hl; left; auto].
  f_equal. apply IH; auto. intros; apply H; right; auto.
Qed.

Lemma grp_primary l x r : In r (grp l x) -> z_primary r = prim l x /\ z_id r = x /\
  z_i r < length l /\ label_at l (z_i r) = x /\ z_flag r = is_flagged l (z_i r).
Proof.
  unfold grp, rows_of_label. intros H. apply in_app_or in H. rewrite !in_map_iff in H.
  destruct H as [(i & <- & H)|(i & <- & H)]; [apply in_unflagged_at in H|apply in_flagged_at in H]; cbn; intuition.
Qed.

Lemma filter_grp l x k : filter (fun r => z_primary r =? k) (grp l x) = if prim l x =? k then grp l x else [].
Proof.
  destruct (Nat.eqb_spec (prim l x) k) as [<-|Hne].
  - rewrite <- (filter_ext_in (fun _ => true)).
    + induction (grp l x) as [|a m IH]; simpl; auto. f_equal; auto.
    + intros r Hr. apply grp_primary in Hr. destruct Hr as [-> _]. symmetry. apply Nat.eqb_refl.
  - apply filter_nil_all. intros r Hr. apply grp_primary in Hr. destruct Hr as [-> _]. apply Nat.eqb_neq. auto.
Qed.

Lemma sorted_double ys : StronglySorted lt ys -> StronglySorted lt (flat_map (fun x => [x * 2; x * 2 + 1]) ys).
Proof.
  induction 1 as [|y ys Sy IH HF]; simpl; [constructor|]. rewrite Forall_forall in HF.
  assert (G : forall z, In z (flat_map (fun x => [x * 2; x * 2 + 1]) ys) -> y * 2 + 1 < z).
  { intros z Hz. apply in_flat_map in Hz. destruct Hz as (x & Hx & Hz). apply HF in Hx. simpl in Hz. lia. }
  constructor; [constructor; auto|].
  - rewrite Forall_forall. intros z Hz. apply G in Hz. lia.
  - rewrite Forall_forall. intros z [<-|Hz]; [lia|]. apply G in Hz. lia.
Qed.

Section NonzeroIds.
Variable usize lsize : nat.
Hypothesis us1 : 1 <= usize.

Notation ids_fit := (GsSpec.ids_fit usize lsize).

Lemma ulim_pos n : 0 < ulim n.
Proof. unfold ulim. apply Nat.neq_0_lt_0, Nat.pow_nonzero. discriminate. Qed.
Lemma ulim_256 : 256 <= ulim usize.
Proof. unfold ulim. destruct usize as [|u]; [lia|]. rewrite Nat.pow_succ_r'. pose proof (ulim_pos u). unfold ulim in H. lia. Qed.

Theorem nonzero_ids_ok l : ids_fit l -> nonzero_ids usize lsize l = Ok (nz_rows l).
Proof.
  intros [Hn Hl]. unfold nonzero_ids.
  set (A := nz_collect 0 l).
  assert (HA : forall r, In r A -> exists i, i < length l /\ z_id r = label_at l i /\ label_at l i <> 0).
  { intros r Hr. unfold A in Hr. rewrite nz_collect_eq in Hr. apply in_map_iff in Hr. destruct Hr as (i & <- & Hi).
    apply in_indices in Hi. rewrite negb_true_iff, Nat.eqb_neq in Hi. exists i. simpl. tauto. }
  pose proof ulim_256 as U256.
  destruct (sort_by_2 usize lsize (KL z_id) (KU (fun r => flag_key (z_flag r))) 2 A) as (B & EB & SB).
  { intros r Hr. cbn [key_ok]. destruct (HA r Hr) as (i & Hi & -> & _). specialize (Hl i Hi). unfold ULONG_MAX in Hl. lia. }
  { intros r Hr. unfold flag_key. destruct (z_flag r); lia. }
  { intros r Hr. unfold flag_key. cbn. destruct (z_flag r); lia. }
  cbn [key_fun] in SB. rewrite EB. cbn [bind].
  set (ys := filter (has l) (seq 1 (ulim lsize))).
  assert (Hys : forall y, In y ys <-> y <> 0 /\ has l y = true).
  { intros y. unfold ys. rewrite filter_In, in_seq. split; [intuition lia|]. intros [H1 H2]. split; auto.
    apply has_iff in H2. destruct H2 as (i & Hi & <-). specialize (Hl i Hi). unfold ULONG_MAX in Hl. lia. }
  assert (Sys : StronglySorted lt ys) by (apply StronglySorted_filter, StronglySorted_seq).
  assert (EB2 : B = flat_map (rows_of_label l 0) ys).
  { rewrite (stable_sort_groups (fun x => z_id x * 2 + flag_key (z_flag x)) A B (flat_map (fun x => [x * 2; x * 2 + 1]) ys) (sorted_double ys Sys)); auto.
    - rewrite flat_map_flat_map. apply flat_map_ext_in. intros x Hx. apply Hys in Hx. destruct Hx as [Hx _].
      cbn [flat_map]. rewrite app_nil_r. unfold rows_of_label. f_equal.
      + rewrite <- (collect_group l x false Hx). apply filter_ext. intros r. cbn [flag_key]. rewrite Nat.add_0_r. auto.
      + rewrite <- (collect_group l x true Hx). auto.
    - intros r Hr. destruct (HA r Hr) as (i & Hi & E & Hne). apply in_flat_map. exists (z_id r). split.
      + apply Hys. rewrite E. split; auto. apply has_label; auto.
      + destruct (z_flag r); simpl; [right; left|left]; lia. }
  assert (NDys : NoDup ys) by (apply StronglySorted_lt_NoDup; auto).
  rewrite EB2, set_primary_groups; auto.
  2:{ intros y Hy. apply Hys in Hy. tauto. }
  2:{ intros Hin. apply Hys in Hin. destruct Hin as [_ Hin]. apply has_iff in Hin. destruct Hin as (i & Hi & E).
      specialize (Hl i Hi). lia. }
  destruct (sort_by_1 usize lsize (KU z_primary) (flat_map (grp l) ys)) as (C & EC & SC).
  { intros r Hr. apply in_flat_map in Hr. destruct Hr as (y & Hy & Hr). apply grp_primary in Hr. destruct Hr as [-> _].
    apply Hys in Hy. destruct Hy as [_ Hy]. apply prim_lt in Hy. lia. }
  cbn [key_fun] in SC. rewrite EC. f_equal.
  rewrite (stable_sort_groups z_primary (flat_map (grp l) ys) C (indices (length l) (is_prim l)) (indices_sorted _ _)); auto.
  - unfold nz_rows, labels. rewrite flat_map_map. apply flat_map_ext_in. intros k Hk.
    apply in_indices in Hk. destruct Hk as [Hk Pk]. apply is_prim_iff in Pk; auto. destruct Pk as [Pk0 Pk].
    rewrite filter_flat_map.
    assert (Hin : In (label_at l k) ys) by (apply Hys; split; auto; apply has_label; auto).
    apply in_split in Hin. destruct Hin as (y1 & y2 & Ey). rewrite Ey in *.
    rewrite flat_map_app. cbn [flat_map]. rewrite filter_grp, Pk, Nat.eqb_refl.
    assert (Hoth : forall y, In y (y1 ++ y2) -> filter (fun r => z_primary r =? k) (grp l y) = []).
    { intros y Hy. rewrite filter_grp. destruct (Nat.eqb_spec (prim l y) k) as [E|]; auto. exfalso.
      assert (Hy2 : In y (y1 ++ label_at l k :: y2)) by (apply in_app_or in Hy; apply in_or_app; simpl; tauto).
      apply Hys in Hy2. destruct Hy2 as [_ Hy2]. apply prim_label in Hy2. rewrite E in Hy2.
      apply NoDup_remove_2 in NDys. apply NDys. rewrite Hy2. auto. }
    rewrite (flat_map_nil _ y1), (flat_map_nil _ y2), app_nil_r; auto; intros; apply Hoth, in_or_app; auto.
  - intros r Hr. apply in_flat_map in Hr. destruct Hr as (y & Hy & Hr). apply grp_primary in Hr. destruct Hr as [-> _].
    apply Hys in Hy. destruct Hy as [Hy0 Hy]. apply in_indices. split; [apply prim_lt; auto|].
    apply is_prim_iff; [apply prim_lt; auto|]. rewrite (prim_label _ _ Hy). auto.
Qed.
End NonzeroIds.
