(** get_topology. *)
From Verif Require Import Base BaseLemmas SortSpec SortLemmas Net NetProof NetWords NetWordsProof OpsSpec Comm CommSpec CommProof
  Transfer TransferSpec TransferProof TransferProof4 GsTop GsSpec ListLemmas GsSortProof GsTopProof1 GsTopProof2 GsTopProof3.
From Coq Require Import Sorting.Sorted.

(** Position of x in a list. *)
Fixpoint index_of (x : nat) (l : list nat) : nat :=
  match l with
  | [] => 0
  | y :: l' => if y =? x then 0 else S (index_of x l')
  end.
Lemma index_of_nth l : NoDup l -> forall i x, nth_error l i = Some x -> index_of x l = i.
Proof.
  induction 1 as [|y l Hy ND IH]; intros [|i] x H; try discriminate; cbn [nth_error index_of] in *.
  - injection H as ->. rewrite Nat.eqb_refl. auto.
  - destruct (Nat.eqb_spec y x) as [->|]; [exfalso; apply Hy; eapply nth_error_In; eauto|]. f_equal. auto.
Qed.
Lemma nth_index_of l x : In x l -> nth_error l (index_of x l) = Some x.
Proof.
  induction l as [|y l IH]; intros H; [destruct H|]. cbn [index_of]. destruct (Nat.eqb_spec y x) as [->|]; cbn [nth_error]; auto.
  destruct H; [congruence|auto].
Qed.
Lemma index_of_lt l x : In x l -> index_of x l < length l.
Proof. intros H. apply nth_index_of in H. eapply nth_error_Some_lt; eauto. Qed.

Lemma flat_map_seq_nth {A} (f : nat -> list A) n w i x : w < n -> nth_error (f w) i = Some x ->
  nth_error (flat_map f (seq 0 n)) (length (flat_map f (seq 0 w)) + i) = Some x.
Proof.
  intros Hw Hi. replace n with (w + (1 + (n - w - 1))) by lia. rewrite !seq_app, !flat_map_app. cbn [seq flat_map plus].
  rewrite app_nil_r, nth_error_app2 by lia. replace (length _ + i - length _) with i by lia.
  rewrite nth_error_app1; auto. eapply nth_error_Some_lt; eauto.
Qed.

Lemma length_flat_map_sum {A} (f : nat -> list A) l : length (flat_map f l) = sum (map (fun a => length (f a)) l).
Proof. unfold sum. induction l as [|a l IH]; cbn [flat_map map fold_right]; auto. rewrite app_length, IH. auto. Qed.

(** The ids of a sorted list without repetition. *)
Fixpoint dedup (last : nat) (l : list nat) : list nat :=
  match l with
  | [] => []
  | y :: l' => if y =? last then dedup y l' else y :: dedup y l'
  end.
Lemma dedup_props l : StronglySorted le l -> forall last, (forall x, In x l -> last <= x) \/ ~ In last l ->
  StronglySorted lt (dedup last l) /\ forall x, In x (dedup last l) <-> In x l /\ x <> last.
Proof.
  induction 1 as [|y l HS IH HF]; intros last Hl; cbn [dedup].
  - split; [constructor|]. simpl. tauto.
  - rewrite Forall_forall in HF. destruct (IH y) as [I1 I2]; [left; auto|].
    destruct (Nat.eqb_spec y last) as [->|Hne].
    + split; auto. intros x. rewrite I2. simpl. intuition congruence.
    + split.
      * constructor; auto. rewrite Forall_forall. intros x Hx. apply I2 in Hx. destruct Hx as [Hx Hn]. apply HF in Hx. lia.
      * intros x. cbn [In]. rewrite I2. split.
        -- intros [<-|[Hx Hn]]; [auto|]. split; auto. intros ->. destruct Hl as [Hl|Hl].
           ++ specialize (Hl y (or_introl eq_refl)). apply HF in Hx. lia.
           ++ apply Hl. right; auto.
        -- intros [[<-|Hx] Hn]; auto. destruct (Nat.eq_dec x y) as [->|]; auto.
Qed.

Lemma shared_out_eq usize G wb : (forall w, In w wb -> (let i1f := w_i1f w in let i1 := if flagged usize i1f then unot usize i1f else i1f in
      PR (w_id w) (w_ord w) i1 (negb (i1f =? i1))) = G (w_id w)) -> forall last,
  shared_out usize last wb =
  (map (fun w => let i1f := w_i1f w in let i2f := w_i2f w in
      let i1 := if flagged usize i1f then unot usize i1f else i1f in
      let i2 := if flagged usize i2f then unot usize i2f else i2f in
      SH (w_id w) i1 (w_p2 w) i2 0 (negb (i1f =? i1)) (negb (i2f =? i2))) wb,
   map G (dedup last (map w_id wb))).
Proof.
  induction wb as [|w wb IH]; intros H last; cbn [shared_out map dedup]; auto.
  rewrite IH by (intros; apply H; right; auto). f_equal.
  specialize (H w (or_introl eq_refl)). cbv zeta in H.
  destruct (Nat.eqb_spec (w_id w) last) as [->|]; auto. cbn [map]. f_equal. exact H.
Qed.

Section Topology.
Variable usize lsize INT_MAX np : nat.
Variable ids : nat -> list Z.
Hypothesis us1 : 1 <= usize.
Hypothesis ls1 : 1 <= lsize.
Hypothesis np1 : 1 <= np.
Hypothesis np_lim : np < ulim usize.
Hypothesis max_lim : INT_MAX <= ulim usize.
Hypothesis fit : forall p, p < np -> ids_fit usize lsize (ids p).

Notation ULONG_MAX := (ULONG_MAX lsize).
Notation src p x := (src usize (ids p) x).
Notation ordered := (StronglySorted (row_le usize)).
Notation shl := (shared_list usize ULONG_MAX).

Lemma label_lim p x : p < np -> has (ids p) x = true -> x < ULONG_MAX.
Proof.
  intros Hp H. apply has_iff in H. destruct H as (i & Hi & <-). apply fit; auto.
Qed.
Lemma src_ok p x : p < np -> has (ids p) x = true ->
  src p x < ulim usize /\ flagged usize (src p x) = only_flagged (ids p) x /\
  (if flagged usize (src p x) then unot usize (src p x) else src p x) = prim (ids p) x /\
  negb (src p x =? prim (ids p) x) = only_flagged (ids p) x.
Proof. intros Hp H. apply src_facts; auto. apply fit; auto. Qed.

(** What a work process w receives. *)
Definition un_spec (w : nat) : list unique_id :=
  flat_map (fun s => map (fun x => UI x s (src s x)) (filter (fun x => x mod np =? w) (labels (ids s)))) (seq 0 np).

Definition in_un (w : nat) (r : unique_id) : Prop :=
  exists x s, s < np /\ x <> 0 /\ has (ids s) x = true /\ x mod np = w /\ r = UI x s (src s x).

Lemma in_un_spec w r : In r (un_spec w) <-> in_un w r.
Proof.
  unfold un_spec, in_un. rewrite in_flat_map. split.
  - intros (s & Hs & H). apply in_seq in Hs. apply in_map_iff in H. destruct H as (x & <- & Hx).
    apply filter_In in Hx. rewrite in_labels, Nat.eqb_eq in Hx. exists x, s. intuition; lia.
  - intros (x & s & Hs & Hx0 & Hh & Hm & ->). exists s. split; [apply in_seq; lia|].
    apply in_map_iff. exists x. split; auto. apply filter_In. rewrite in_labels, Nat.eqb_eq. auto.
Qed.
Lemma un_spec_NoDup w : NoDup (un_spec w).
Proof.
  apply NoDup_flat_map; [apply seq_NoDup| |].
  - intros s _. apply map_NoDup_inj; [|apply NoDup_filter, labels_NoDup]. intros x y _ _ E. injection E as E _. auto.
  - intros a b x _ _ H1 H2. apply in_map_iff in H1. apply in_map_iff in H2.
    destruct H1 as (y & <- & _), H2 as (z & E & _). injection E; auto.
Qed.

Lemma first_transfer : total np (fun p => labels (ids p)) * (words_for usize (lsize + usize) + 3) * usize < INT_MAX ->
  exists out, (forall w, w < np -> Permutation (out w) (un_spec w)) /\
  goes np (fun p => transfer usize INT_MAX np p (lsize + 2 * usize) lsize true (unique_id_bytes usize lsize)
                      (unique_id_of usize lsize) (unique_ids usize np (nz_rows (ids p)))) (fun p => Ret (out p)).
Proof.
  intros Ht.
  destruct (transfer_ok usize INT_MAX np us1 np_lim max_lim (lsize + 2 * usize) lsize true (unique_id_bytes usize lsize)
     (unique_id_of usize lsize) u_proc (fun s r => UI (u_id r) s (u_src r)) (fun p => unique_ids usize np (nz_rows (ids p)))) as (out & P & G).
  - lia.
  - lia.
  - intros s r Hs Hr. rewrite unique_ids_eq in Hr. apply in_map_iff in Hr. destruct Hr as (x & <- & Hx). apply in_labels in Hx.
    destruct Hx as [Hx Hh]. destruct (src_ok s x Hs Hh) as (H1 & _). pose proof (label_lim s x Hs Hh). unfold GsTop.ULONG_MAX in *.
    assert (x mod np < np) by (apply Nat.mod_upper_bound; lia).
    destruct (unique_row usize lsize (UI x (x mod np) (src s x)) s) as (A1 & A2 & A3 & A4); cbn; try lia.
    cbn [u_proc u_id u_src] in *. auto.
  - replace (lsize + 2 * usize - usize) with (lsize + usize) by lia.
    replace (total np (fun p => unique_ids usize np (nz_rows (ids p)))) with (total np (fun p => labels (ids p))); auto.
    unfold total. clear. induction (seq 0 np); cbn [map concat]; auto. rewrite !app_length, IHl, unique_ids_eq, map_length. auto.
  - exists out. split; auto. intros w Hw. rewrite (P w Hw). unfold un_spec, sent_to. rewrite flat_map_concat_map.
    match goal with |- Permutation (concat (map ?f _)) (concat (map ?g _)) =>
      rewrite (map_ext f g); [reflexivity|] end.
    intros s. rewrite unique_ids_eq, filter_map, map_map. auto.
Qed.

Lemma un_sorted w un : Permutation un (un_spec w) -> w < np ->
  exists B, sort_by usize lsize [KL u_id; KU u_src] un = Ok B /\ ordered B /\ NoDup B /\ forall r, In r B <-> in_un w r.
Proof.
  intros P Hw.
  assert (Hin : forall r, In r un <-> in_un w r).
  { intros r. rewrite <- in_un_spec. split; apply Permutation_in; auto. symmetry; auto. }
  assert (K : forall r, In r un -> u_id r < ulim lsize /\ u_src r < ulim usize).
  { intros r Hr. apply Hin in Hr. destruct Hr as (x & s & Hs & _ & Hh & _ & ->). cbn.
    pose proof (label_lim s x Hs Hh). destruct (src_ok s x Hs Hh). unfold GsTop.ULONG_MAX in *. lia. }
  destruct (sort_by_2' usize lsize (KL u_id) (KU u_src) un) as (B & M & E & HM & [SP SO _]).
  { intros r Hr. apply K in Hr. tauto. }
  { intros r Hr. apply K in Hr. tauto. }
  exists B. split; auto. split; [|split].
  - apply SS_sorted_by in SO. cbn [key_fun] in *.
    assert (HB : forall r, In r B -> u_src r < M) by (intros r Hr; apply HM; eapply Permutation_in; [symmetry; eauto|auto]).
    clear -SO HB. induction SO as [|b B SO IH HF]; constructor.
    + apply IH. intros; apply HB; right; auto.
    + rewrite Forall_forall in *. intros c Hc. specialize (HF c Hc). unfold ngt, nlt in HF. apply Nat.ltb_ge in HF.
      specialize (HB b (or_introl eq_refl)) as Hb. specialize (HB c (or_intror Hc)).
      unfold row_le. destruct (lt_eq_lt_dec (u_id b) (u_id c)) as [[|E]|]; [left; auto| |exfalso; nia].
      right. split; auto. unfold flagged, unot. intros F. apply Nat.ltb_lt in F. apply Nat.ltb_lt. rewrite E in HF. lia.
  - eapply Permutation_NoDup; [|apply (un_spec_NoDup w)]. rewrite <- SP. symmetry; auto.
  - intros r. rewrite <- Hin. split; apply Permutation_in; auto. symmetry; auto.
Qed.

Lemma exchange_iff x p q : exchange ids x p q = true <->
  has (ids p) x = true /\ has (ids q) x = true /\ p <> q /\ only_flagged (ids p) x && only_flagged (ids q) x = false.
Proof. unfold exchange. rewrite !andb_true_iff, !negb_true_iff, Nat.eqb_neq. tauto. Qed.

Lemma in_pairs_un w B : ordered B -> NoDup B -> (forall r, In r B <-> in_un w r) -> forall a b,
  In (a, b) (pairs_of usize B) <-> exists x p q, x <> 0 /\ x mod np = w /\ p < np /\ q < np /\ exchange ids x p q = true /\
     a = UI x p (src p x) /\ b = UI x q (src q x).
Proof.
  intros HO ND HB a b. rewrite (in_pairs_of usize B HO ND), !HB. split.
  - intros ((x & p & Hp & Hx & Hh & Hm & ->) & (y & q & Hq & Hy & Hh2 & Hm2 & ->) & Hne & E & F). cbn [u_id u_src] in *. subst y.
    exists x, p, q. repeat split; auto. apply exchange_iff. repeat split; auto; [intros ->; auto|].
    destruct (src_ok p x Hp Hh) as (_ & E1 & _), (src_ok q x Hq Hh2) as (_ & E2 & _). rewrite <- E1, <- E2. auto.
  - intros (x & p & q & Hx & Hm & Hp & Hq & He & -> & ->). apply exchange_iff in He. destruct He as (H1 & H2 & Hne & F).
    cbn [u_id u_src]. repeat split; auto; try (eexists _, _; repeat split; eauto; fail).
    + intros E. injection E; auto.
    + destruct (src_ok p x Hp H1) as (_ & E1 & _), (src_ok q x Hq H2) as (_ & E2 & _). rewrite E1, E2. auto.
Qed.

Lemma shared_iff x : shared np ids x = true <-> exists p q, p < np /\ q < np /\ exchange ids x p q = true.
Proof.
  unfold shared. rewrite existsb_exists. split.
  - intros (p & Hp & H). apply existsb_exists in H. destruct H as (q & Hq & H). apply in_seq in Hp, Hq. exists p, q. intuition; lia.
  - intros (p & q & Hp & Hq & H). exists p. split; [apply in_seq; lia|]. apply existsb_exists. exists q. split; auto. apply in_seq; lia.
Qed.

Lemma shl_props w B : ordered B -> NoDup B -> (forall r, In r B <-> in_un w r) ->
  StronglySorted lt (shl B) /\ forall x, In x (shl B) <-> x <> 0 /\ shared np ids x = true /\ x mod np = w.
Proof.
  intros HO ND HB.
  assert (Hlim : forall r, In r B -> u_id r < ULONG_MAX).
  { intros r Hr. apply HB in Hr. destruct Hr as (x & s & Hs & _ & Hh & _ & ->). cbn. apply (label_lim s); auto. }
  destruct (shared_list_props usize B HO ULONG_MAX) as [H1 H2].
  { right. intros H. apply in_map_iff in H. destruct H as (r & E & Hr). apply Hlim in Hr. lia. }
  split; auto. intros x. rewrite H2. split.
  - intros (_ & a & b & Hab & <-). apply (in_pairs_un w B HO ND HB) in Hab.
    destruct Hab as (x & p & q & Hx & Hm & Hp & Hq & He & -> & ->). cbn [u_id]. repeat split; auto. apply shared_iff. eauto 6.
  - intros (Hx & Hs & Hm). apply shared_iff in Hs. destruct Hs as (p & q & Hp & Hq & He). split.
    + apply exchange_iff in He. destruct He as (Hh & _). pose proof (label_lim p x Hp Hh). lia.
    + exists (UI x p (src p x)), (UI x q (src q x)). split; auto. apply (in_pairs_un w B HO ND HB).
      exists x, p, q. repeat split; auto.
Qed.

(** The array wa on process p after the second transfer, up to order. *)
Definition wa_spec (ord : nat -> nat) (p : nat) : list shared_id_work :=
  flat_map (fun x => map (fun q => WK x (ord x) p q (src p x) (src q x)) (partners np ids x p)) (labels (ids p)).

Lemma in_partners x p q : In q (partners np ids x p) <-> q < np /\ exchange ids x p q = true.
Proof. unfold partners. rewrite filter_In, in_seq. intuition; lia. Qed.

Lemma in_wa_spec ord p w : p < np -> (In w (wa_spec ord p) <->
  exists x q, x <> 0 /\ q < np /\ exchange ids x p q = true /\ w = WK x (ord x) p q (src p x) (src q x)).
Proof.
  intros Hp. unfold wa_spec. rewrite in_flat_map. split.
  - intros (x & Hx & H). apply in_labels in Hx. apply in_map_iff in H. destruct H as (q & <- & Hq). apply in_partners in Hq.
    exists x, q. tauto.
  - intros (x & q & Hx & Hq & He & ->). exists x. split.
    + apply in_labels. split; auto. apply exchange_iff in He. tauto.
    + apply in_map_iff. exists q. split; auto. apply in_partners. auto.
Qed.
Lemma wa_spec_NoDup ord p : NoDup (wa_spec ord p).
Proof.
  apply NoDup_flat_map; [apply labels_NoDup| |].
  - intros x _. apply map_NoDup_inj; [|apply NoDup_filter, seq_NoDup]. intros a b _ _ E. injection E; auto.
  - intros a b w _ _ H1 H2. apply in_map_iff in H1. apply in_map_iff in H2.
    destruct H1 as (y & <- & _), H2 as (z & E & _). injection E; auto.
Qed.

Lemma second_transfer ord (un : nat -> list unique_id) :
  (forall w, w < np -> ordered (un w) /\ NoDup (un w) /\ forall r, In r (un w) <-> in_un w r) ->
  (forall x, x <> 0 -> shared np ids x = true -> ord x < ulim lsize) ->
  total np (fun p => flat_map (fun x => partners np ids x p) (labels (ids p)))
     * (words_for usize (2 * lsize + 3 * usize) + 3) * usize < INT_MAX ->
  exists out, (forall p, p < np -> Permutation (out p) (wa_spec ord p)) /\
  goes np (fun w => transfer usize INT_MAX np w (2 * lsize + 4 * usize) (2 * lsize) false (work_bytes usize lsize)
                      (work_of usize lsize) (map (work_of_pair ord) (pairs_of usize (un w)))) (fun p => Ret (out p)).
Proof.
  intros Hun Hord Ht.
  set (Wa := fun w => map (work_of_pair ord) (pairs_of usize (un w))).
  assert (HWa : forall v w, v < np -> (In w (Wa v) <-> exists x p q, x <> 0 /\ x mod np = v /\ p < np /\ q < np /\ exchange ids x p q = true /\
     w = WK x (ord x) p q (src p x) (src q x))).
  { intros v w Hv. unfold Wa. destruct (Hun v Hv) as (HO & ND & HB). rewrite in_map_iff. split.
    - intros ([a b] & <- & H). apply (in_pairs_un v _ HO ND HB) in H. destruct H as (x & p & q & H1 & H2 & H3 & H4 & H5 & -> & ->).
      exists x, p, q. cbn. tauto.
    - intros (x & p & q & H1 & H2 & H3 & H4 & H5 & ->). exists (UI x p (src p x), UI x q (src q x)). split; auto.
      apply (in_pairs_un v _ HO ND HB). exists x, p, q. tauto. }
  assert (NWa : forall v, v < np -> NoDup (Wa v)).
  { intros v Hv. unfold Wa. destruct (Hun v Hv) as (HO & ND & HB). apply map_NoDup_inj; [|apply pairs_of_NoDup; auto].
    intros [a b] [c d] H1 H2 E. apply (in_pairs_un v _ HO ND HB) in H1, H2.
    destruct H1 as (x & p & q & _ & _ & _ & _ & _ & -> & ->), H2 as (y & s & t & _ & _ & _ & _ & _ & -> & ->).
    cbn in E. injection E; intros; subst; auto. }
  assert (PS : forall p, p < np -> Permutation (wa_spec ord p) (sent_to np p w_p1 (fun _ w => w) Wa)).
  { intros p Hp. apply NoDup_Permutation.
    - apply wa_spec_NoDup.
    - unfold sent_to. rewrite <- flat_map_concat_map. apply NoDup_flat_map; [apply seq_NoDup| |].
      + intros v Hv. apply in_seq in Hv. rewrite map_id. apply NoDup_filter, NWa. lia.
      + intros v v2 w Hv Hv2 H1 H2. apply in_seq in Hv, Hv2. rewrite map_id in H1, H2. apply filter_In in H1, H2.
        destruct H1 as [H1 _], H2 as [H2 _]. apply HWa in H1; [|lia]. apply HWa in H2; [|lia].
        destruct H1 as (x & p1 & q & _ & <- & _ & _ & _ & ->), H2 as (y & s & t & _ & <- & _ & _ & _ & E). injection E; intros; subst; auto.
    - intros w. rewrite (in_wa_spec ord p w Hp). unfold sent_to. rewrite in_concat. split.
      + intros (x & q & Hx & Hq & He & ->). eexists. split.
        * apply in_map_iff. exists (x mod np). split; [reflexivity|]. apply in_seq. split; [lia|].
          apply Nat.mod_upper_bound. lia.
        * rewrite map_id. apply filter_In. split; [|apply Nat.eqb_refl]. apply HWa; [apply Nat.mod_upper_bound; lia|].
          exists x, p, q. tauto.
      + intros (l & Hl & H). apply in_map_iff in Hl. destruct Hl as (v & <- & Hv). apply in_seq in Hv. rewrite map_id in H.
        apply filter_In in H. destruct H as [H E]. apply HWa in H; [|lia].
        destruct H as (x & p1 & q & H1 & H2 & H3 & H4 & H5 & ->). cbn in E. apply Nat.eqb_eq in E. subst p1. exists x, q. tauto. }
  destruct (transfer_ok usize INT_MAX np us1 np_lim max_lim (2 * lsize + 4 * usize) (2 * lsize) false (work_bytes usize lsize)
     (work_of usize lsize) w_p1 (fun _ r => r) Wa) as (out & P & G).
  - lia.
  - lia.
  - intros s r Hs Hr. apply (HWa s r Hs) in Hr. destruct Hr as (x & p & q & Hx & Hm & Hp & Hq & He & ->).
    assert (Hsx : shared np ids x = true) by (apply shared_iff; eauto).
    apply exchange_iff in He. destruct He as (Hh & Hh2 & _).
    destruct (src_ok p x Hp Hh) as (H1 & _), (src_ok q x Hq Hh2) as (H2 & _).
    pose proof (label_lim p x Hp Hh). unfold GsTop.ULONG_MAX in *. specialize (Hord x Hx Hsx).
    destruct (work_row usize lsize (WK x (ord x) p q (src p x) (src q x))) as (A1 & A2 & A3 & A4); cbn [w_id w_ord w_p1 w_p2 w_i1f w_i2f]; try lia.
    cbn [w_p1] in *. auto.
  - replace (2 * lsize + 4 * usize - usize) with (2 * lsize + 3 * usize) by lia.
    replace (total np Wa) with (total np (fun p => flat_map (fun x => partners np ids x p) (labels (ids p)))); auto.
    transitivity (total np (wa_spec ord)).
    + unfold total. clear. induction (seq 0 np) as [|s l IH]; cbn [map concat]; auto. rewrite !app_length, IH. f_equal.
      unfold wa_spec. induction (labels (ids s)); cbn [flat_map]; auto. rewrite !app_length, map_length. auto.
    + apply (total_perm usize INT_MAX np (2 * lsize + 4 * usize) (2 * lsize) us1 np_lim max_lim ltac:(lia) ltac:(lia) w_p1 (fun _ w => w) Wa (wa_spec ord)); auto.
      intros s x Hs Hx. apply (HWa s x Hs) in Hx. destruct Hx as (? & p & q & ? & ? & ? & ? & ? & ->). auto.
  - exists out. split; auto. intros p Hp. rewrite (P p Hp). symmetry. auto.
Qed.

(** The arrays sh and pr. *)
Definition sh_spec (p : nat) : list shared_id :=
  flat_map (fun x => map (fun q => SH x (prim (ids p) x) q (prim (ids q) x) 0
                                      (only_flagged (ids p) x) (only_flagged (ids q) x)) (partners np ids x p)) (labels (ids p)).
Definition pr_spec (ord : nat -> nat) (p : nat) : list primary_shared_id :=
  map (fun x => PR x (ord x) (prim (ids p) x) (only_flagged (ids p) x)) (filter (sharing np ids p) (labels (ids p))).

Lemma labels_sorted l : StronglySorted (fun x y => prim l x < prim l y) (labels l).
Proof. apply StronglySorted_map. rewrite map_prim_labels. apply indices_sorted. Qed.

Lemma aux_ok ord p wa : p < np -> Permutation wa (wa_spec ord p) ->
  exists sh, shared_ids_aux usize lsize wa = Ok (sh, pr_spec ord p) /\ Permutation sh (sh_spec p).
Proof.
  intros Hp P.
  assert (Hin : forall w, In w wa -> exists x q, x <> 0 /\ q < np /\ exchange ids x p q = true /\ w = WK x (ord x) p q (src p x) (src q x)).
  { intros w Hw. apply (in_wa_spec ord p w Hp). eapply Permutation_in; eauto. }
  destruct (sort_by_1 usize lsize (KL w_id) wa) as (wb & E & [SP SO _]).
  { intros w Hw. apply Hin in Hw. destruct Hw as (x & q & Hx & Hq & He & ->). cbn. apply exchange_iff in He.
    destruct He as (Hh & _). pose proof (label_lim p x Hp Hh). unfold GsTop.ULONG_MAX in *. lia. }
  unfold shared_ids_aux. rewrite E. cbn [bind]. cbn [key_fun] in SO.
  rewrite (shared_out_eq usize (fun x => PR x (ord x) (prim (ids p) x) (only_flagged (ids p) x))).
  2:{ intros w Hw. apply (Permutation_in _ (Permutation_sym SP)) in Hw. apply Hin in Hw. destruct Hw as (x & q & Hx & Hq & He & ->).
      apply exchange_iff in He. destruct He as (Hh & _). cbn [w_i1f w_id w_ord]. destruct (src_ok p x Hp Hh) as (_ & _ & -> & ->). auto. }
  assert (Hb : forall x, In x (map w_id wb) <-> In x (labels (ids p)) /\ sharing np ids p x = true).
  { intros x. rewrite in_map_iff. split.
    - intros (w & <- & Hw). apply (Permutation_in _ (Permutation_sym SP)) in Hw. apply Hin in Hw.
      destruct Hw as (x & q & Hx & Hq & He & ->). cbn [w_id]. split; [apply in_labels; apply exchange_iff in He; tauto|].
      unfold sharing. apply negb_true_iff, Nat.eqb_neq. intros E0. apply length_zero_iff_nil in E0.
      assert (H : In q (partners np ids x p)) by (apply in_partners; auto). rewrite E0 in H. auto.
    - intros [Hx Hs]. apply in_labels in Hx. unfold sharing in Hs. apply negb_true_iff, Nat.eqb_neq in Hs.
      destruct (partners np ids x p) as [|q l] eqn:Eq; [simpl in Hs; congruence|].
      assert (H : In q (partners np ids x p)) by (rewrite Eq; left; auto). apply in_partners in H.
      exists (WK x (ord x) p q (src p x) (src q x)). split; auto. apply (Permutation_in _ SP).
      apply (Permutation_in _ (Permutation_sym P)). apply (in_wa_spec ord p _ Hp). exists x, q. tauto. }
  assert (Hsrt : StronglySorted le (map w_id wb)).
  { apply (SS_sorted_by (nlt w_id)) in SO. apply (proj1 (StronglySorted_map w_id le wb)). clear -SO. induction SO; constructor; auto.
    rewrite Forall_forall in *. intros x Hx. specialize (H x Hx). unfold ngt, nlt in H. apply Nat.ltb_ge in H. auto. }
  destruct (dedup_props _ Hsrt ULONG_MAX) as [D1 D2].
  { right. intros H. apply Hb in H. destruct H as [H _]. apply in_labels in H. destruct H as [_ H].
    apply (label_lim p) in H; auto. lia. }
  assert (PD : Permutation (dedup ULONG_MAX (map w_id wb)) (filter (sharing np ids p) (labels (ids p)))).
  { apply NoDup_Permutation; [apply StronglySorted_lt_NoDup; auto|apply NoDup_filter, labels_NoDup|].
    intros x. rewrite D2, Hb, filter_In. split; [tauto|]. intros [H2 H3]. split; auto. intros ->. apply in_labels in H2. destruct H2 as [_ H2].
    apply (label_lim p) in H2; auto. lia. }
  destruct (sort_by_1 usize lsize (KU p_i) (map (fun x => PR x (ord x) (prim (ids p) x) (only_flagged (ids p) x))
      (dedup ULONG_MAX (map w_id wb)))) as (pr & E2 & SS2).
  { intros r Hr. apply in_map_iff in Hr. destruct Hr as (x & <- & Hx). cbn. apply (Permutation_in _ PD) in Hx.
    apply filter_In in Hx. destruct Hx as [Hx _]. apply in_labels in Hx. destruct Hx as [_ Hx]. pose proof (prim_lt _ _ Hx).
    destruct (fit p Hp). lia. }
  rewrite E2. cbn [bind]. eexists. split.
  - f_equal. f_equal. apply (sort_distinct p_i _ _ (pr_spec ord p) SS2).
    + unfold pr_spec. apply Permutation_map. auto.
    + unfold pr_spec. apply (proj2 (StronglySorted_map p_i lt _)). rewrite map_map. cbn [p_i].
      apply (proj1 (StronglySorted_map (prim (ids p)) lt _)). apply StronglySorted_filter, labels_sorted.
  - rewrite <- SP, P. unfold wa_spec, sh_spec. rewrite map_flat_map.
    match goal with |- Permutation (flat_map ?f _) (flat_map ?g _) => rewrite (flat_map_ext_in f g); [reflexivity|] end.
    intros x Hx. rewrite map_map. apply map_ext_in. intros q Hq. apply in_partners in Hq. destruct Hq as [Hq He].
    apply exchange_iff in He. destruct He as (Hh & Hh2 & _). cbn [w_i1f w_i2f w_id w_p2].
    destruct (src_ok p x Hp Hh) as (_ & _ & -> & ->), (src_ok q x Hq Hh2) as (_ & _ & -> & ->). auto.
Qed.

(** ord numbers the shared labels from 0. *)
Definition numbering (ord : nat -> nat) (n : nat) : Prop :=
  exists L, NoDup L /\ length L = n /\ (forall x, In x L <-> x <> 0 /\ shared np ids x = true) /\
            forall i x, nth_error L i = Some x -> ord x = i.

Record topology_ok (ord : nat -> nat) (n p : nat) (top : topology) : Prop := {
  tok_total : t_total top = n;
  tok_nz : t_nz top = nz_rows (ids p);
  tok_sh : Permutation (t_sh top) (sh_spec p);
  tok_pr : Permutation (t_pr top) (pr_spec ord p) }.

Theorem get_topology_goes :
  total np (fun p => labels (ids p)) * (words_for usize (lsize + usize) + 3) * usize < INT_MAX ->
  total np (fun p => flat_map (fun x => partners np ids x p) (labels (ids p)))
     * (words_for usize (2 * lsize + 3 * usize) + 3) * usize < INT_MAX ->
  exists ord n top, numbering ord n /\ (forall p, p < np -> topology_ok ord n p (top p)) /\
    goes np (fun p => get_topology usize lsize INT_MAX np p (ids p)) (fun p => Ret (top p)).
Proof.
  intros Ht1 Ht2.
  destruct (first_transfer Ht1) as (out1 & P1 & G1).
  set (un := fun w => match sort_by usize lsize [KL u_id; KU u_src] (out1 w) with Ok B => B | _ => [] end).
  assert (Hun : forall w, w < np -> sort_by usize lsize [KL u_id; KU u_src] (out1 w) = Ok (un w) /\
      ordered (un w) /\ NoDup (un w) /\ forall r, In r (un w) <-> in_un w r).
  { intros w Hw. destruct (un_sorted w (out1 w) (P1 w Hw) Hw) as (B & E & H). unfold un. rewrite E. auto. }
  set (L := flat_map (fun w => shl (un w)) (seq 0 np)).
  assert (HL : forall x, In x L <-> x <> 0 /\ shared np ids x = true).
  { intros x. unfold L. rewrite in_flat_map. split.
    - intros (w & Hw & H). apply in_seq in Hw. destruct (Hun w) as (_ & HO & ND & HB); [lia|].
      apply (proj2 (shl_props w _ HO ND HB)) in H. tauto.
    - intros [Hx Hs]. assert (Hw : x mod np < np) by (apply Nat.mod_upper_bound; lia).
      exists (x mod np). split; [apply in_seq; lia|]. destruct (Hun _ Hw) as (_ & HO & ND & HB).
      apply (proj2 (shl_props _ _ HO ND HB)). auto. }
  assert (NL : NoDup L).
  { apply NoDup_flat_map; [apply seq_NoDup| |].
    - intros w Hw. apply in_seq in Hw. destruct (Hun w) as (_ & HO & ND & HB); [lia|].
      apply StronglySorted_lt_NoDup. apply (shl_props w _ HO ND HB).
    - intros a b x Ha Hb H1 H2. apply in_seq in Ha, Hb. destruct (Hun a) as (_ & HO & ND & HB); [lia|].
      destruct (Hun b) as (_ & HO2 & ND2 & HB2); [lia|].
      apply (proj2 (shl_props a _ HO ND HB)) in H1. apply (proj2 (shl_props b _ HO2 ND2 HB2)) in H2.
      destruct H1 as (_ & _ & <-), H2 as (_ & _ & <-). auto. }
  assert (Llim : forall x, In x L -> x < ULONG_MAX).
  { intros x Hx. apply HL in Hx. destruct Hx as [_ Hs]. apply shared_iff in Hs. destruct Hs as (p & q & Hp & _ & He).
    apply exchange_iff in He. apply (label_lim p); tauto. }
  assert (Lsz : length L < ulim lsize).
  { assert (length L <= length (seq 0 ULONG_MAX)).
    { apply NoDup_incl_length; auto. intros x Hx. apply in_seq. apply Llim in Hx. lia. }
    rewrite seq_length in H. pose proof (ulim_pos lsize). unfold GsTop.ULONG_MAX in H. lia. }
  set (ord := fun x => index_of x L).
  assert (Hc : forall w, count_shared usize ULONG_MAX 0 (un w) = length (shl (un w))) by (intros; rewrite count_shared_eq; lia).
  destruct (scan_ulong_goes lsize np np1 (fun w => length (shl (un w)))) as (r & G2 & Hr).
  { unfold L in Lsz. rewrite length_flat_map_sum in Lsz. auto. }
  assert (Hr' : forall p, p < np -> exists a b, r p = [a; b] /\ proj1_sig a = length (flat_map (fun w => shl (un w)) (seq 0 p)) /\ proj1_sig b = length L).
  { intros p Hp. destruct (Hr p Hp) as (a & b & E1 & E2 & E3). exists a, b. unfold L. rewrite !length_flat_map_sum. auto. }
  destruct (second_transfer ord un) as (out2 & P2 & G3).
  { intros w Hw. apply Hun; auto. }
  { intros x Hx Hs. assert (In x L) by (apply HL; auto). unfold ord. pose proof (index_of_lt L x H). lia. }
  { auto. }
  set (res := fun p => match shared_ids_aux usize lsize (out2 p) with Ok r => r | _ => ([], []) end).
  assert (Hres : forall p, p < np -> shared_ids_aux usize lsize (out2 p) = Ok (res p) /\ snd (res p) = pr_spec ord p /\ Permutation (fst (res p)) (sh_spec p)).
  { intros p Hp. destruct (aux_ok ord p (out2 p) Hp (P2 p Hp)) as (sh & E & H). unfold res. rewrite E. auto. }
  exists ord, (length L), (fun p => Top (length L) (nz_rows (ids p)) (fst (res p)) (snd (res p))).
  split; [|split].
  - exists L. repeat split; auto; try (apply HL; auto; fail). intros i x Hi. apply index_of_nth; auto.
  - intros p Hp. destruct (Hres p Hp) as (_ & E1 & E2). constructor; auto. cbn [t_pr]. rewrite E1. reflexivity.
  - eapply goes_trans; [apply (goes_ext np _ (fun p => pbind (shared_ids usize lsize INT_MAX np p (nz_rows (ids p))) (fun r =>
        let '(sh, pr, total) := r in Ret (Top total (nz_rows (ids p)) sh pr))))|].
    { intros p Hp. unfold get_topology. rewrite (nonzero_ids_ok usize lsize us1 (ids p) (fit p Hp)). reflexivity. }
    assert (GS : goes np (fun p => shared_ids usize lsize INT_MAX np p (nz_rows (ids p))) (fun p => Ret (fst (res p), snd (res p), length L))).
    { unfold shared_ids.
      eapply goes_trans; [exact (goes_bind np _ _ _ G1)|].
      eapply goes_trans; [apply (goes_ext np _ (fun p => pbind (scan_ulong lsize np p (length (shl (un p)))) (fun ordinal =>
        match ordinal with
        | [o0; o1] =>
          pbind (transfer usize INT_MAX np p (2 * lsize + 4 * usize) (2 * lsize) false (work_bytes usize lsize) (work_of usize lsize)
                   (pair_loop usize ULONG_MAX (proj1_sig o0) (un p))) (fun wa =>
          pbind (plift (shared_ids_aux usize lsize wa)) (fun r =>
          Ret (fst r, snd r, proj1_sig o1)))
        | _ => Stop
        end)))|].
      { intros p Hp. destruct (Hun p Hp) as (-> & _). cbn [plift pbind]. rewrite Hc. auto. }
      eapply goes_trans; [exact (goes_bind np _ _ _ G2)|].
      eapply goes_trans; [apply (goes_ext np _ (fun p => pbind (transfer usize INT_MAX np p (2 * lsize + 4 * usize) (2 * lsize) false
             (work_bytes usize lsize) (work_of usize lsize) (map (work_of_pair ord) (pairs_of usize (un p)))) (fun wa =>
          pbind (plift (shared_ids_aux usize lsize wa)) (fun r => Ret (fst r, snd r, length L)))))|].
      { intros p Hp. destruct (Hr' p Hp) as (a & b & -> & -> & ->).
        destruct (Hun p Hp) as (_ & HO & ND & HB).
        rewrite (pair_loop_eq usize ord (un p) HO); auto.
        - intros H. exfalso. apply in_map_iff in H. destruct H as (u & E & Hu). apply HB in Hu.
          destruct Hu as (x & s & Hs & _ & Hh & _ & ->). cbn in E. apply (label_lim s) in Hh; auto. lia.
        - intros i x Hi. unfold ord. apply index_of_nth; auto. unfold L.
          apply (flat_map_seq_nth (fun w => shl (un w)) np p i x Hp Hi). }
      eapply goes_trans; [exact (goes_bind np _ _ _ G3)|].
      apply goes_ext. intros p Hp. destruct (Hres p Hp) as (-> & _). reflexivity. }
    eapply goes_trans; [exact (goes_bind np _ _ _ GS)|]. apply goes_ext. intros p Hp. reflexivity.
Qed.
End Topology.
