(** The search on one process: listing, grouping by element, batches. *)
From Verif Require Import Base BaseLemmas Sort SortSpec SortLemmas Transfer GsTop GsSortProof ListLemmas CrystalProof
  Findpts FindptsSpec FindptsProof1 FindptsProof2 FindptsProof3.
From Coq Require Import QArith Qround Lqa Sorting.Sorted.
Open Scope nat_scope.

Section P4.
Variable F : doubles.
Notation dbl := (dbl F).
Notation val := (val F).
Notation result := (result F).
Notation point := (point F).
Variable usize : nat.
Variable dzero : dbl.
Variable fd : local_data F.
Notation better := (better F dzero fd).

(** One candidate element for a point. *)
Definition try_el (p : point) (o : result) (e : nat) : result :=
  if code F o =? INTERNAL then o else better e (solve F fd e (px F p)) o.

(** All entries of the map, one by one. *)
Definition run_map (pts : list point) (q : list (nat * nat)) (st : list result) : list result :=
  fold_left (fun st '(i, e) =>
    match nth_error pts i, nth_error st i with
    | Some p, Some o => upd st i (try_el p o e)
    | _, _ => st
    end) q st.

Lemma run_map_length pts q : forall st, length (run_map pts q st) = length st.
Proof.
  unfold run_map. induction q as [|[i e] q IH]; intros st; cbn [fold_left]; auto. rewrite IH.
  destruct (nth_error pts i), (nth_error st i); auto. apply upd_length.
Qed.

Lemma run_map_nth pts q : forall st i p o, nth_error pts i = Some p -> nth_error st i = Some o ->
  nth_error (run_map pts q st) i = Some (fold_left (try_el p) (map snd (filter (fun x => fst x =? i) q)) o).
Proof.
  unfold run_map. induction q as [|[j e] q IH]; intros st i p o Hp Ho; cbn [fold_left filter map fst]; auto.
  destruct (Nat.eqb_spec j i) as [->|Hne].
  - rewrite Hp, Ho. cbn [map snd fold_left]. apply IH; auto. apply nth_error_upd_eq. eapply nth_error_Some_lt; eauto.
  - destruct (nth_error pts j), (nth_error st j); auto. apply IH; auto. rewrite nth_error_upd_ne; auto.
Qed.

(** One batch. *)
Lemma batch_ok (pts : list point) e : forall q k (st0 st : list result),
  NoDup q -> (forall i e', In (i, e') q -> i < length pts) -> length st0 = length pts -> length st = length pts ->
  (forall i, In (i, e) q -> nth_error st i = nth_error st0 i) ->
  exists xs q1 q2, gather F pts st0 e k q = Ok xs /\
    scatter F dzero fd st e k (map (solve F fd e) xs) q = Ok (run_map pts q1 st, q2) /\ q = q1 ++ q2 /\
    (k <> 0 -> q2 <> q \/ q = [] \/ exists i e' q', q = (i, e') :: q' /\ e' <> e).
Proof.
  induction q as [|[i e'] q IH]; intros k st0 st Hn Hi L0 L He; cbn [gather scatter].
  { exists [], [], []. repeat split; auto. }
  destruct (Nat.eqb_spec k 0) as [->|Hk].
  { exists [], [], ((i, e') :: q). repeat split; auto. }
  destruct (Nat.eqb_spec e' e) as [->|Hne].
  2:{ exists [], [], ((i, e') :: q). repeat split; auto. intros _. right. right. exists i, e', q. auto. }
  apply NoDup_cons_iff in Hn. destruct Hn as [Hni Hn].
  assert (Hil : i < length pts) by (eapply Hi; left; reflexivity).
  destruct (nth_error_lt_Some st0 i) as [o Ho]; [lia|].
  destruct (nth_error_lt_Some pts i) as [p Hp]; [lia|].
  assert (Ho' : nth_error st i = Some o) by (rewrite He by (left; auto); auto).
  rewrite (rd_ok st0 i o Ho), (rd_ok st i o Ho'). cbn [bind].
  assert (Hlen : forall (l1 l2 : list (nat * nat)) x, l2 <> x :: l1 ++ l2).
  { intros l1 l2 x E. apply (f_equal (@length _)) in E. cbn [length] in E. rewrite app_length in E. lia. }
  destruct (code F o =? INTERNAL) eqn:Ec.
  - destruct (IH k st0 st) as (xs & q1 & q2 & G1 & G2 & G3 & G4); auto.
    { intros j e2 H. apply (Hi j e2). right; auto. }
    { intros j H. apply He. right; auto. }
    exists xs, ((i, e) :: q1), q2. split; auto. split; [|split].
    + rewrite G2. unfold run_map. cbn [fold_left]. rewrite Hp, Ho'. unfold try_el. rewrite Ec.
      rewrite (upd_same st i o Ho'). reflexivity.
    + cbn [app]. f_equal. auto.
    + intros _. left. rewrite G3. apply Hlen.
  - rewrite (rd_ok pts i p Hp). cbn [bind].
    destruct (IH (k - 1) st0 (upd st i (better e (solve F fd e (px F p)) o))) as (xs & q1 & q2 & G1 & G2 & G3 & G4); auto.
    { intros j e2 H. apply (Hi j e2). right; auto. }
    { rewrite upd_length. auto. }
    { intros j H. rewrite nth_error_upd_ne; [apply He; right; auto|]. intros ->. auto. }
    rewrite G1. cbn [bind]. exists (px F p :: xs), ((i, e) :: q1), q2. split; auto. split; [|split].
    + cbn [map]. rewrite wr_ok by lia. cbn [bind]. rewrite G2. unfold run_map. cbn [fold_left]. rewrite Hp, Ho'.
      unfold try_el. rewrite Ec. reflexivity.
    + cbn [app]. f_equal. auto.
    + intros _. left. rewrite G3. apply Hlen.
Qed.

Hypothesis npt1 : 1 <= npt_max F fd.

Lemma run_map_app pts q1 q2 st : run_map pts (q1 ++ q2) st = run_map pts q2 (run_map pts q1 st).
Proof. unfold run_map. apply fold_left_app. Qed.

Lemma NoDup_app_r {A} (l1 l2 : list A) : NoDup (l1 ++ l2) -> NoDup l2.
Proof. induction l1; cbn; auto. intros H. apply NoDup_cons_iff in H. tauto. Qed.

Lemma batches_ok (pts : list point) : forall fuel q st, length q <= fuel ->
  NoDup q -> (forall i e', In (i, e') q -> i < length pts) -> length st = length pts ->
  batches F dzero fuel fd pts st q = Ok (run_map pts q st).
Proof.
  induction fuel as [|fuel IH]; intros q st Hf Hn Hi L; (destruct q as [|[i e] q]; [reflexivity|]).
  - cbn in Hf. lia.
  - destruct (batch_ok pts e ((i, e) :: q) (npt_max F fd) st st) as (xs & q1 & q2 & G1 & G2 & G3 & G4); auto.
    cbn [batches]. rewrite G1. cbn [bind]. rewrite G2. cbn [bind]. rewrite G3, run_map_app. apply IH.
    + destruct G4 as [H|[H|(j & e' & q' & H & Hne)]]; [lia| | discriminate |].
      * destruct q1 as [|x q1]; [cbn in G3; congruence|]. apply (f_equal (@length _)) in G3. rewrite app_length in G3.
        cbn [length] in *. lia.
      * congruence.
    + rewrite G3 in Hn. eapply NoDup_app_r; eauto.
    + intros j e' H. apply (Hi j e'). rewrite G3. apply in_or_app. auto.
    + rewrite run_map_length. auto.
Qed.


Lemma filter_true {A} (f : A -> bool) l : (forall x, In x l -> f x = true) -> filter f l = l.
Proof. induction l as [|a l IH]; intros H; cbn [filter]; auto. rewrite (H a (or_introl eq_refl)), IH; auto. intros; apply H; right; auto. Qed.

(** The map: elements listed in the cell of the point that pass the box test. *)
Variable rnd : Q -> Q.
Variable sessm : nat.
Variable pts : list point.
Variable lst : list dbl -> list nat.
Hypothesis Hlst : forall p, In p pts -> listed F rnd usize (hd F fd) (px F p) = Ok (lst (px F p)).
Hypothesis Hinc : forall p, In p pts -> StronglySorted lt (lst (px F p)).
Hypothesis Hlim : forall p e, In p pts -> In e (lst (px F p)) -> e < 256 ^ usize.

Definition cands (p : point) : list nat :=
  filter (fun e => negb (skip F fd sessm (psid F p)) && box_test F fd e (px F p)) (lst (px F p)).
Definition raw_map : list (nat * nat) :=
  concat (map (fun '(i, p) => map (fun e => (i, e)) (cands p)) (combine (seq 0 (length pts)) pts)).

Lemma in_combine_seq_nth {A} (l : list A) : forall s i x, In (i, x) (combine (seq s (length l)) l) <-> s <= i /\ nth_error l (i - s) = Some x.
Proof.
  induction l as [|a l IH]; intros s i x; cbn [length seq combine].
  - split; [intros []|]. intros [_ H]. destruct (i - s); discriminate.
  - split.
    + intros [E|H]; [injection E as <- <-; rewrite Nat.sub_diag; auto|]. apply IH in H. destruct H as [H1 H2].
      split; [lia|]. replace (i - s) with (S (i - S s)) by lia. auto.
    + intros [H1 H2]. destruct (Nat.eq_dec i s) as [->|Hne].
      * rewrite Nat.sub_diag in H2. injection H2 as ->. left; auto.
      * right. apply IH. split; [lia|]. replace (i - s) with (S (i - S s)) in H2 by lia. auto.
Qed.

Lemma in_raw_map i e : In (i, e) raw_map <-> exists p, nth_error pts i = Some p /\ In e (cands p).
Proof.
  unfold raw_map. rewrite <- flat_map_concat_map, in_flat_map. split.
  - intros ([j p] & H1 & H2). apply in_map_iff in H2. destruct H2 as (e' & E & He). injection E as -> ->.
    apply in_combine_seq_nth in H1. rewrite Nat.sub_0_r in H1. exists p. tauto.
  - intros (p & Hp & He). exists (i, p). split; [apply in_combine_seq_nth; rewrite Nat.sub_0_r; split; auto; lia|].
    apply in_map_iff. eauto.
Qed.

Lemma raw_map_filter i p : nth_error pts i = Some p ->
  filter (fun x => fst x =? i) raw_map = map (fun e => (i, e)) (cands p).
Proof.
  unfold raw_map. rewrite <- flat_map_concat_map, filter_flat_map. intros Hp.
  assert (G : forall l s, (forall k, nth_error l k = nth_error pts (s + k)) -> s <= i ->
    flat_map (fun a => filter (fun x => fst x =? i) (let '(j, q) := a in map (fun e => (j, e)) (cands q)))
      (combine (seq s (length l)) l) = map (fun e => (i, e)) (cands p)).
  { induction l as [|q l IH]; intros s Hs Hle.
    - specialize (Hs (i - s)). replace (s + (i - s)) with i in Hs by lia. rewrite Hp in Hs. destruct (i - s); discriminate.
    - cbn [length seq combine flat_map].
      assert (Eq : nth_error pts s = Some q) by (rewrite <- (Nat.add_0_r s), <- (Hs 0); auto).
      destruct (Nat.eq_dec s i) as [->|Hne].
      + rewrite Hp in Eq. injection Eq as <-.
        rewrite (filter_true (fun x => fst x =? i) (map (fun e => (i, e)) (cands p))).
        2:{ intros x Hx. apply in_map_iff in Hx. destruct Hx as (e & <- & _). apply Nat.eqb_refl. }
        rewrite (flat_map_nil _ (combine (seq (S i) (length l)) l)); [apply app_nil_r|].
        intros [j q'] Hj. apply in_combine_l, in_seq in Hj. apply filter_nil_all. intros x Hx.
        apply in_map_iff in Hx. destruct Hx as (e & <- & _). apply Nat.eqb_neq. cbn [fst]. lia.
      + rewrite (filter_nil_all _ (map (fun e => (s, e)) (cands q))).
        2:{ intros x Hx. apply in_map_iff in Hx. destruct Hx as (e & <- & _). apply Nat.eqb_neq. auto. }
        cbn [app]. apply IH; [|lia]. intros k. specialize (Hs (S k)). cbn [nth_error] in Hs. rewrite Hs. f_equal. lia. }
  apply (G pts 0); [auto|lia].
Qed.

Lemma cands_sorted p : In p pts -> StronglySorted lt (cands p).
Proof. intros H. apply StronglySorted_filter. auto. Qed.

Lemma NoDup_by_filter (l : list (nat * nat)) : (forall i, NoDup (filter (fun x => fst x =? i) l)) -> NoDup l.
Proof.
  induction l as [|a l IH]; intros H; constructor.
  - intros Ha. specialize (H (fst a)). cbn [filter] in H. rewrite Nat.eqb_refl in H. apply NoDup_cons_iff in H.
    apply (proj1 H). apply filter_In. split; auto. apply Nat.eqb_refl.
  - apply IH. intros i. specialize (H i). cbn [filter] in H. destruct (fst a =? i); auto. apply NoDup_cons_iff in H. tauto.
Qed.
Lemma raw_map_NoDup : NoDup raw_map.
Proof.
  apply NoDup_by_filter. intros i. destruct (nth_error pts i) as [p|] eqn:Ep.
  - rewrite (raw_map_filter i p Ep). apply FinFun.Injective_map_NoDup; [intros a b E; congruence|].
    apply StronglySorted_lt_NoDup, cands_sorted. eapply nth_error_In; eauto.
  - rewrite filter_nil_all; [constructor|]. intros [j e] Hj. apply Nat.eqb_neq. cbn [fst]. intros ->.
    apply in_raw_map in Hj. destruct Hj as (p & Hp & _). congruence.
Qed.

Lemma map_ok : exists m, map_points_to_els F rnd usize fd sessm pts = Ok m /\ NoDup m /\
  (forall i e, In (i, e) m -> i < length pts) /\
  forall i p, nth_error pts i = Some p -> map snd (filter (fun x => fst x =? i) m) = cands p.
Proof.
  unfold map_points_to_els.
  rewrite (mapM_ok _ (fun '(i, p) => map (fun e => (i, e)) (cands p))).
  2:{ intros [i p] Hin. apply in_combine_r in Hin. rewrite (Hlst p Hin). reflexivity. }
  cbn [bind]. fold raw_map.
  destruct (sort_by_1 usize usize (KU (T := nat * nat) snd) raw_map) as (m & E & [P S _]).
  { intros [i e] Hin. apply in_raw_map in Hin. destruct Hin as (p & Hp & He). cbn [snd]. unfold ulim.
    apply (Hlim p); [eapply nth_error_In; eauto|]. unfold cands in He. apply filter_In in He. tauto. }
  exists m. split; auto. split; [eapply Permutation_NoDup; [exact P|apply raw_map_NoDup]|]. split.
  - intros i e Hin. eapply Permutation_in in Hin; [|symmetry; exact P]. apply in_raw_map in Hin.
    destruct Hin as (p & Hp & _). eapply nth_error_Some_lt; eauto.
  - intros i p Hp. cbn [key_fun] in S.
    assert (Ef : filter (fun x => fst x =? i) m = map (fun e => (i, e)) (cands p)).
    { apply (sorted_unique snd).
      - apply SS_sorted_by. apply StronglySorted_filter. apply SS_sorted_by. auto.
      - rewrite <- (raw_map_filter i p Hp). apply CrystalProof.Permutation_filter. symmetry. auto.
      - apply (StronglySorted_map snd lt). rewrite map_map. cbn [snd]. rewrite map_id. apply cands_sorted. eapply nth_error_In; eauto. }
    rewrite Ef, map_map. apply map_id.
Qed.

(** The local search finds, for every point, the best of its candidates. *)
Theorem local_ok st : length st = length pts ->
  exists st', findptsms_local F rnd usize dzero fd sessm pts st = Ok st' /\ length st' = length st /\
  forall i p o, nth_error pts i = Some p -> nth_error st i = Some o ->
    nth_error st' i = Some (fold_left (try_el p) (cands p) (set_code F NOT_FOUND o)).
Proof.
  intros L. destruct map_ok as (m & E & Hn & Hi & Hm). unfold findptsms_local. rewrite E. cbn [bind].
  rewrite batches_ok by (auto; rewrite map_length; auto). eexists. split; [reflexivity|].
  split; [rewrite run_map_length, map_length; auto|]. intros i p o Hp Ho.
  rewrite (run_map_nth pts m _ i p (set_code F NOT_FOUND o)); auto.
  - rewrite (Hm i p Hp). auto.
  - apply map_nth_error. auto.
Qed.
End P4.
