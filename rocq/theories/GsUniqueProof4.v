(** gs_unique, and gs_setup with unique = 1. *)
From Verif Require Import Base BaseLemmas Net NetProof SortSpec SortLemmas Transfer TransferSpec TransferProof2 GsTop GsSpec ListLemmas GsSortProof GsTopProof1 GsTopProof2 GsTopProof4 GsExec GsCr Gs
  GsCrProof4 GsPwProof1 GsPwProof2 GsPwProof3 GsRunProof GsSetupProof GsSetupProof2 GsUniqueProof1 GsUniqueProof2 GsUniqueProof3.
From Coq Require Import Permutation Sorting.Sorted.

Lemma filter_length_le {X} (f : X -> bool) l : length (filter f l) <= length l.
Proof. induction l as [|a l IH]; cbn; auto. destruct (f a); cbn; lia. Qed.

Section Unique.
Variable usize lsize INT_MAX np : nat.
Variable ids : nat -> list Z.
Hypothesis fits : setup_fits usize lsize INT_MAX np ids.
Notation ids' := (unique_ids_of np ids).
Notation owns := (owns np ids).

Theorem gs_unique_goes : goes np (fun p => gs_unique usize lsize INT_MAX np p (ids p)) (fun p => Ret (ids' p)).
Proof.
  destruct fits as [us ls np1 npl mx fi lb pb].
  destruct (get_topology_goes usize lsize INT_MAX np ids us ls np1 npl mx fi lb pb) as (ord & N & top & num & tok & G).
  unfold gs_unique. eapply goes_trans; [exact (goes_bind np _ _ _ G)|]. apply goes_ext. intros p Hp. cbn [pbind].
  destruct (make_unique_ok usize lsize INT_MAX np ids fits p Hp ord N (top p) (Some (ids p)) (tok p Hp)) as (top' & E & _).
  { intros a Ea. congruence. }
  rewrite E. cbn [plift pbind snd option_map]. rewrite unique_ids_eq; auto.
Qed.

(** ** The ids after gs_unique *)
Lemma ids'_length p : length (ids' p) = length (ids p).
Proof. unfold unique_ids_of. rewrite map_length, seq_length. auto. Qed.
Lemma ids'_at p i : i < length (ids p) -> id_at (ids' p) i =
  if owns (label_at (ids p) i) p && (prim (ids p) (label_at (ids p) i) =? i) then Z.of_nat (label_at (ids p) i) else (- Z.of_nat (label_at (ids p) i))%Z.
Proof.
  intros Hi. unfold id_at, unique_ids_of. match goal with |- context [map ?g (seq 0 _)] => set (f := g) end.
  rewrite (nth_indep (map f (seq 0 (length (ids p)))) 0%Z (f 0)) by (rewrite map_length, seq_length; auto). rewrite map_nth, seq_nth by auto. reflexivity.
Qed.
Lemma label' p i : label_at (ids' p) i = label_at (ids p) i.
Proof.
  destruct (Nat.lt_ge_cases i (length (ids p))) as [L|L].
  - unfold label_at at 1. rewrite ids'_at by auto. destruct (_ && _); lia.
  - unfold label_at, id_at. rewrite !nth_overflow; auto. rewrite ids'_length; auto.
Qed.
Lemma flagged' p i : i < length (ids p) -> label_at (ids p) i <> 0 -> is_flagged (ids' p) i = negb (owns (label_at (ids p) i) p && (prim (ids p) (label_at (ids p) i) =? i)).
Proof. intros Hi Hx. unfold is_flagged. rewrite ids'_at by auto. destruct (_ && _); cbn [negb]; [apply Z.ltb_ge|apply Z.ltb_lt]; lia. Qed.
Lemma all_at' p x : all_at (ids' p) x = all_at (ids p) x.
Proof. unfold all_at, indices. rewrite ids'_length. apply filter_ext. intros i. rewrite label'. auto. Qed.
Lemma has' p x : has (ids' p) x = has (ids p) x.
Proof. unfold has. rewrite all_at'. auto. Qed.
Lemma owns_has x p : owns x p = true -> has (ids p) x = true.
Proof. intros O. apply owns_holder in O as [_ F]. apply unflagged_has; auto. Qed.
Lemma unflagged_at' p x : x <> 0 -> unflagged_at (ids' p) x = if owns x p then [prim (ids p) x] else [].
Proof.
  intros Hx. apply sorted_same_elements.
  - apply indices_sorted.
  - destruct (owns x p); repeat constructor.
  - intros i. rewrite in_unflagged_at, ids'_length, label'. destruct (owns x p) eqn:O; cbn [In].
    + pose proof (owns_has x p O) as Hh. split.
      * intros (Hi & El & F). left. rewrite flagged' in F by congruence. rewrite El, O in F. apply negb_false_iff in F. cbn [andb] in F. apply Nat.eqb_eq; auto.
      * intros [<-|[]]. split; [apply prim_lt; auto|]. rewrite prim_label by auto. split; auto.
        rewrite flagged' by (auto; rewrite ?prim_label; auto; apply prim_lt; auto). rewrite prim_label, O, Nat.eqb_refl; auto.
    + split; [|intros []]. intros (Hi & El & F). rewrite flagged' in F by congruence. rewrite El, O in F. discriminate.
Qed.
Lemma only_flagged' p x : x <> 0 -> only_flagged (ids' p) x = negb (owns x p).
Proof. intros Hx. unfold only_flagged. rewrite unflagged_at' by auto. destruct (owns x p); auto. Qed.

Lemma exchange' x p q : x <> 0 -> exchange ids' x p q = exchange ids x p q && (owns x p || owns x q).
Proof.
  intros Hx. unfold exchange. rewrite !has', !only_flagged' by auto. rewrite <- negb_orb, negb_involutive.
  destruct (has (ids p) x) eqn:E1, (has (ids q) x) eqn:E2; cbn [andb]; auto. destruct (p =? q); cbn [negb andb]; auto.
  destruct (owns x p) eqn:O1; cbn [orb]; [apply owns_holder in O1 as [_ ->]; auto|].
  destruct (owns x q) eqn:O2; [apply owns_holder in O2 as [_ ->]; rewrite andb_false_r; auto|]. rewrite andb_false_r. auto.
Qed.
Lemma partners' x p : x <> 0 -> partners np ids' x p = filter (fun q => owns x p || owns x q) (partners np ids x p).
Proof. intros Hx. unfold partners. rewrite filter_andb. apply filter_ext. intros q. apply exchange'; auto. Qed.

Lemma exchanged' x p : p < np -> x <> 0 -> (exists q, q < np /\ exchange ids x p q = true) -> exists q, q < np /\ exchange ids' x p q = true.
Proof.
  intros Hp Hx (q & Hq & He). pose proof He as He'. apply exchange_iff in He' as (Hh & Hhq & Npq & HF).
  assert (O : exists r, owns x r = true).
  { apply andb_false_iff in HF as [HF|HF]; [apply (owner_exists np ids x p)|apply (owner_exists np ids x q)]; auto. }
  destruct O as [r Or]. destruct (Nat.eq_dec r p) as [->|N].
  - exists q. split; auto. rewrite exchange' by auto. rewrite He, Or. auto.
  - apply owns_holder in Or as Or'. destruct Or' as [Hr Fr]. exists r. split; auto. rewrite exchange' by auto. rewrite Or, orb_true_r, andb_true_r.
    apply exchange_iff. repeat split; auto; [apply unflagged_has; auto|]. rewrite Fr. apply andb_false_r.
Qed.
Lemma sharing' x p : p < np -> x <> 0 -> sharing np ids' p x = sharing np ids p x.
Proof.
  intros Hp Hx. apply eq_true_iff_eq. unfold sharing. rewrite !negb_true_iff, !Nat.eqb_neq.
  assert (E : forall f : nat -> list Z, length (partners np f x p) <> 0 <-> exists q, q < np /\ exchange f x p q = true).
  { intros f. split.
    - intros H. destruct (partners np f x p) as [|q r] eqn:E; [cbn in H; lia|]. exists q. apply in_partners. rewrite E. left; auto.
    - intros (q & H). apply in_partners in H. destruct (partners np f x p); [destruct H|cbn; lia]. }
  rewrite !E. split.
  - intros (q & Hq & He). exists q. split; auto. rewrite exchange' in He by auto. apply andb_true_iff in He. tauto.
  - apply exchanged'; auto.
Qed.
Lemma shared' x : x <> 0 -> shared np ids' x = true <-> shared np ids x = true.
Proof.
  intros Hx. assert (E : forall f : nat -> list Z, shared np f x = true <-> exists p q, p < np /\ q < np /\ exchange f x p q = true).
  { intros f. unfold shared. rewrite existsb_exists. split.
    - intros (p & Hp & E). apply existsb_exists in E as (q & Hq & E). apply in_seq in Hp, Hq. exists p, q. split; [lia|]. split; [lia|]. auto.
    - intros (p & q & Hp & Hq & E). exists p. split; [apply in_seq; lia|]. apply existsb_exists. exists q. split; [apply in_seq; lia|auto]. }
  rewrite !E. split.
  - intros (p & q & Hp & Hq & He). exists p, q. split; auto. split; auto. rewrite exchange' in He by auto. apply andb_true_iff in He. tauto.
  - intros (p & q & Hp & Hq & He). exists p. destruct (exchanged' x p Hp Hx) as (r & Hr & He'); eauto.
Qed.
Lemma numbering' ord N : numbering np ids ord N -> numbering np ids' ord N.
Proof.
  intros (L & ND & HN & HL & HO). exists L. split; auto. split; auto. split; auto. intros x. rewrite HL. split; intros [Hx Hs]; split; auto; apply shared'; auto.
Qed.

(** No flagged entry stands before an unflagged entry of its label. *)
Hypothesis first_ok : forall p x i, p < np -> x <> 0 -> In i (all_at (ids p) x) -> prim (ids p) x <= i.

Lemma prim' p x : p < np -> x <> 0 -> has (ids p) x = true -> prim (ids' p) x = prim (ids p) x.
Proof.
  intros Hp Hx Hh. unfold prim at 1. rewrite unflagged_at' by auto. destruct (owns x p) eqn:O; auto. cbn [app].
  assert (E : flagged_at (ids' p) x = all_at (ids p) x).
  { apply sorted_same_elements; try apply indices_sorted. intros i. rewrite in_flagged_at, in_all_at, ids'_length, label'. split; [tauto|].
    intros [Hi El]. repeat split; auto. rewrite flagged' by congruence. rewrite El, O. auto. }
  rewrite E. pose proof (prim_in _ _ Hh) as Hin. pose proof (indices_sorted (length (ids p)) (fun i => label_at (ids p) i =? x)) as SS. fold (all_at (ids p) x) in SS.
  destruct (all_at (ids p) x) as [|j r] eqn:Ea; [destruct Hin|]. cbn [hd]. apply Nat.le_antisymm.
  - destruct Hin as [->|Hin]; auto. inversion SS as [|? ? _ HF]; subst. rewrite Forall_forall in HF. apply HF in Hin. lia.
  - apply first_ok; auto. rewrite Ea. left; auto.
Qed.
Lemma labels' p : p < np -> labels (ids' p) = labels (ids p).
Proof.
  intros Hp. unfold labels. rewrite ids'_length. erewrite map_ext by (intros; apply label'). f_equal. unfold indices. apply filter_ext_in. intros i Hi. apply in_seq in Hi.
  unfold is_prim. rewrite label'. destruct (Nat.eqb_spec (label_at (ids p) i) 0) as [|N]; auto. rewrite prim'; auto. apply has_label. lia.
Qed.
Lemma nz' p : p < np -> nz_rows (ids' p) = flat_map (grp2 np ids p) (labels (ids p)).
Proof.
  intros Hp. unfold nz_rows. rewrite labels' by auto. apply flat_map_ext_in. intros x Hx. apply in_labels in Hx as [Hx Hh].
  unfold grp, rows_of_label. rewrite prim', unflagged_at' by auto. unfold grp2.
  assert (R2 : forall i, In i (all_at (ids p) x) -> row2 np ids p i = NZ x i (negb (owns x p && (prim (ids p) x =? i))) (prim (ids p) x)).
  { intros i Hi. apply in_all_at in Hi as [_ El]. unfold row2. rewrite El. auto. }
  rewrite (map_ext_in _ _ _ R2).
  assert (F : flagged_at (ids' p) x = filter (fun i => negb (owns x p && (prim (ids p) x =? i))) (all_at (ids p) x)).
  { apply sorted_same_elements; [apply indices_sorted|apply StronglySorted_filter, indices_sorted|]. intros i.
    rewrite filter_In, in_flagged_at, in_all_at, ids'_length, label'. split.
    - intros (Hi & El & Ef). rewrite flagged' in Ef by congruence. rewrite El in Ef. auto.
    - intros ([Hi El] & Ef). rewrite flagged' by congruence. rewrite El. auto. }
  rewrite F. destruct (owns x p) eqn:O; cbn [andb].
  - pose proof (prim_in _ _ Hh) as Hin. pose proof (indices_sorted (length (ids p)) (fun i => label_at (ids p) i =? x)) as SS. fold (all_at (ids p) x) in SS.
    pose proof (fun i => first_ok p x i Hp Hx) as FO. destruct (all_at (ids p) x) as [|j r] eqn:Ea; [destruct Hin|]. clear R2 F.
    inversion SS as [|? ? SS' HF]; subst. rewrite Forall_forall in HF.
    assert (j = prim (ids p) x).
    { apply Nat.le_antisymm; [|apply FO; left; auto]. destruct Hin as [->|Hin]; auto. apply HF in Hin. lia. }
    subst j. cbn [map filter]. rewrite Nat.eqb_refl. cbn [negb app].
    assert (NE : forall i, In i r -> (prim (ids p) x =? i) = false) by (intros i Hi; apply Nat.eqb_neq; apply HF in Hi; lia).
    f_equal. rewrite filter_true_all by (intros i Hi; rewrite NE; auto). apply map_ext_in. intros i Hi. rewrite NE; auto.
  - cbn [negb map app]. rewrite filter_true_all; auto.
Qed.
Lemma sh' p : p < np -> sh_spec np ids' p = flat_map (newrun np ids p) (labels (ids p)).
Proof.
  intros Hp. unfold sh_spec. rewrite labels' by auto. apply flat_map_ext_in. intros x Hx. apply in_labels in Hx as [Hx Hh].
  rewrite partners' by auto. unfold newrun. apply map_ext_in. intros q Hq. apply filter_In in Hq as [Hq _]. apply in_partners in Hq as [Hq He]. apply exchange_iff in He as (_ & Hhq & _).
  unfold newrow. rewrite !prim', !only_flagged' by auto. auto.
Qed.

Lemma fits' : setup_fits usize lsize INT_MAX np ids'.
Proof.
  destruct fits as [us ls np1 npl mx fi lb pb]. constructor; auto.
  - intros p Hp. destruct (fi p Hp) as [A B]. split; [rewrite ids'_length; auto|]. intros i Hi. rewrite label'. rewrite ids'_length in Hi. auto.
  - assert (E : total np (fun p => labels (ids' p)) = total np (fun p => labels (ids p))).
    { unfold total. f_equal. f_equal. apply map_ext_in. intros p Hp. apply in_seq in Hp. apply labels'. lia. }
    rewrite E. auto.
  - assert (LE : total np (fun p => flat_map (fun x => partners np ids' x p) (labels (ids' p))) <= total np (fun p => flat_map (fun x => partners np ids x p) (labels (ids p)))).
    { unfold total. assert (B : forall qs, (forall q, In q qs -> q < np) -> length (concat (map (fun p => flat_map (fun x => partners np ids' x p) (labels (ids' p))) qs)) <=
        length (concat (map (fun p => flat_map (fun x => partners np ids x p) (labels (ids p))) qs))).
      { induction qs as [|q qs IH]; intros Hq; cbn [map concat]; auto. rewrite !app_length. apply Nat.add_le_mono; [|apply IH; intros; apply Hq; right; auto].
        rewrite labels' by (apply Hq; left; auto).
        assert (C : forall xs, (forall x, In x xs -> x <> 0) -> length (flat_map (fun x => partners np ids' x q) xs) <= length (flat_map (fun x => partners np ids x q) xs)).
        { induction xs as [|x xs IHx]; intros Hx; cbn [flat_map]; auto. rewrite !app_length. apply Nat.add_le_mono; [|apply IHx; intros; apply Hx; right; auto].
          rewrite partners' by (apply Hx; left; auto). apply filter_length_le. }
        apply C. intros x Hx. apply in_labels in Hx. tauto. }
      apply B. intros q Hq. apply in_seq in Hq. lia. }
    clear lb. eapply Nat.le_lt_trans; [|exact pb]. apply Nat.mul_le_mono_r, Nat.mul_le_mono_r. exact LE.
Qed.

Theorem gs_setup_unique_goes m : exists g, handle_ok usize np ids' g /\
  goes np (fun p => gs_setup usize lsize INT_MAX np p (ids p) true m) (fun p => Ret (g p)).
Proof.
  destruct fits as [us ls np1 npl mx fi lb pb].
  destruct (get_topology_goes usize lsize INT_MAX np ids us ls np1 npl mx fi lb pb) as (ord & N & top & num & tok & G).
  destruct (finite_choice (fun p top' => make_topology_unique usize lsize p (top p) None = Ok (top', None) /\ topology_ok np ids' ord N p top') (Top 0 [] [] []) np) as [top' Ht].
  { intros p Hp. destruct (make_unique_ok usize lsize INT_MAX np ids fits p Hp ord N (top p) None (tok p Hp)) as (t' & E & A & B & C & D); [discriminate|].
    exists t'. split; auto. constructor; auto.
    - rewrite nz'; auto.
    - rewrite sh'; auto.
    - eapply perm_trans; [exact D|]. unfold pr_spec. rewrite labels' by auto.
      rewrite (filter_ext_in (sharing np ids' p) (sharing np ids p)) by (intros x Hx; apply sharing'; auto; apply in_labels in Hx; tauto).
      unfold shl. erewrite map_ext_in; [reflexivity|]. intros x Hx. apply filter_In in Hx as [Hx _]. apply in_labels in Hx as [Hx Hh].
      cbn beta. unfold pr1. rewrite prim', only_flagged' by auto. auto. }
  destruct (remote_setup_goes usize lsize INT_MAX np ids' fits' ord N top' (numbering' _ _ num) (fun p Hp => proj2 (Ht p Hp)) m) as (r & [R _] & GR).
  exists (fun p => GS (local_map usize (t_nz (top' p)) true) (local_map usize (t_nz (top' p)) false) (flagged_primaries_map usize (t_nz (top' p))) (r p)).
  split; [eapply (handle_from_top usize lsize INT_MAX np ids' fits'); eauto; intros p Hp; apply (Ht p Hp)|]. unfold gs_setup.
  eapply goes_trans; [exact (goes_bind np (fun p top => pbind (plift (if true then '(t, _) <- make_topology_unique usize lsize p top None ;; Ok t else Ok top)) (fun top =>
    pbind (remote_setup usize lsize np p m top) (fun r =>
    Ret (GS (local_map usize (t_nz top) true) (local_map usize (t_nz top) false) (flagged_primaries_map usize (t_nz top)) r)))) _ _ G)|].
  eapply goes_trans; [apply (goes_ext np _ (fun p => pbind (remote_setup usize lsize np p m (top' p)) (fun r =>
    Ret (GS (local_map usize (t_nz (top' p)) true) (local_map usize (t_nz (top' p)) false) (flagged_primaries_map usize (t_nz (top' p))) r))))|].
  - intros p Hp. cbn [pbind]. destruct (Ht p Hp) as [-> _]. reflexivity.
  - exact (goes_bind np (fun p r => Ret (GS (local_map usize (t_nz (top' p)) true) (local_map usize (t_nz (top' p)) false) (flagged_primaries_map usize (t_nz (top' p))) r)) _ _ GR).
Qed.
End Unique.
