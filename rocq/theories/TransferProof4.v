(** The transfer entry points. *)
From Verif Require Import Base BaseLemmas Sort SortSpec SortProof Net NetProof Crystal CrystalSpec CrystalProof
  Transfer TransferSpec TransferProof TransferProof2 TransferProof3.

Lemma payload_off1 usize size0 sizes' ext : (ext = false -> usize <= size0) ->
  off1 usize size0 ext + sum sizes' = payload usize ext (size0 :: sizes').
Proof. intros H. unfold off1, payload. cbn [sum fold_right]. fold (sum sizes'). destruct ext; [lia|]. specialize (H eq_refl). lia. Qed.

Lemma rs_words usize size0 sizes' ext : (ext = false -> usize <= size0) ->
  rs usize size0 sizes' ext = words_for usize (payload usize ext (size0 :: sizes')).
Proof. intros H. unfold rs, words_for. rewrite payload_off1; auto. Qed.

(** Restatement of transfer_many_goes with the vocabulary of the specification. *)
Theorem many_goes usize INT_MAX np sizes (maxs : nat -> list nat) fixed ext set_src p_off
    (T : nat -> list (nat * list row)) (sc : nat -> scratch) :
  1 <= usize -> np < ulim usize -> INT_MAX <= ulim usize -> sizes <> [] ->
  1 <= payload usize ext sizes ->
  (ext = false -> p_off + usize <= hd 0 sizes) ->
  (forall s, s < np -> columns_ok usize np ext p_off sizes (T s)) ->
  (forall s, s < np -> scratch_for usize (length (T s)) (words_for usize (payload usize ext sizes)) (sc s)) ->
  total np T * (words_for usize (payload usize ext sizes) + 3) * usize < INT_MAX ->
  (fixed = true -> forall r, r < np -> length (maxs r) = length sizes /\
    (forall m, In m (maxs r) -> length (sent_to np r fst (fun _ c => c) T) <= m) /\
    exists m, In m (maxs r) /\ m * words_for usize (payload usize ext sizes) < ulim usize) ->
  exists out : nat -> list (list row),
    (forall r, r < np -> Permutation (out r) (sent_to np r fst (retag usize ext set_src p_off) T)) /\
    goes np (fun s => sarray_transfer_many usize INT_MAX np s sizes (maxs s) fixed ext set_src p_off
                (map fst (T s)) (arrays (length sizes) (map snd (T s))) (sc s))
            (fun r => Ret (length (out r), arrays (length sizes) (out r))).
Proof.
  intros H1 H2 H3 H4 H5 H6 H7 H8 H9 H10. destruct sizes as [|size0 sizes']; [congruence|].
  assert (Hs : ext = false -> usize <= size0) by (intros E; specialize (H6 E); simpl in H6; lia).
  rewrite <- (rs_words usize size0 sizes' ext Hs) in *. rewrite <- (payload_off1 usize size0 sizes' ext Hs) in H5.
  apply transfer_many_goes; auto.
Qed.

Lemma sent_to_map {X Y Z} np q (tg : Y -> nat) (f : nat -> Y -> Z) (g : X -> Y) (T : nat -> list X) :
  sent_to np q tg f (fun s => map g (T s)) = sent_to np q (fun x => tg (g x)) (fun s x => f s (g x)) T.
Proof. unfold sent_to. f_equal. apply map_ext. intros s. rewrite filter_map, map_map. auto. Qed.

Lemma sent_to_ext {X Y} np q (tg tg' : X -> nat) (f f' : nat -> X -> Y) (T : nat -> list X) :
  (forall s x, s < np -> In x (T s) -> tg x = tg' x) ->
  (forall s x, s < np -> In x (T s) -> tg x = q -> f s x = f' s x) ->
  sent_to np q tg f T = sent_to np q tg' f' T.
Proof.
  intros H1 H2. unfold sent_to. f_equal. apply map_ext_in. intros s Hs. apply in_seq in Hs.
  rewrite (filter_ext_in (fun x => tg x =? q) (fun x => tg' x =? q)).
  2:{ intros x Hx. rewrite (H1 s x) by (auto; lia). auto. }
  apply map_ext_in. intros x Hx. apply filter_In in Hx as [Hx E]. apply Nat.eqb_eq in E.
  apply H2; auto; [lia|]. rewrite (H1 s x) by (auto; lia). auto.
Qed.

Lemma arrays_one (l : list row) : arrays 1 (map (fun r => [r]) l) = [l].
Proof. unfold arrays. cbn [seq map]. rewrite map_map. cbn [nth]. rewrite map_id. auto. Qed.

Lemma arrays_hd (l : list (list row)) : hd [] (arrays 1 l) = map (fun c => nth 0 c []) l.
Proof. reflexivity. Qed.

Lemma mapM_ok {A B} (f : A -> res B) (g : A -> B) l : (forall x, In x l -> f x = Ok (g x)) -> mapM f l = Ok (map g l).
Proof.
  induction l as [|x l IH]; intros H; cbn [mapM map]; auto. rewrite (H x) by (left; auto). cbn [bind].
  rewrite IH by (intros; apply H; right; auto). auto.
Qed.

Lemma proc_field_ok usize p_off A : (forall r, In r A -> p_off + usize <= length r) ->
  proc_field usize p_off A = Ok (map (field usize p_off) A).
Proof.
  intros H. apply mapM_ok. intros r Hr. specialize (H r Hr). unfold slice.
  destruct (Nat.leb_spec (p_off + usize) (length r)); [|lia]. cbn [bind]. auto.
Qed.

Lemma field_set usize p_off v r : p_off + usize <= length r -> v < ulim usize ->
  field usize p_off (set_field usize p_off v r) = v.
Proof.
  intros H1 H2. unfold field, set_field.
  rewrite skipn_len by (rewrite firstn_length; lia).
  rewrite firstn_len by (rewrite enc_length; auto). apply dec_enc. auto.
Qed.
Lemma set_field_same usize p_off r : p_off + usize <= length r -> (forall b, In b r -> b < 256) ->
  set_field usize p_off (field usize p_off r) r = r.
Proof.
  intros H1 H2. unfold field, set_field.
  set (m := firstn usize (skipn p_off r)).
  assert (Hm : length m = usize) by (unfold m; rewrite firstn_length, skipn_length; lia).
  rewrite <- Hm at 1. rewrite enc_dec.
  - rewrite <- (firstn_skipn p_off r) at 3. f_equal. rewrite <- (firstn_skipn usize (skipn p_off r)). fold m. f_equal.
    rewrite skipn_skipn_add. auto.
  - intros b Hb. apply H2. rewrite <- (firstn_skipn p_off r). apply in_or_app. right.
    rewrite <- (firstn_skipn usize (skipn p_off r)). apply in_or_app. auto.
Qed.
Lemma set_field_set usize p_off v w r : p_off + usize <= length r ->
  set_field usize p_off v (set_field usize p_off w r) = set_field usize p_off v r.
Proof.
  intros H. unfold set_field.
  rewrite firstn_len by (rewrite firstn_length; lia). do 2 f_equal.
  rewrite app_assoc. apply skipn_len. rewrite app_length, enc_length, firstn_length. lia.
Qed.
Lemma set_field_length usize p_off v r : p_off + usize <= length r -> length (set_field usize p_off v r) = length r.
Proof. intros H. unfold set_field. rewrite !app_length, enc_length, firstn_length, skipn_length. lia. Qed.
Lemma enc_byte k : forall n b, In b (enc k n) -> b < 256.
Proof.
  induction k as [|k IH]; intros n b H; cbn [enc] in H; [destruct H|].
  destruct H as [<-|H]; [apply Nat.mod_upper_bound; lia|eauto].
Qed.
Lemma in_firstn {A} n (l : list A) x : In x (firstn n l) -> In x l.
Proof. intros H. rewrite <- (firstn_skipn n l). apply in_or_app. auto. Qed.
Lemma in_skipn {A} n (l : list A) x : In x (skipn n l) -> In x l.
Proof. intros H. rewrite <- (firstn_skipn n l). apply in_or_app. auto. Qed.
Lemma set_field_bytes usize p_off v r b : (forall b, In b r -> b < 256) ->
  In b (set_field usize p_off v r) -> b < 256.
Proof.
  intros H Hb. unfold set_field in Hb. apply in_app_or in Hb as [Hb|Hb]; [eauto using in_firstn|].
  apply in_app_or in Hb as [Hb|Hb]; [eauto using enc_byte|eauto using in_skipn].
Qed.

Lemma combine_map_fst {A B} (l : list A) (l' : list B) : length l = length l' -> map fst (combine l l') = l.
Proof. revert l'; induction l as [|x l IH]; intros [|y l'] H; try discriminate; cbn [combine map fst]; auto. f_equal. apply IH. simpl in H. lia. Qed.
Lemma combine_map_snd {A B} (l : list A) (l' : list B) : length l = length l' -> map snd (combine l l') = l'.
Proof. revert l'; induction l as [|x l IH]; intros [|y l'] H; try discriminate; cbn [combine map snd]; auto. f_equal. apply IH. simpl in H. lia. Qed.

(** One array, target in the struct. *)
Section One.
Variable usize INT_MAX np size p_off : nat.
Hypothesis us1 : 1 <= usize.
Hypothesis np_lim : np < ulim usize.
Hypothesis max_lim : INT_MAX <= ulim usize.
Hypothesis poff : p_off + usize <= size.
Hypothesis more : usize < size.
Notation wf1 := (words_for usize (size - usize)).

Lemma transfer_goes (set_src : bool) (A : nat -> list row) (sc : nat -> scratch) :
  (forall s, s < np -> rows_of size (A s)) ->
  (forall s r, s < np -> In r (A s) -> field usize p_off r < np) ->
  (forall s, s < np -> scratch_for usize (length (A s)) wf1 (sc s)) ->
  total np A * (wf1 + 3) * usize < INT_MAX ->
  exists out : nat -> list row,
    (forall r, r < np -> Permutation (out r) (sent_to np r (field usize p_off)
        (fun s x => if set_src then set_field usize p_off s x else x) A)) /\
    goes np (fun s => sarray_transfer usize INT_MAX np s size p_off set_src (A s) (sc s)) (fun r => Ret (out r)).
Proof.
  intros HA Hp Hsc Htot.
  set (T := fun s => map (fun r => (field usize p_off r, [r])) (A s)).
  assert (Epay : payload usize false [size] = size - usize) by (unfold payload; cbn; lia).
  destruct (many_goes usize INT_MAX np [size] (fun s => [length (A s)]) false false set_src p_off T sc)
    as (out & Ho & G); auto; try (rewrite ?Epay; cbn [hd]; try lia; fail).
  - discriminate.
  - intros s Hs c Hc. unfold T in Hc. apply in_map_iff in Hc as (r & <- & Hr). cbn [fst snd hd].
    destruct (HA s Hs r Hr). split; [eauto|]. split; [constructor; auto|]. auto.
  - intros s Hs. rewrite Epay. unfold T. rewrite map_length. auto.
  - rewrite Epay. unfold total, T. rewrite <- map_map, <- concat_map, map_length. exact Htot.
  - exists (fun r => map (fun c => nth 0 c []) (out r)). split.
    + intros r Hr. rewrite (Permutation_map _ (Ho r Hr)). unfold T.
      rewrite (sent_to_map np r fst (retag usize false set_src p_off) (fun r0 => (field usize p_off r0, [r0])) A).
      unfold sent_to. rewrite concat_map, map_map. cbn [fst retag snd].
      erewrite map_ext_in; [apply Permutation_refl|]. intros s Hs. apply in_seq in Hs. rewrite map_map. cbn [nth].
      apply map_ext_in. intros x Hx. apply filter_In in Hx as [Hx _]. destruct set_src; auto.
      destruct (HA s ltac:(lia) x Hx) as [L B]. apply set_field_same; auto. lia.
    + eapply goes_trans.
      { apply (goes_ext np _ (fun s => pbind (sarray_transfer_many usize INT_MAX np s [size] [length (A s)] false false set_src p_off
           (map fst (T s)) (arrays 1 (map snd (T s))) (sc s)) (fun r => Ret (hd [] (snd r))))).
        intros s Hs. unfold sarray_transfer. rewrite proc_field_ok.
        2:{ intros r Hr. destruct (HA s Hs r Hr). lia. }
        cbn [plift pbind]. unfold T. rewrite !map_map. cbn [fst snd]. rewrite arrays_one. auto. }
      exact (goes_bind np (fun _ r => Ret (hd [] (snd r))) _ _ G).
Qed.

Lemma concat_filter_seq {X} (f : X -> nat) n : forall (l : list X), (forall x, In x l -> f x < n) ->
  Permutation (concat (map (fun s => filter (fun x => f x =? s) l) (seq 0 n))) l.
Proof.
  induction l as [|x l IH]; intros H.
  - cbn [filter]. replace (concat _) with (@nil X); auto. induction (seq 0 n); auto.
  - assert (Hx : f x < n) by (apply H; left; auto).
    transitivity (x :: concat (map (fun s => filter (fun x => f x =? s) l) (seq 0 n)));
      [|constructor; apply IH; intros y Hy; apply H; right; auto].
    clear IH H.
    assert (Hin : In (f x) (seq 0 n)) by (apply in_seq; lia).
    pose proof (seq_NoDup n 0) as Hnd. revert Hin Hnd. generalize (seq 0 n). clear.
    induction l0 as [|k l0 IH]; intros Hin Hnd; [destruct Hin|]. cbn [map concat]. inversion Hnd; subst.
    destruct Hin as [->|Hin].
    + cbn [filter]. rewrite Nat.eqb_refl. cbn [app]. constructor. apply Permutation_app_head.
      perm_eq. f_equal. apply map_ext_in. intros s Hs. destruct (Nat.eqb_spec (f x) s); [subst; contradiction|]. auto.
    + cbn [filter]. destruct (Nat.eqb_spec (f x) k); [subst; contradiction|].
      rewrite IH by auto. apply Permutation_sym, Permutation_middle.
Qed.

Lemma total_perm {X Y} (f : X -> nat) (g : nat -> X -> Y) (T : nat -> list X) (out : nat -> list Y) :
  (forall s x, s < np -> In x (T s) -> f x < np) ->
  (forall r, r < np -> Permutation (out r) (sent_to np r f g T)) -> total np out = total np T.
Proof.
  intros H1 H2. unfold total.
  assert (E : length (concat (map out (seq 0 np))) = length (concat (map (fun r => sent_to np r f g T) (seq 0 np)))).
  { assert (G : forall l (F : nat -> list Y), (forall r, In r l -> Permutation (out r) (F r)) ->
      length (concat (map out l)) = length (concat (map F l))).
    { clear. intros l F. induction l as [|r l IH]; intros G; auto.
      cbn [map concat]. rewrite !app_length, IH by (intros; apply G; right; auto).
      f_equal. apply Permutation_length. apply G. left; auto. }
    apply G. intros r Hr. apply in_seq in Hr. apply H2. lia. }
  rewrite E. clear E H2 out.
  transitivity (length (concat (map (fun r => filter (fun x => f x =? r) (concat (map T (seq 0 np)))) (seq 0 np)))).
  - assert (G : forall l, length (concat (map (fun r => sent_to np r f g T) l)) =
      length (concat (map (fun r => filter (fun x => f x =? r) (concat (map T (seq 0 np)))) l))); [|apply G].
    clear. intros l. induction l as [|r l IH]; auto. cbn [map concat]. rewrite !app_length. f_equal; auto.
    unfold sent_to. rewrite filter_concat, map_map. generalize (seq 0 np). intros l0.
    induction l0; auto. cbn [map concat]. rewrite !app_length, map_length. auto.
  - apply Permutation_length. apply concat_filter_seq. intros x Hx. apply in_concat in Hx as (l & Hl & Hx).
    apply in_map_iff in Hl as (s & <- & Hs). apply in_seq in Hs. apply (H1 s); auto; lia.
Qed.

Lemma transfer_twice_goes (A : nat -> list row) (sc1 : nat -> scratch) (sc2 : nat -> nat -> scratch) :
  (forall s, s < np -> rows_of size (A s)) ->
  (forall s r, s < np -> In r (A s) -> field usize p_off r < np) ->
  (forall s, s < np -> scratch_for usize (length (A s)) wf1 (sc1 s)) ->
  (forall s n, s < np -> scratch_for usize n wf1 (sc2 s n)) ->
  total np A * (wf1 + 3) * usize < INT_MAX ->
  exists out : nat -> list row,
    (forall r, r < np -> Permutation (out r) (A r)) /\
    goes np (fun s => pbind (sarray_transfer usize INT_MAX np s size p_off true (A s) (sc1 s)) (fun A1 =>
                      sarray_transfer usize INT_MAX np s size p_off true A1 (sc2 s (length A1))))
            (fun r => Ret (out r)).
Proof.
  intros HA Hp Hs1 Hs2 Ht.
  destruct (transfer_goes true A sc1) as (o1 & P1 & G1); auto.
  assert (I1 : forall r x, r < np -> In x (o1 r) -> exists s y, s < np /\ In y (A s) /\ field usize p_off y = r /\ x = set_field usize p_off s y).
  { intros r x Hr Hx. apply (Permutation_in _ (P1 r Hr)) in Hx. unfold sent_to in Hx.
    apply in_concat in Hx as (l & Hl & Hx). apply in_map_iff in Hl as (s & <- & Hs). apply in_seq in Hs.
    apply in_map_iff in Hx as (y & <- & Hy). apply filter_In in Hy as [Hy E]. apply Nat.eqb_eq in E.
    exists s, y. repeat split; auto. lia. }
  destruct (transfer_goes true o1 (fun s => sc2 s (length (o1 s)))) as (o2 & P2 & G2).
  { intros r Hr x Hx. destruct (I1 r x Hr Hx) as (s & y & Hs & Hy & _ & ->). destruct (HA s Hs y Hy) as [L B]. split.
    - rewrite set_field_length by lia. auto.
    - intros b Hb. eapply set_field_bytes; eauto. }
  { intros r x Hr Hx. destruct (I1 r x Hr Hx) as (s & y & Hs & Hy & _ & ->). destruct (HA s Hs y Hy) as [L B].
    rewrite field_set; lia. }
  { intros s Hs. auto. }
  { rewrite (total_perm (field usize p_off) _ A o1 Hp P1). exact Ht. }
  exists o2. split.
  - intros r Hr. rewrite (P2 r Hr). unfold sent_to at 1.
    transitivity (concat (map (fun s => filter (fun x => field usize p_off x =? s) (A r)) (seq 0 np))).
    2:{ apply concat_filter_seq. intros x Hx. eapply Hp; eauto. }
    assert (Q : forall s, In s (seq 0 np) ->
      Permutation (map (fun x => set_field usize p_off s x) (filter (fun x => field usize p_off x =? r) (o1 s)))
                  (filter (fun x => field usize p_off x =? s) (A r))).
    { intros s Hs. apply in_seq in Hs. rewrite (Permutation_filter _ _ _ (P1 s ltac:(lia))).
      unfold sent_to. rewrite filter_concat, map_map.
      assert (E : forall l, (forall s', In s' l -> s' < np) -> NoDup l -> In r l ->
        concat (map (fun s' => filter (fun x => field usize p_off x =? r)
           (map (fun x => set_field usize p_off s' x) (filter (fun x => field usize p_off x =? s) (A s')))) l) =
        map (fun x => set_field usize p_off r x) (filter (fun x => field usize p_off x =? s) (A r))).
      { assert (F : forall s' b, s' < np -> (s' =? r) = b -> filter (fun x => field usize p_off x =? r)
           (map (fun x => set_field usize p_off s' x) (filter (fun x => field usize p_off x =? s) (A s'))) =
           if b then map (fun x => set_field usize p_off s' x) (filter (fun x => field usize p_off x =? s) (A s')) else []).
        { intros s' b Hs' Eb. rewrite filter_map.
          rewrite (filter_ext_in _ (fun _ => b)).
          - destruct b; [f_equal|]; induction (filter _ (A s')); simpl; auto; f_equal; auto.
          - intros x Hx. apply filter_In in Hx as [Hx _]. destruct (HA s' Hs' x Hx). rewrite field_set by lia. auto. }
        assert (F0 : forall l, (forall s', In s' l -> s' < np) -> ~ In r l ->
           concat (map (fun s' => filter (fun x => field usize p_off x =? r)
           (map (fun x => set_field usize p_off s' x) (filter (fun x => field usize p_off x =? s) (A s')))) l) = []).
        { induction l as [|k l IH]; intros Hl Hn; auto. cbn [map concat]. rewrite (F k false).
          - cbn [app]. apply IH; [intros; apply Hl; right; auto|]. intros Hi; apply Hn; right; auto.
          - apply Hl. left; auto.
          - apply Nat.eqb_neq. intros ->. apply Hn. left; auto. }
        induction l as [|k l IH]; intros Hl Hnd Hin; [destruct Hin|]. cbn [map concat]. inversion Hnd; subst.
        destruct Hin as [->|Hin].
        - rewrite (F r true) by (auto; apply Nat.eqb_refl). rewrite F0 by (auto; intros; apply Hl; right; auto). apply app_nil_r.
        - rewrite (F k false); [apply IH; auto; intros; apply Hl; right; auto| |].
          + apply Hl. left; auto.
          + apply Nat.eqb_neq. intros ->. contradiction. }
      rewrite E; [|intros s' H'; apply in_seq in H'; lia|apply seq_NoDup|apply in_seq; lia].
      rewrite map_map. erewrite map_ext_in; [rewrite map_id; apply Permutation_refl|].
      intros x Hx. apply filter_In in Hx as [Hx Ex]. apply Nat.eqb_eq in Ex. cbn beta.
      destruct (HA r Hr x Hx) as [L B]. rewrite set_field_set by lia. rewrite <- Ex. apply set_field_same; auto. lia. }
    revert Q. generalize (seq 0 np). induction l as [|s l IH]; intros Q; [constructor|]. cbn [map concat].
    apply Permutation_app; [apply Q; left; auto|apply IH; intros; apply Q; right; auto].
  - eapply goes_trans; [|exact G2].
    exact (goes_bind np (fun s A1 => sarray_transfer usize INT_MAX np s size p_off true A1 (sc2 s (length A1))) _ _ G1).
Qed.
End One.

Lemma transfer_ext_goes usize INT_MAX np size (A : nat -> list row) (proc : nat -> list nat) (sc : nat -> scratch) :
  1 <= usize -> np < ulim usize -> INT_MAX <= ulim usize -> 1 <= size ->
  (forall s, s < np -> rows_of size (A s)) ->
  (forall s, s < np -> length (proc s) = length (A s)) ->
  (forall s p, s < np -> In p (proc s) -> p < np) ->
  (forall s, s < np -> scratch_for usize (length (A s)) (words_for usize size) (sc s)) ->
  length (concat (map A (seq 0 np))) * (words_for usize size + 3) * usize < INT_MAX ->
  exists out : nat -> list row,
    (forall r, r < np -> Permutation (out r) (sent_to np r fst (fun _ x => snd x) (fun s => combine (proc s) (A s)))) /\
    goes np (fun s => sarray_transfer_ext usize INT_MAX np s size (proc s) (A s) (sc s)) (fun r => Ret (out r)).
Proof.
  intros us1 np_lim max_lim Hsz HA Hl Hp Hsc Htot.
  set (T := fun s => map (fun x => (fst x, [snd x])) (combine (proc s) (A s))).
  assert (Epay : payload usize true [size] = size) by (unfold payload; cbn; lia).
  assert (LT : forall s, s < np -> length (T s) = length (A s)).
  { intros s Hs. unfold T. rewrite map_length, combine_length, Hl by auto. lia. }
  destruct (many_goes usize INT_MAX np [size] (fun s => [length (A s)]) false true false 0 T sc)
    as (out & Ho & G); auto; try (rewrite ?Epay; cbn [hd]; try lia; fail); try discriminate.
  - intros s Hs c Hc. unfold T in Hc. apply in_map_iff in Hc as ([p r] & <- & Hr). cbn [fst snd hd].
    split; [eapply Hp; eauto; eapply in_combine_l; eauto|].
    split; [constructor; auto; apply (HA s Hs); eapply in_combine_r; eauto|]. discriminate.
  - intros s Hs. rewrite Epay, LT; auto.
  - rewrite Epay. eapply Nat.le_lt_trans; [|exact Htot]. do 2 apply Nat.mul_le_mono_r. apply Nat.eq_le_incl.
    unfold total. assert (E : forall s, In s (seq 0 np) -> length (T s) = length (A s)) by (intros s Hs; apply in_seq in Hs; apply LT; lia).
    clear - E. induction (seq 0 np); auto. cbn [map concat]. rewrite !app_length, E by (left; auto). f_equal.
    apply IHl. intros; apply E; right; auto.
  - exists (fun r => map (fun c => nth 0 c []) (out r)). split.
    + intros r Hr. rewrite (Permutation_map _ (Ho r Hr)). unfold T.
      rewrite (sent_to_map np r fst (retag usize true false 0) (fun x => (fst x, [snd x])) (fun s => combine (proc s) (A s))).
      unfold sent_to. rewrite concat_map, map_map. cbn [fst retag snd].
      erewrite map_ext; [apply Permutation_refl|]. intros s. rewrite map_map. cbn [nth]. auto.
    + eapply goes_trans.
      { apply (goes_ext np _ (fun s => pbind (sarray_transfer_many usize INT_MAX np s [size] [length (A s)] false true false 0
           (map fst (T s)) (arrays 1 (map snd (T s))) (sc s)) (fun r => Ret (hd [] (snd r))))).
        intros s Hs. unfold sarray_transfer_ext. unfold T. rewrite !map_map. cbn [fst snd].
        replace (map (fun x : nat * row => [snd x]) (combine (proc s) (A s))) with (map (fun r : row => [r]) (map snd (combine (proc s) (A s)))) by apply map_map.
        rewrite arrays_one. rewrite combine_map_fst, combine_map_snd by auto. auto. }
      exact (goes_bind np (fun _ r => Ret (hd [] (snd r))) _ _ G).
Qed.

Lemma sent_to_length {X Y Z} (g : nat -> X -> Z) np q (tg : X -> nat) (f : nat -> X -> Y) (T : nat -> list X) :
  length (sent_to np q tg f T) = length (sent_to np q tg g T).
Proof. unfold sent_to. induction (seq 0 np); cbn [map concat]; auto. rewrite !app_length, !map_length. lia. Qed.

Lemma tuple_transfer_goes usize INT_MAX np lsize dsize mi ml md max key :
  let sizes := [mi * usize; ml * lsize; md * dsize] in
  let p_off := (key - 1) * usize in
  let target c := field usize p_off (nth 0 c []) in
  1 <= usize -> np < ulim usize -> INT_MAX <= ulim usize ->
  1 <= key <= mi -> 1 <= payload usize false sizes ->
  forall (T : nat -> list (list row)) (sc : nat -> scratch),
  (forall s c, s < np -> In c (T s) -> target c < np /\ Forall2 (fun r k => length r = k) c sizes) ->
  (forall s, s < np -> scratch_for usize (length (T s)) (words_for usize (payload usize false sizes)) (sc s)) ->
  total np T * (words_for usize (payload usize false sizes) + 3) * usize < INT_MAX ->
  max * words_for usize (payload usize false sizes) < ulim usize ->
  (forall r, r < np -> length (sent_to np r target (fun _ c => c) T) <= max) ->
  exists out : nat -> list (list row),
    (forall r, r < np -> Permutation (out r)
       (sent_to np r target (fun s c => set_field usize p_off s (nth 0 c []) :: tl c) T)) /\
    goes np (fun s => tuple_transfer usize INT_MAX np s lsize dsize mi ml md max key
                       (map (fun c => nth 0 c []) (T s)) (map (fun c => nth 1 c []) (T s))
                       (map (fun c => nth 2 c []) (T s)) (sc s))
            (fun r => Ret (length (out r), arrays 3 (out r))).
Proof.
  intros sizes p_off target H1 H2 H3 H4 H5 T sc H6 H7 H8 H9 H10.
  assert (Hpo : p_off + usize <= mi * usize) by (unfold p_off; nia).
  assert (L0 : forall s c, s < np -> In c (T s) -> length (nth 0 c []) = mi * usize /\ exists r0 rest, c = r0 :: rest).
  { intros s c Hs Hc. destruct (H6 s c Hs Hc) as [_ F]. inversion F; subst. cbn [nth]. eauto. }
  destruct (many_goes usize INT_MAX np sizes (fun _ => [max; max; max]) true false true p_off
     (fun s => map (fun c => (target c, c)) (T s)) sc) as (out & Ho & G); auto.
  - discriminate.
  - intros s Hs c Hc. apply in_map_iff in Hc as (c0 & <- & Hc). cbn [fst snd]. destruct (H6 s c0 Hs Hc) as [A1 A2].
    split; auto. split; auto. intros _. split; [exact Hpo|]. destruct (L0 s c0 Hs Hc) as (_ & r0 & rest & ->). auto.
  - intros s Hs. rewrite map_length. auto.
  - unfold total in *. rewrite <- map_map, <- concat_map, map_length. exact H8.
  - intros _ r Hr. split; [reflexivity|]. split.
    + intros m Hm. replace m with max by (cbn in Hm; intuition). etransitivity; [|exact (H10 r Hr)].
      rewrite (sent_to_map np r fst (fun _ c => c) (fun c => (target c, c)) T). cbn [fst].
      rewrite (sent_to_length (fun _ c => c)). auto.
    + exists max. split; [left; auto|auto].
  - exists out. split.
    + intros r Hr. rewrite (Ho r Hr).
      rewrite (sent_to_map np r fst (retag usize false true p_off) (fun c => (target c, c)) T). cbn [fst].
      rewrite (sent_to_ext np r target target _ (fun s c => set_field usize p_off s (nth 0 c []) :: tl c)); auto.
      intros s c Hs Hc _. destruct (L0 s c Hs Hc) as (_ & r0 & rest & ->). reflexivity.
    + eapply goes_trans; [|exact G]. apply goes_ext. intros s Hs. unfold tuple_transfer. fold p_off.
      rewrite proc_field_ok.
      * cbn [plift pbind]. rewrite !map_map. cbn [fst snd]. rewrite map_id. fold sizes. unfold arrays. cbn [length sizes seq map]. auto.
      * intros r Hr. apply in_map_iff in Hr as (c & <- & Hc). destruct (L0 s c Hs Hc) as [-> _]. exact Hpo.
Qed.
