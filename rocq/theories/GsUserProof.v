(** From the proofs about goes to the user's view. *)
From Verif Require Import Base BaseLemmas Net NetProof Sort SortSpec SortLemmas Transfer TransferSpec OpsSpec Comm CommSpec CommProof
  KernelSpec ListLemmas GsTop GsSpec GsSortProof GsTopProof1 GsTopProof4 GsExec GsCr Gs GsKernProof GsRunProof GsSetupProof GsSetupProof2
  GsUniqueProof4 GsUserSpec.

Lemma finished_inj {W A} (st : list (pstate W A)) : forall rs rs', finished st rs -> finished st rs' -> rs = rs'.
Proof.
  unfold finished. intros rs rs' H1 H2. rewrite H1 in H2. clear H1. revert rs' H2.
  induction rs as [|a rs IH]; intros [|b rs'] H; try discriminate; auto. cbn in H. injection H as -> H. f_equal; auto.
Qed.
Lemma returns_fun {W A} (ps : list (prog W A)) rs rs' : always_returns ps rs -> always_returns ps rs' -> rs = rs'.
Proof.
  intros H1 H2. destruct H1 as [n H1]. destruct (H1 [] _ eq_refl) as (rest & fin & E & F & _).
  rewrite (always_returns_unique ps rs' H2 _ _ _ E F). auto.
Qed.
Lemma returns_fun_at {W A} np (ps : list (prog W A)) (f g : nat -> A) :
  always_returns ps (map f (seq 0 np)) -> always_returns ps (map g (seq 0 np)) -> forall p, p < np -> f p = g p.
Proof.
  intros H1 H2 p Hp. pose proof (returns_fun _ _ _ H1 H2) as E. apply (f_equal (fun l => nth_error l p)) in E.
  rewrite !nth_error_map, seq_nth_error in E by auto. cbn in E. congruence.
Qed.

Lemma handle_ok_ext usize np ids g h : (forall p, p < np -> g p = h p) -> handle_ok usize np ids g -> handle_ok usize np ids h.
Proof.
  intros E [H1 H2 H3 H4 H5]. constructor; auto; try (intros p Hp; rewrite <- E by auto; auto).
  intros T op e mode vn t f u buf M Hu Hb Hn.
  destruct (H5 T op e mode vn t f u buf M Hu) as (u' & k & A & B); auto.
  { intros p Hp. rewrite E by auto. auto. }
  exists u', k. split; auto. eapply goes_trans; [|exact B]. apply goes_ext. intros p Hp. rewrite E by auto. auto.
Qed.

Lemma setup_handle usize lsize INT_MAX np ids m hs : setup_fits usize lsize INT_MAX np ids ->
  setup_gives usize lsize INT_MAX np ids false m hs -> handle_ok usize np ids hs.
Proof.
  intros F G. destruct (gs_setup_goes usize lsize INT_MAX np ids m F) as (g & H & G'). apply goes_always_fun in G'.
  apply (handle_ok_ext usize np ids g hs); auto. exact (returns_fun_at np _ g hs G' G).
Qed.

Section Gives.
Context {T : Type}.
Variable op : T -> T -> T.
Variable e : T.
Hypothesis M : cmonoid op e.
Variable usize np : nat.
Variable ids : nat -> list Z.
Variable hs : nat -> gs_data.
Hypothesis ok : handle_ok usize np ids hs.
Variable t : bool.

Lemma plain_data (l : list T) n : length l = n -> data_ok mode_plain 1 (UFlat l) n (fun i k => nth i l e).
Proof. intros Hl. split; [discriminate|]. split; [auto|]. split; auto. intros i Hi. apply nth_error_nth'. lia. Qed.
Lemma vec_data vn (l : list T) n : vn <> 0 -> length l = n * vn -> data_ok mode_vec vn (UFlat l) n (fun i k => nth (i * vn + k) l e).
Proof. intros Hv Hl. split; auto. split; auto. intros i k Hi Hk. apply nth_error_nth'. rewrite Hl. nia. Qed.
Lemma many_data vn (ls : list (list T)) n : vn <> 0 -> length ls = vn -> (forall l, In l ls -> length l = n) ->
  data_ok mode_many vn (UMany ls) n (fun i k => nth i (nth k ls []) e).
Proof.
  intros Hv Hl H. split; auto. split; auto. intros k Hk. exists (nth k ls []). split; [apply nth_error_nth'; lia|].
  assert (Hn : length (nth k ls []) = n) by (apply H, nth_In; lia). split; auto. intros i Hi. apply nth_error_nth'. lia.
Qed.

Lemma plain_list (u : udata T) n (f : nat -> nat -> T) : data_ok mode_plain 1 u n f -> u = UFlat (map (fun i => f i 0) (seq 0 n)).
Proof.
  intros D. apply (data_ok_unique mode_plain 1 u _ n f D). split; [discriminate|]. split; auto. split; [rewrite map_length, seq_length; auto|].
  intros i Hi. rewrite nth_error_map, seq_nth_error by auto. auto.
Qed.

(** The result of gs. *)
Definition result (u : nat -> list T) (p : nat) : list T :=
  map (gs_result op e np ids (fun q j => nth j (u q) e) t p) (seq 0 (length (ids p))).

Lemma gs_is u : (forall p, p < np -> length (u p) = length (ids p)) -> gs_gives usize np op e t hs u (result u).
Proof.
  intros Hu buf Hb.
  destruct (gs_aux_goes op e M usize np ids hs ok mode_plain 1 t (fun p i k => nth i (u p) e) (fun p => UFlat (u p))) with (buf := buf)
    as (w & Dw & G); auto.
  { intros p Hp. apply plain_data. auto. }
  apply goes_always_fun in G. unfold gs. replace (map (fun p => UFlat (result u p)) (seq 0 np)) with (map w (seq 0 np)); auto.
  apply map_ext_in. intros p Hp. apply in_seq in Hp. exact (plain_list _ _ _ (Dw p ltac:(lia))).
Qed.
Lemma buffers_exist vn : buffers np vn hs (fun p => repeat e (vn * buffer_size (g_r (hs p)))).
Proof. intros p Hp. apply repeat_length. Qed.
Lemma gs_is_iff u w : (forall p, p < np -> length (u p) = length (ids p)) ->
  gs_gives usize np op e t hs u w <-> forall p, p < np -> w p = result u p.
Proof.
  intros Hu. split.
  - intros G p Hp. pose proof (returns_fun_at np _ _ _ (G _ (buffers_exist 1)) (gs_is u Hu _ (buffers_exist 1)) p Hp) as E.
    cbn in E. congruence.
  - intros E buf Hb. pose proof (gs_is u Hu buf Hb) as G.
    replace (map (fun p => UFlat (w p)) (seq 0 np)) with (map (fun p => UFlat (result u p)) (seq 0 np)); auto.
    apply map_ext_in. intros p Hp. apply in_seq in Hp. rewrite E by lia. auto.
Qed.

Lemma gs_vec_is vn u w : vn <> 0 -> (forall p, p < np -> length (u p) = length (ids p) * vn) ->
  (forall p, p < np -> length (w p) = length (ids p) * vn /\
     forall i k, i < length (ids p) -> k < vn -> nth (i * vn + k) (w p) e = gs_result op e np ids (fun q j => nth (j * vn + k) (u q) e) t p i) ->
  gs_vec_gives usize np op e vn t hs u w.
Proof.
  intros Hv Hu Hw buf Hb.
  destruct (gs_aux_goes op e M usize np ids hs ok mode_vec vn t (fun p i k => nth (i * vn + k) (u p) e) (fun p => UFlat (u p))) with (buf := buf)
    as (w' & Dw & G); auto.
  { intros p Hp. apply vec_data; auto. }
  apply goes_always_fun in G. unfold gs_vec. replace (map (fun p => UFlat (w p)) (seq 0 np)) with (map w' (seq 0 np)); auto.
  apply map_ext_in. intros p Hp. apply in_seq in Hp. assert (Hp' : p < np) by lia. destruct (Hw p Hp') as [L E].
  eapply data_ok_unique; [apply Dw; auto|]. eapply data_ok_ext; [apply vec_data; eauto|]. intros i k Hi Hk. cbn beta. auto.
Qed.
Lemma gs_many_is vn u w : vn <> 0 -> (forall p, p < np -> length (u p) = vn /\ forall l, In l (u p) -> length l = length (ids p)) ->
  (forall p, p < np -> length (w p) = vn /\ (forall l, In l (w p) -> length l = length (ids p)) /\
     forall i k, i < length (ids p) -> k < vn -> nth i (nth k (w p) []) e = gs_result op e np ids (fun q j => nth j (nth k (u q) []) e) t p i) ->
  gs_many_gives usize np op e vn t hs u w.
Proof.
  intros Hv Hu Hw buf Hb.
  destruct (gs_aux_goes op e M usize np ids hs ok mode_many vn t (fun p i k => nth i (nth k (u p) []) e) (fun p => UMany (u p))) with (buf := buf)
    as (w' & Dw & G); auto.
  { intros p Hp. apply many_data; auto; apply Hu; auto. }
  apply goes_always_fun in G. unfold gs_many. replace (map (fun p => UMany (w p)) (seq 0 np)) with (map w' (seq 0 np)); auto.
  apply map_ext_in. intros p Hp. apply in_seq in Hp. assert (Hp' : p < np) by lia. destruct (Hw p Hp') as (L & L2 & E).
  eapply data_ok_unique; [apply Dw; auto|]. eapply data_ok_ext; [apply many_data; eauto|]. intros i k Hi Hk. cbn beta. auto.
Qed.

(** ** Values by id *)
Lemma values_indices (l : list Z) (w : list T) c : length w = length l ->
  map (fun j => nth j w e) (indices (length l) (fun j => c (id_at l j))) = values_of c (combine l w).
Proof.
  revert w; induction l as [|z l IH]; intros [|a w] H; try discriminate; auto.
  unfold indices, values_of, id_at. cbn [length seq combine filter fst nth]. rewrite <- seq_shift, filter_map.
  cbn in H. specialize (IH w ltac:(lia)).
  destruct (c z); cbn [map snd]; [f_equal|]; rewrite map_map; exact IH.
Qed.
Lemma total_values (u : nat -> list T) sel c : (forall p, p < np -> length (u p) = length (ids p)) ->
  (forall l, sel l = indices (length l) (fun j => c (id_at l j))) ->
  total_over op e np ids (fun q j => nth j (u q) e) sel = reduce op e (values_of c (entries np ids u)).
Proof.
  intros Hu Hs. unfold total_over, reduce. f_equal. unfold entries, values_of. rewrite !flat_map_concat_map.
  rewrite <- concat_filter_map, concat_map, !map_map. f_equal. apply map_ext_in. intros q Hq. apply in_seq in Hq.
  rewrite Hs. apply values_indices. apply Hu. lia.
Qed.
Lemma unflagged_ids l x : x <> 0 -> unflagged_at l x = indices (length l) (fun j => (id_at l j =? Z.of_nat x)%Z).
Proof.
  intros Hx. apply filter_ext. intros j. unfold label_at, is_flagged.
  destruct (Nat.eqb_spec (Z.abs_nat (id_at l j)) x), (Z.ltb_spec (id_at l j) 0), (Z.eqb_spec (id_at l j) (Z.of_nat x)); cbn; auto; lia.
Qed.
Lemma all_ids l x : all_at l x = indices (length l) (fun j => (Z.abs (id_at l j) =? Z.of_nat x)%Z).
Proof.
  apply filter_ext. intros j. unfold label_at.
  destruct (Nat.eqb_spec (Z.abs_nat (id_at l j)) x), (Z.eqb_spec (Z.abs (id_at l j)) (Z.of_nat x)); cbn; auto; lia.
Qed.

Lemma map_combine_nth {B} (f : Z * T -> B) (l : list Z) (w : list T) : length w = length l ->
  map f (combine l w) = map (fun i => f (id_at l i, nth i w e)) (seq 0 (length l)).
Proof.
  revert w; induction l as [|z l IH]; intros [|a w] H; try discriminate; auto.
  cbn [combine map length seq]. unfold id_at at 1. cbn [nth]. f_equal. rewrite <- seq_shift, map_map. apply IH. cbn in H; lia.
Qed.

Lemma forward_result u p : t = false -> p < np -> (forall p, p < np -> length (u p) = length (ids p)) ->
  result u p = map (fun x => if (fst x =? 0)%Z then snd x
                             else reduce op e (values_of (fun y => (y =? Z.abs (fst x))%Z) (entries np ids u))) (combine (ids p) (u p)).
Proof.
  intros Et Hp Hu. rewrite map_combine_nth by auto. apply map_ext. intros i. unfold gs_result. rewrite Et. cbn [fst snd].
  unfold gs_forward, label_at. destruct (Nat.eqb_spec (Z.abs_nat (id_at (ids p) i)) 0), (Z.eqb_spec (id_at (ids p) i) 0); auto; try lia.
  apply total_values; auto. intros l. rewrite unflagged_ids by auto. apply filter_ext. intros j. f_equal. lia.
Qed.
End Gives.
