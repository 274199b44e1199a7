(** The global hash table: bit masks and the cells of one process. *)
From Verif Require Import Base BaseLemmas SortLemmas ListLemmas Findpts FindptsGlobal FindptsSpec FindptsProof1 FindptsProof2
  FindptsProof3 FindptsProof5.
From Coq Require Import QArith Qround Lqa.
Open Scope nat_scope.

(** *** Bits *)
Definition bitat (mask : list nat) (j : nat) : bool :=
  match nth_error mask (j / 8) with Some x => Nat.testbit x (j mod 8) | None => false end.

Lemma set_bit_ok mask j : j / 8 < length mask ->
  exists mask', set_bit mask j = Ok mask' /\ length mask' = length mask /\
  forall i, bitat mask' i = (i =? j) || bitat mask i.
Proof.
  intros Hj. destruct (nth_error_lt_Some mask (j / 8) Hj) as [x Hx]. unfold set_bit.
  rewrite (rd_ok _ _ _ Hx). cbn [bind]. rewrite wr_ok by auto. eexists. split; [reflexivity|]. split; [apply upd_length|].
  intros i. unfold bitat. destruct (Nat.eq_dec (i / 8) (j / 8)) as [E|E].
  - rewrite E, nth_error_upd_eq, Hx by auto. rewrite Nat.lor_spec, Nat.pow2_bits_eqb, orb_comm. f_equal.
    pose proof (Nat.div_mod i 8). pose proof (Nat.div_mod j 8).
    destruct (Nat.eqb_spec i j) as [->|N]; [apply Nat.eqb_refl|]. apply Nat.eqb_neq. intros E2. apply N. lia.
  - rewrite nth_error_upd_ne by auto. destruct (Nat.eqb_spec i j) as [->|N]; [congruence|]. reflexivity.
Qed.

Lemma set_bits_ok (l : list nat) : forall mask, (forall j, In j l -> j / 8 < length mask) ->
  exists mask', foldM set_bit l mask = Ok mask' /\ length mask' = length mask /\
  forall i, bitat mask' i = existsb (Nat.eqb i) l || bitat mask i.
Proof.
  induction l as [|j l IH]; intros mask H; cbn [foldM].
  - exists mask. auto.
  - destruct (set_bit_ok mask j) as (m1 & E1 & L1 & B1); [apply H; left; auto|].
    destruct (IH m1) as (m2 & E2 & L2 & B2); [intros; rewrite L1; apply H; right; auto|].
    rewrite E1. cbn [bind]. exists m2. split; auto. split; [congruence|]. intros i. rewrite B2, B1. cbn [existsb].
    destruct (i =? j), (existsb (Nat.eqb i) l); auto.
Qed.

Lemma get_bit_ok mask j : j / 8 < length mask -> get_bit mask j = Ok (bitat mask j).
Proof.
  intros H. destruct (nth_error_lt_Some mask (j / 8) H) as [x Hx]. unfold get_bit, bitat. rewrite (rd_ok _ _ _ Hx), Hx. reflexivity.
Qed.

Lemma bitat_zero k j : bitat (repeat 0 k) j = false.
Proof.
  unfold bitat. destruct (nth_error (repeat 0 k) (j / 8)) eqn:E; auto. apply nth_error_In, repeat_spec in E. subst. apply Nat.bits_0.
Qed.

Lemma map_add_seq a n : forall s, map (fun i => a + i) (seq s n) = seq (a + s) n.
Proof. induction n as [|n IH]; intros s; cbn [seq map]; auto. rewrite IH. f_equal. f_equal. lia. Qed.

(** count_bits counts the bits. *)
Lemma byte_bits_le x : byte_bits x <= 8.
Proof. unfold byte_bits. change 8 with (length (seq 0 8)) at 2. generalize (seq 0 8). induction l; cbn; auto. destruct (Nat.testbit x a); cbn; lia. Qed.

Lemma count_bits_ok w mask : 1 <= w -> 8 * length mask < 256 ^ w ->
  count_bits w mask = length (filter (bitat mask) (seq 0 (8 * length mask))).
Proof.
  intros Hw. unfold count_bits. intros Hl.
  assert (G : forall suf pre a, mask = pre ++ suf -> a <= 8 * length pre ->
    fold_left (fun sum x => wrap w (sum + byte_bits x)) suf a =
    a + length (filter (bitat mask) (seq (8 * length pre) (8 * length suf)))).
  { induction suf as [|x suf IH]; intros pre a E Ha; cbn [fold_left].
    - cbn. lia.
    - pose proof (byte_bits_le x).
      assert (Lm : length mask = length pre + S (length suf)) by (rewrite E, app_length; reflexivity).
      assert (W : wrap w (a + byte_bits x) = a + byte_bits x) by (unfold wrap; apply Nat.mod_small; lia).
      rewrite W. rewrite (IH (pre ++ [x])) by (rewrite <- ?app_assoc, ?app_length; cbn [app length]; auto; lia).
      replace (8 * length (x :: suf)) with (8 + 8 * length suf) by (cbn [length]; lia).
      rewrite seq_app, filter_app, app_length. rewrite app_length. cbn [length]. replace (8 * (length pre + 1)) with (8 * length pre + 8) by lia.
      rewrite Nat.add_assoc. f_equal. f_equal. unfold byte_bits.
      replace (seq (8 * length pre) 8) with (map (fun i => 8 * length pre + i) (seq 0 8)).
      2:{ rewrite map_add_seq. f_equal. lia. }
      rewrite filter_map, map_length. f_equal. apply filter_ext_in. intros i Hi. apply in_seq in Hi. unfold bitat.
      replace ((8 * length pre + i) / 8) with (length pre) by (rewrite Nat.mul_comm, Nat.div_add_l, (Nat.div_small i 8); lia).
      replace ((8 * length pre + i) mod 8) with i by (rewrite Nat.add_comm, Nat.mul_comm, Nat.mod_add, Nat.mod_small; lia).
      rewrite E, nth_error_app2, Nat.sub_diag by auto. reflexivity. }
  rewrite (G mask [] 0); auto.
Qed.

(** *** Positions in a box of cells *)
Fixpoint mindex (bn : list (nat * nat)) (is : list nat) : nat :=
  match bn, is with
  | (base, n) :: bn', i :: is' => mindex bn' is' * n + (i - base)
  | _, _ => 0
  end.
Definition base_of (irs : list (nat * nat)) : list (nat * nat) := map (fun r => (fst r, snd r - fst r)) irs.
Definition total_of (irs : list (nat * nat)) : nat := fold_right Nat.mul 1 (map (fun r => snd r - fst r) irs).

Lemma mindex_multi irs : map (mindex (base_of irs)) (multi irs) = seq 0 (total_of irs).
Proof.
  induction irs as [|ir irs IH]; [reflexivity|]. cbn [multi]. rewrite map_flat_map.
  unfold total_of. cbn [map fold_right]. fold (total_of irs). set (n := snd ir - fst ir).
  rewrite (flat_map_ext_in _ (fun o => seq (mindex (base_of irs) o * n) n)).
  2:{ intros o _. rewrite map_map. unfold base_of. cbn [map mindex]. fold (base_of irs). fold n.
      unfold loop_range. fold n.
      replace (seq (mindex (base_of irs) o * n) n) with (map (fun i => mindex (base_of irs) o * n + i) (seq 0 n))
        by (rewrite map_add_seq, Nat.add_0_r; auto).
      replace (seq (fst ir) n) with (map (fun i => fst ir + i) (seq 0 n)) by (rewrite map_add_seq, Nat.add_0_r; auto).
      rewrite map_map. apply map_ext. intros i. f_equal. lia. }
  rewrite <- (flat_map_map (mindex (base_of irs)) (fun j => seq (j * n) n)), IH.
  generalize (total_of irs). intros m. rewrite Nat.mul_comm.
  induction m as [|m IHm]; [reflexivity|]. rewrite seq_S, flat_map_app, IHm. cbn [flat_map plus Nat.mul]. rewrite app_nil_r.
  rewrite (Nat.add_comm n (m * n)), seq_app. reflexivity.
Qed.
Lemma multi_total irs : length (multi irs) = total_of irs.
Proof. rewrite <- (map_length (mindex (base_of irs))), mindex_multi, seq_length. auto. Qed.
Lemma mindex_nth irs is : Forall2 (fun i ir => fst ir <= i < snd ir) is irs ->
  nth_error (multi irs) (mindex (base_of irs) is) = Some is /\ mindex (base_of irs) is < total_of irs.
Proof.
  intros H. apply in_multi in H. apply In_nth_error in H. destruct H as [k Hk].
  assert (E : mindex (base_of irs) is = k).
  { pose proof (map_nth_error (mindex (base_of irs)) _ _ Hk) as E. rewrite mindex_multi in E.
    assert (k < total_of irs) by (rewrite <- multi_total; eapply nth_error_Some_lt; eauto).
    rewrite (nth_error_nth' _ 0) in E by (rewrite seq_length; auto). rewrite seq_nth in E by auto. cbn in E. congruence. }
  rewrite E. split; auto. rewrite <- multi_total. eapply nth_error_Some_lt; eauto.
Qed.

(** *** The cells of one process *)
Lemma foldM_concat {A B S} (f : S -> B -> res S) (g : A -> list B) (h : S -> A -> res S) :
  forall l s, (forall a s, In a l -> h s a = foldM f (g a) s) -> foldM h l s = foldM f (concat (map g l)) s.
Proof.
  induction l as [|a l IH]; intros s H; cbn [foldM map concat]; auto. rewrite foldM_app, H by (left; auto).
  destruct (foldM f (g a) s); cbn [bind]; auto. apply IH. intros; apply H; right; auto.
Qed.

Lemma sub_ranges_in (irs rs : list (nat * nat)) : Forall2 (fun e l => fst l <= fst e /\ snd e <= snd l) irs rs ->
  forall is, Forall2 (fun i ir => fst ir <= i < snd ir) is irs -> Forall2 (fun i ir => fst ir <= i < snd ir) is rs.
Proof.
  induction 1 as [|e l irs rs [H1 H2] _ IH]; intros is Hj; inversion Hj; subst; constructor; [lia|apply IH; auto].
Qed.

Section Cells.
Variable F : doubles.
Variable rnd : Q -> Q.
Variable usize lsize : nat.
Hypothesis us1 : 1 <= usize.
Hypothesis ls1 : 1 <= lsize.
Variable hn np : nat.
Hypothesis hn1 : 1 <= hn.
Variable rngs : list (nat * nat).
Hypothesis Hr : Forall (fun ir => fst ir < snd ir <= hn) rngs.
Hypothesis Hu : hn ^ length rngs + 8 <= 256 ^ usize.
Hypothesis Hl : hn ^ length rngs < 256 ^ lsize.
Hypothesis Hls : hn < 256 ^ lsize.
Variable rg : box F -> list (nat * nat).
Variable obb : list (box F).
Hypothesis Hsub : forall b, In b obb ->
  Forall2 (fun e l => fst l <= fst e /\ snd e <= snd l) (rg b) rngs.

Lemma total_le : forall irs, Forall (fun ir => fst ir < snd ir <= hn) irs -> 1 <= total_of irs <= hn ^ length irs.
Proof.
  induction irs as [|ir irs IH]; intros H; [cbn; lia|]. inversion H; subst. unfold total_of. cbn [map fold_right length Nat.pow].
  fold (total_of irs). destruct (IH H3) as [I1 I2]. split; [nia|]. apply Nat.mul_le_mono; lia.
Qed.

Lemma mask_bits_eq irs rs : Forall2 (fun e l => fst l <= fst e /\ snd e <= snd l) irs rs ->
  Forall (fun ir => fst ir < snd ir <= hn) rs -> hn ^ length rs < 256 ^ lsize ->
  mask_bits lsize irs (base_of rs) = map (mindex (base_of rs)) (multi irs) /\
  Forall (fun j => j < total_of rs) (mask_bits lsize irs (base_of rs)).
Proof.
  intros H. induction H as [|e l irs rs [H1 H2] Hf IH]; intros Ha Hw.
  - cbn. split; auto.
  - inversion Ha as [|? ? Hl' Ha']; subst. cbn [length Nat.pow] in Hw.
    destruct IH as [I1 I2]; auto.
    { eapply Nat.le_lt_trans; [|exact Hw]. rewrite <- (Nat.mul_1_l (hn ^ length rs)) at 1. apply Nat.mul_le_mono_r; lia. }
    assert (Hm : mask_bits lsize (e :: irs) (base_of (l :: rs)) =
      flat_map (fun o => map (fun i => o * (snd l - fst l) + (i - fst l)) (loop_range e)) (mask_bits lsize irs (base_of rs))).
    { cbn [base_of map mask_bits]. fold (base_of rs). apply flat_map_ext_in. intros o Ho. apply map_ext_in. intros i Hi.
      rewrite Forall_forall in I2. specialize (I2 o Ho). apply in_loop_range in Hi.
      rewrite usub_ok by lia. unfold wrap. apply Nat.mod_small.
      pose proof (total_le rs Ha') as T. assert (Hb : o * (snd l - fst l) + (snd l - fst l) <= hn ^ length rs * hn).
      { replace (o * (snd l - fst l) + (snd l - fst l)) with ((o + 1) * (snd l - fst l)) by lia. apply Nat.mul_le_mono; lia. }
      rewrite (Nat.mul_comm hn) in Hw. lia. }
    split.
    + rewrite Hm, I1. cbn [multi]. rewrite flat_map_map, map_flat_map. apply flat_map_ext. intros o. rewrite map_map.
      cbn [base_of map mindex]. fold (base_of rs). reflexivity.
    + rewrite Hm. apply Forall_forall. intros j Hj. apply in_flat_map in Hj. destruct Hj as (o & Ho & Hj).
      apply in_map_iff in Hj. destruct Hj as (i & <- & Hi). apply in_loop_range in Hi.
      rewrite Forall_forall in I2. specialize (I2 o Ho). unfold total_of. cbn [map fold_right]. fold (total_of rs).
      set (n := snd l - fst l) in *. assert ((o + 1) * n <= total_of rs * n) by (apply Nat.mul_le_mono_r; lia). nia.
Qed.

Definition nbytes : nat := (total_of rngs + 7) / 8.
Lemma nbytes_bound : total_of rngs <= 8 * nbytes <= total_of rngs + 7.
Proof. unfold nbytes. pose proof (Nat.div_mod (total_of rngs + 7) 8). pose proof (Nat.mod_upper_bound (total_of rngs + 7) 8). lia. Qed.

Variable bd : box F.
Variable fc : list (option Q).
Hypothesis Hrg : forall b, In b obb -> hash_ranges F rnd lsize hn bd fc b = Ok (rg b).

Lemma mask_ok : exists mask, set_local_mask F rnd usize lsize hn bd fc (base_of rngs) obb (repeat 0 nbytes) = Ok mask /\
  length mask = nbytes /\
  forall j, bitat mask j = true <-> exists b is, In b obb /\ In is (multi (rg b)) /\ mindex (base_of rngs) is = j.
Proof.
  pose proof (total_le rngs Hr) as T. pose proof nbytes_bound as Nb.
  unfold set_local_mask.
  rewrite (foldM_concat set_bit (fun b => map (mindex (base_of rngs)) (multi (rg b)))).
  2:{ intros b s Hb. rewrite (Hrg b Hb). cbn [bind]. destruct (mask_bits_eq (rg b) rngs) as [E A]; auto.
      rewrite <- E. apply foldM_ext. intros j s' Hj. rewrite Forall_forall in A. specialize (A j Hj).
      f_equal. unfold wrap. apply Nat.mod_small. lia. }
  destruct (set_bits_ok (concat (map (fun b => map (mindex (base_of rngs)) (multi (rg b))) obb)) (repeat 0 nbytes)) as (mask & E & L & B).
  { intros j Hj. rewrite repeat_length. rewrite <- flat_map_concat_map in Hj. apply in_flat_map in Hj. destruct Hj as (b & Hb & Hj).
    destruct (mask_bits_eq (rg b) rngs) as [Em A]; auto. rewrite Em, Forall_forall in A. specialize (A j Hj).
    apply Nat.div_lt_upper_bound; lia. }
  exists mask. split; auto. split; [rewrite L, repeat_length; auto|]. intros j. rewrite B, bitat_zero, orb_false_r, existsb_exists.
  split.
  - intros (j' & Hj & E'). apply Nat.eqb_eq in E'. subst j'. rewrite <- flat_map_concat_map in Hj. apply in_flat_map in Hj.
    destruct Hj as (b & Hb & Hj). apply in_map_iff in Hj. destruct Hj as (is & E2 & Hi). exists b, is. auto.
  - intros (b & is & Hb & Hi & E2). exists j. split; [|apply Nat.eqb_refl]. rewrite <- flat_map_concat_map. apply in_flat_map.
    exists b. split; auto. apply in_map_iff. eauto.
Qed.

Definition pi_cell (c : nat) : proc_index := PI (c mod np) (c / np).

Lemma fill_fold mask nc : length mask = nbytes -> forall l k out,
  map (mindex (base_of rngs)) l = seq k (length l) -> k + length l <= total_of rngs ->
  (forall is, In is l -> cindex hn is < hn ^ length rngs) ->
  length out + length (filter (fun is => bitat mask (mindex (base_of rngs) is)) l) <= nc ->
  foldM (fun '(bit, out) hi =>
      b <- get_bit mask bit ;;
      if b : bool then
        if length out <? nc then
          Ok (wrap usize (bit + 1), out ++ [PI (hi mod np) (wrap usize (hi / np))])
        else UB
      else Ok (wrap usize (bit + 1), out)) (map (cindex hn) l) (k, out) =
  Ok (k + length l, out ++ map pi_cell (map (cindex hn) (filter (fun is => bitat mask (mindex (base_of rngs) is)) l))).
Proof.
  intros Lm. pose proof (total_le rngs Hr) as T. pose proof nbytes_bound as Nb.
  induction l as [|is l IH]; intros k out Hm Hk Hc Hn; cbn [map foldM filter length].
  - rewrite app_nil_r, Nat.add_0_r. reflexivity.
  - cbn [map length seq] in Hm, Hk, Hn. injection Hm as E Hm. cbn [filter] in Hn. rewrite E in *.
    rewrite get_bit_ok by (apply Nat.div_lt_upper_bound; lia). cbn [bind].
    assert (W : wrap usize (k + 1) = S k) by (unfold wrap; rewrite Nat.mod_small; lia).
    assert (W2 : wrap usize (cindex hn is / np) = cindex hn is / np).
    { unfold wrap. apply Nat.mod_small. specialize (Hc is (or_introl eq_refl)).
      assert (cindex hn is / np <= cindex hn is) by (destruct np as [|m]; [cbn; lia|]; apply Nat.div_le_upper_bound; nia). lia. }
    destruct (bitat mask k) eqn:Eb.
    + cbn [length] in Hn. destruct (Nat.ltb_spec (length out) nc); [|lia]. cbn [bind]. rewrite W, W2.
      rewrite IH; auto; [|lia|intros; apply Hc; right; auto|rewrite app_length; cbn [length]; lia].
      cbn [map]. rewrite <- app_assoc. f_equal. f_equal. lia.
    + cbn [bind]. rewrite W. rewrite IH; auto; [|lia|intros; apply Hc; right; auto]. f_equal. f_equal. lia.
Qed.

Theorem proc_cells_ok : exists mask L,
  set_local_mask F rnd usize lsize hn bd fc (base_of rngs) obb (repeat 0 nbytes) = Ok mask /\
  fill_hash usize lsize np (count_bits usize mask) mask (base_of rngs) hn = Ok (map pi_cell L) /\ NoDup L /\
  forall c, In c L <-> exists b is, In b obb /\ In is (multi (rg b)) /\ cindex hn is = c.
Proof.
  pose proof (total_le rngs Hr) as T. pose proof nbytes_bound as Nb.
  destruct mask_ok as (mask & E & L & B).
  set (f := fun is => bitat mask (mindex (base_of rngs) is)).
  exists mask, (map (cindex hn) (filter f (multi rngs))). split; auto.
  assert (Hlt : forall is, In is (multi rngs) -> Forall (fun i => i < hn) is /\ length is = length rngs).
  { intros is Hi. apply in_multi in Hi. split; [|eapply Forall2_len; eauto].
    clear - Hi Hr. induction Hi; constructor; inversion Hr; subst; auto; lia. }
  assert (Hc : count_bits usize mask = length (filter f (multi rngs))).
  { rewrite count_bits_ok by (auto; rewrite L; lia). rewrite L.
    replace (8 * nbytes) with (total_of rngs + (8 * nbytes - total_of rngs)) by lia. rewrite seq_app, filter_app, app_length.
    rewrite (filter_nil_all (bitat mask) (seq (0 + total_of rngs) _)).
    - rewrite <- mindex_multi, filter_map, map_length. cbn [length]. unfold f. lia.
    - intros j Hj. apply in_seq in Hj. apply not_true_iff_false. intros Hb. apply B in Hb. destruct Hb as (b & is & Hb & Hi & E2).
      destruct (mask_bits_eq (rg b) rngs) as [Em A]; auto. rewrite Em, Forall_forall in A.
      specialize (A j). rewrite <- E2 in A at 1. specialize (A (in_map _ _ _ Hi)). lia. }
  split; [|split].
  - unfold fill_hash.
    assert (Ec : cells lsize hn (map (fun bn => (fst bn, fst bn + snd bn)) (base_of rngs)) = map (cindex hn) (multi rngs)).
    { replace (map (fun bn => (fst bn, fst bn + snd bn)) (base_of rngs)) with rngs.
      - apply cells_multi; auto. + eapply Forall_impl; [|exact Hr]. cbn; intros; lia. + lia.
      - unfold base_of. rewrite map_map. cbn [fst snd]. rewrite <- (map_id rngs) at 1. apply map_ext_in. intros r Hin.
        rewrite Forall_forall in Hr. specialize (Hr r Hin). destruct r as [a z]. cbn [fst snd] in *. f_equal. lia. }
    rewrite Ec, (fill_fold mask (count_bits usize mask) L (multi rngs) 0 []).
    + cbn [bind app]. fold f. rewrite !map_length, Hc, Nat.sub_diag. cbn [repeat]. rewrite app_nil_r. reflexivity.
    + rewrite mindex_multi, multi_total. auto.
    + rewrite multi_total. lia.
    + intros is Hi. destruct (Hlt is Hi) as [H1 <-]. apply cindex_lt; auto.
    + cbn [length]. fold f. lia.
  - assert (Hin : forall is, In is (filter f (multi rngs)) -> In is (multi rngs)) by (intros is H; apply filter_In in H; tauto).
    pose proof (NoDup_filter f (multi_NoDup rngs)) as Nd. revert Nd Hin. generalize (filter f (multi rngs)).
    induction l as [|is l IH]; intros Nd Hin; cbn [map]; constructor.
    + intros H. apply in_map_iff in H. destruct H as (js & Ej & Hj). apply NoDup_cons_iff in Nd. apply (proj1 Nd).
      replace is with js; auto. destruct (Hlt is) as [A1 A2]; [apply Hin; left; auto|]. destruct (Hlt js) as [B1 B2]; [apply Hin; right; auto|].
      apply (cindex_inj hn); auto. congruence.
    + apply IH; [apply NoDup_cons_iff in Nd; tauto|]. intros; apply Hin; right; auto.
  - intros c. rewrite in_map_iff. split.
    + intros (is & <- & Hi). apply filter_In in Hi. destruct Hi as [Hi Hb]. unfold f in Hb. apply B in Hb.
      destruct Hb as (b & js & Hb & Hj & Ej). exists b, js. repeat split; auto. f_equal.
      apply in_multi in Hi. pose proof (mindex_nth rngs is Hi) as [N1 _].
      assert (Hj' : Forall2 (fun i ir => fst ir <= i < snd ir) js rngs).
      { apply in_multi in Hj. eapply sub_ranges_in; eauto. }
      pose proof (mindex_nth rngs js Hj') as [N2 _]. congruence.
    + intros (b & is & Hb & Hi & E2). exists is. split; auto. apply filter_In.
      assert (Hi' : In is (multi rngs)).
      { apply in_multi. apply in_multi in Hi. eapply sub_ranges_in; eauto. }
      split; auto. unfold f. apply B. exists b, is. auto.
Qed.
End Cells.
