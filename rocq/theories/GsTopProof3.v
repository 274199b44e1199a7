(** unique_ids, transfers of structs, and the scan of ordinals. *)
From Verif Require Import Base BaseLemmas SortSpec SortLemmas Net NetProof NetWords NetWordsProof OpsSpec Comm CommSpec CommProof
  Transfer TransferSpec TransferProof TransferProof4 GsTop GsSpec ListLemmas GsSortProof GsTopProof1 GsTopProof2.
From Coq Require Import Sorting.Sorted Eqdep_dec.

Section Src.
Variable usize : nat.
Hypothesis us1 : 1 <= usize.
Notation unot := (unot usize).
Notation flagged := (flagged usize).

(** src_if of a label. *)
Definition src (l : list Z) (x : nat) : nat := if only_flagged l x then unot (prim l x) else prim l x.

Lemma src_facts l x : 2 * length l <= ulim usize -> has l x = true ->
  src l x < ulim usize /\ flagged (src l x) = only_flagged l x /\
  (if flagged (src l x) then unot (src l x) else src l x) = prim l x /\
  negb (src l x =? prim l x) = only_flagged l x.
Proof.
  intros Hn Hh. pose proof (prim_lt l x Hh) as Hp. pose proof (ulim_pos usize) as Hu.
  unfold src, GsTop.flagged, GsTop.unot, UINT_MAX. destruct (only_flagged l x).
  - destruct (Nat.ltb_spec (ulim usize - 1 - (ulim usize - 1 - prim l x)) (ulim usize - 1 - prim l x)); [|lia].
    repeat split; try lia.
  - destruct (Nat.ltb_spec (ulim usize - 1 - prim l x) (prim l x)); [lia|].
    repeat split; try lia.
Qed.

Lemma filter_first {A} (f : A -> bool) a l : f a = true -> (forall b, In b l -> f b = false) -> filter f (a :: l) = [a].
Proof. intros Ha Hl. cbn [filter]. rewrite Ha. f_equal. apply filter_nil_all; auto. Qed.

Lemma grp_first l x : has l x = true ->
  exists rest, grp l x = NZ x (prim l x) (only_flagged l x) (prim l x) :: rest /\
               forall r, In r rest -> z_i r <> prim l x.
Proof.
  intros Hh. unfold grp, rows_of_label. unfold prim, only_flagged.
  pose proof (indices_NoDup (length l) (fun i => (label_at l i =? x) && negb (is_flagged l i))) as N1.
  pose proof (indices_NoDup (length l) (fun i => (label_at l i =? x) && is_flagged l i)) as N2.
  fold (unflagged_at l x) in N1. fold (flagged_at l x) in N2.
  assert (Hd : forall i, In i (unflagged_at l x) -> ~ In i (flagged_at l x)).
  { intros i H1 H2. apply in_unflagged_at in H1. apply in_flagged_at in H2. destruct H1 as (_ & _ & E), H2 as (_ & _ & E2). congruence. }
  pose proof (prim_in l x Hh) as Hin. unfold prim in Hin.
  destruct (unflagged_at l x) as [|i us] eqn:Eu.
  - destruct (flagged_at l x) as [|j fs] eqn:Ef.
    + exfalso. apply has_iff in Hh. destruct Hh as (i & Hi & El).
      destruct (is_flagged l i) eqn:E; [assert (In i (flagged_at l x)) by (apply in_flagged_at; auto); rewrite Ef in *; auto|
        assert (In i (unflagged_at l x)) by (apply in_unflagged_at; auto); rewrite Eu in *; auto].
    + cbn [map app hd length Nat.eqb]. eexists. split; [reflexivity|]. intros r Hr. apply in_map_iff in Hr.
      destruct Hr as (k & <- & Hk). cbn [z_i]. intros ->. apply NoDup_cons_iff in N2. tauto.
  - cbn [map app hd length Nat.eqb]. eexists. split; [reflexivity|]. intros r Hr. apply in_app_or in Hr. rewrite !in_map_iff in Hr.
    destruct Hr as [(k & <- & Hk)|(k & <- & Hk)]; cbn [z_i]; intros ->.
    + apply NoDup_cons_iff in N1. tauto.
    + apply (Hd i); auto. left; auto.
Qed.

Lemma primaries_eq l : filter (fun r => z_i r =? z_primary r) (nz_rows l) =
  map (fun x => NZ x (prim l x) (only_flagged l x) (prim l x)) (labels l).
Proof.
  unfold nz_rows. rewrite filter_flat_map.
  rewrite (flat_map_ext_in _ (fun x => [NZ x (prim l x) (only_flagged l x) (prim l x)])).
  - induction (labels l) as [|x ys IH]; cbn [flat_map map app]; auto.
  - intros x Hx. apply in_labels in Hx. destruct Hx as [_ Hx]. pose proof (grp_primary l x) as G.
    destruct (grp_first l x Hx) as (rest & E & Hr). rewrite E in *. apply filter_first.
    + apply Nat.eqb_refl.
    + intros b Hb. apply Nat.eqb_neq. destruct (G b (or_intror Hb)) as [-> _]. auto.
Qed.

Lemma unique_ids_eq np l : unique_ids usize np (nz_rows l) =
  map (fun x => UI x (x mod np) (src l x)) (labels l).
Proof. unfold unique_ids. rewrite primaries_eq, map_map. apply map_ext. intros x. reflexivity. Qed.
End Src.

Section TransferOk.
Variable usize lsize INT_MAX np : nat.
Hypothesis us1 : 1 <= usize.
Hypothesis np_lim : np < ulim usize.
Hypothesis max_lim : INT_MAX <= ulim usize.

Lemma transfer_ok {X} size p_off (set_src : bool) (to : X -> row) (from : row -> X)
    (tg : X -> nat) (set : nat -> X -> X) (A : nat -> list X) :
  p_off + usize <= size -> usize < size ->
  (forall s x, s < np -> In x (A s) -> length (to x) = size /\ (forall b, In b (to x) -> b < 256) /\
     field usize p_off (to x) = tg x /\ tg x < np /\
     from (if set_src then set_field usize p_off s (to x) else to x) = set s x) ->
  total np A * (words_for usize (size - usize) + 3) * usize < INT_MAX ->
  exists out : nat -> list X,
    (forall r, r < np -> Permutation (out r) (sent_to np r tg set A)) /\
    goes np (fun s => transfer usize INT_MAX np s size p_off set_src to from (A s)) (fun r => Ret (out r)).
Proof.
  intros H1 H2 HA Ht.
  destruct (transfer_goes usize INT_MAX np size p_off us1 np_lim max_lim H1 H2 set_src (fun s => map to (A s))
              (fun s => zero_scratch usize (length (A s)) ((size - usize + usize - 1) / usize))) as (out & P & G).
  - intros s Hs r Hr. apply in_map_iff in Hr. destruct Hr as (x & <- & Hx). destruct (HA s x Hs Hx) as (E1 & E2 & _). auto.
  - intros s r Hs Hr. apply in_map_iff in Hr. destruct Hr as (x & <- & Hx). destruct (HA s x Hs Hx) as (_ & _ & -> & E & _). auto.
  - intros s Hs. unfold scratch_for, zero_scratch. cbn. rewrite !repeat_length, map_length. repeat split; auto.
  - replace (total np (fun s => map to (A s))) with (total np A); auto.
    unfold total. clear. induction (seq 0 np); cbn [map concat]; auto. rewrite !app_length, map_length, IHl. auto.
  - exists (fun r => map from (out r)). split.
    + intros r Hr. rewrite (P r Hr), sent_to_map. unfold sent_to. rewrite concat_map, map_map.
      match goal with |- Permutation (concat (map ?f _)) (concat (map ?g _)) =>
        rewrite (map_ext_in f g); [reflexivity|] end.
      intros s Hs. apply in_seq in Hs. cbv beta.
      rewrite map_map. rewrite (filter_ext_in (fun x => field usize p_off (to x) =? r) (fun x => tg x =? r)).
      2:{ intros x Hx. destruct (HA s x) as (_ & _ & -> & _); auto; lia. }
      apply map_ext_in. intros x Hx. apply filter_In in Hx. destruct (HA s x) as (_ & _ & _ & _ & E); auto; [lia|tauto].
    + exact (goes_bind np (fun _ R => Ret (map from R)) _ _ G).
Qed.
End TransferOk.

Lemma firstn_enc k n rest : firstn k (enc k n ++ rest) = enc k n.
Proof. rewrite firstn_app, enc_length, Nat.sub_diag. cbn [firstn]. rewrite app_nil_r. apply firstn_all2. rewrite enc_length. auto. Qed.
Lemma skipn_enc k n rest : skipn k (enc k n ++ rest) = rest.
Proof. rewrite skipn_app, enc_length, Nat.sub_diag. rewrite skipn_all2 by (rewrite enc_length; auto). auto. Qed.
Lemma skipn_add {A} a b (l : list A) : skipn (a + b) l = skipn b (skipn a l).
Proof. revert l; induction a as [|a IH]; intros [|x l]; cbn [skipn plus]; auto. destruct b; auto. Qed.

Section Bytes.
Variable usize lsize : nat.

Lemma in_enc3 a na b nb (P : nat -> Prop) : (forall x, In x (enc a na) -> P x) -> (forall x, In x b -> P x) ->
  forall x, In x (enc a na ++ b) -> nb = 0 -> P x.
Proof. intros H1 H2 x Hx _. apply in_app_or in Hx. destruct Hx; auto. Qed.

Lemma unique_row r s : u_id r < ulim lsize -> u_proc r < ulim usize -> u_src r < ulim usize -> s < ulim usize ->
  length (unique_id_bytes usize lsize r) = lsize + 2 * usize /\
  (forall b, In b (unique_id_bytes usize lsize r) -> b < 256) /\
  field usize lsize (unique_id_bytes usize lsize r) = u_proc r /\
  unique_id_of usize lsize (set_field usize lsize s (unique_id_bytes usize lsize r)) = UI (u_id r) s (u_src r).
Proof.
  intros H1 H2 H3 H4. unfold unique_id_bytes, unique_id_of, field, set_field. repeat split.
  - rewrite !app_length, !enc_length. lia.
  - intros b Hb. rewrite !in_app_iff in Hb. destruct Hb as [Hb|[Hb|Hb]]; eapply enc_byte; eauto.
  - rewrite skipn_enc, firstn_enc. apply dec_enc. auto.
  - rewrite firstn_enc, (skipn_add lsize usize), !skipn_enc.
    rewrite firstn_enc, firstn_enc, (skipn_add lsize usize), !skipn_enc. rewrite !dec_enc; auto.
Qed.

Lemma work_row w : w_id w < ulim lsize -> w_ord w < ulim lsize ->
  w_p1 w < ulim usize -> w_p2 w < ulim usize -> w_i1f w < ulim usize -> w_i2f w < ulim usize ->
  length (work_bytes usize lsize w) = 2 * lsize + 4 * usize /\
  (forall b, In b (work_bytes usize lsize w) -> b < 256) /\
  field usize (2 * lsize) (work_bytes usize lsize w) = w_p1 w /\
  work_of usize lsize (work_bytes usize lsize w) = w.
Proof.
  intros H1 H2 H3 H4 H5 H6. unfold work_bytes, work_of, field. 
  assert (E1 : forall r, skipn (2 * lsize) (enc lsize (w_id w) ++ enc lsize (w_ord w) ++ r) = r).
  { intros r. replace (2 * lsize) with (lsize + lsize) by lia. rewrite skipn_add, !skipn_enc. auto. }
  repeat split.
  - rewrite !app_length, !enc_length. lia.
  - intros b Hb. rewrite !in_app_iff in Hb. destruct Hb as [Hb|[Hb|[Hb|[Hb|[Hb|Hb]]]]]; eapply enc_byte; eauto.
  - rewrite E1, firstn_enc. apply dec_enc. auto.
  - cbv zeta beta. rewrite !(skipn_add (2 * lsize)), E1.
    replace (3 * usize) with (usize + (usize + usize)) by lia. replace (2 * usize) with (usize + usize) by lia.
    rewrite !skipn_add, Nat.mul_1_l, Nat.mul_0_l. cbn [skipn]. rewrite !skipn_enc, !firstn_enc.
    rewrite (firstn_all2 (enc usize (w_i2f w))) by (rewrite enc_length; lia).
    rewrite !dec_enc; auto. destruct w; reflexivity.
Qed.
End Bytes.

Lemma sum_app l1 l2 : sum (l1 ++ l2) = sum l1 + sum l2.
Proof. unfold sum. induction l1 as [|a l1 IH]; cbn [app fold_right]; auto. rewrite IH. lia. Qed.

Section Scan.
Variable lsize np : nat.
Hypothesis np1 : 1 <= np.

Lemma ulong_ext (a b : ulong_t lsize) : proj1_sig a = proj1_sig b -> a = b.
Proof.
  destruct a as [a Ha], b as [b Hb]. cbn. intros ->. f_equal. apply UIP_dec. decide equality.
Qed.
Lemma to_ulong_val n : n < ulim lsize -> proj1_sig (to_ulong lsize n) = n.
Proof. intros H. cbn. apply Nat.mod_small. auto. Qed.
Lemma ulong_cmonoid : cmonoid (ulong_add lsize) (to_ulong lsize 0).
Proof.
  assert (U : ulim lsize <> 0) by (pose proof (ulim_pos lsize); lia).
  constructor.
  - intros a b. apply ulong_ext. cbn. rewrite Nat.add_comm. auto.
  - intros a b c. apply ulong_ext. cbn. rewrite Nat.add_mod_idemp_l, Nat.add_mod_idemp_r by auto. f_equal. lia.
  - intros [a Ha]. apply ulong_ext. cbn [ulong_add to_ulong proj1_sig]. rewrite Nat.mod_0_l by auto. cbn [plus].
    apply Nat.mod_small, Nat.ltb_lt. auto.
Qed.
Lemma word_ulong_word a : word_ulong lsize (ulong_word lsize a) = a.
Proof.
  apply ulong_ext. destruct a as [a Ha]. unfold word_ulong, ulong_word. cbn [proj1_sig to_ulong].
  apply Nat.ltb_lt in Ha. rewrite dec_enc by auto. apply Nat.mod_small. auto.
Qed.

Lemma scan_ulong_goes (c : nat -> nat) : sum (map c (seq 0 np)) < ulim lsize ->
  exists r, goes np (fun p => scan_ulong lsize np p (c p)) (fun p => Ret (r p)) /\
  forall p, p < np -> exists a b, r p = [a; b] /\ proj1_sig a = sum (map c (seq 0 p)) /\ proj1_sig b = sum (map c (seq 0 np)).
Proof.
  intros Hs.
  pose proof (comm_scan_goes (ulong_add lsize) (to_ulong lsize 0) np 1 (fun p => [to_ulong lsize (c p)])
     (fun _ => [to_ulong lsize 0; to_ulong lsize 0]) (fun _ => [to_ulong lsize 0; to_ulong lsize 0]) ulong_cmonoid np1) as G.
  specialize (G (fun p _ => conj eq_refl (conj eq_refl eq_refl))).
  apply (goes_words (ulong_word lsize) (word_ulong lsize) word_ulong_word) in G. cbn [as_words] in G.
  eexists. split; [exact G|]. intros p Hp. cbn [vec seq map app nth]. unfold vec. cbn [seq map app nth].
  assert (R : forall n, n <= np -> proj1_sig (reduction (ulong_add lsize) (to_ulong lsize 0) (fun q => to_ulong lsize (c q)) 0 n)
             = sum (map c (seq 0 n))).
  { assert (Mono : forall n, n <= np -> sum (map c (seq 0 n)) < ulim lsize).
    { intros n Hn. replace np with (n + (np - n)) in Hs by lia. rewrite seq_app, map_app in Hs.
      pose proof sum_app as E.
      rewrite E in Hs. lia. }
    induction n as [|n IH]; intros Hn.
    - cbn. apply Nat.mod_small. apply ulim_pos.
    - specialize (Mono (S n) Hn) as Mn. unfold reduction in *. rewrite seq_S, !map_app, fold_left_app in *. cbn [fold_left map].
      pose proof sum_app as E.
      rewrite E in *. cbn [map sum plus] in *. unfold ulong_add at 1. unfold to_ulong at 1. cbn [proj1_sig].
      replace (sum [c n]) with (c n) in Mn |- * by (cbn; lia). rewrite IH by lia. rewrite to_ulong_val by lia. apply Nat.mod_small. lia. }
  eexists _, _. split; [reflexivity|]. split; apply R; lia.
Qed.
End Scan.
