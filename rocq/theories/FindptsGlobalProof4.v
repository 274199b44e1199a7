(** The global hash table: every process ends up with the lists of its cells. *)
From Verif Require Import Base BaseLemmas Sort SortSpec SortLemmas Net NetProof NetWords NetWordsProof OpsSpec Comm CommSpec CommProof
  Transfer TransferSpec TransferProof TransferProof2 TransferProof4 GsTop GsSpec GsSortProof GsTopProof3 ListLemmas CrystalProof
  Findpts FindptsGlobal FindptsSpec
  FindptsProof1 FindptsProof2 FindptsProof3 FindptsProof5 FindptsGlobalProof1 FindptsGlobalProof2 FindptsGlobalProof3.
From Coq Require Import QArith Qround Lqa Sorting.Sorted.
Open Scope nat_scope.

Lemma flen_le {X} (f : X -> bool) l : length (filter f l) <= length l.
Proof. induction l as [|x l IH]; cbn [filter]; auto. destruct (f x); cbn [length]; lia. Qed.
Lemma sent_to_length {X Y} np q (tg : X -> nat) (f : nat -> X -> Y) T : length (sent_to np q tg f T) <= total np T.
Proof.
  unfold sent_to, total. induction (seq 0 np) as [|s l IH]; cbn [map concat]; auto.
  rewrite !app_length, map_length. pose proof (flen_le (fun x => tg x =? q) (T s)). lia.
Qed.
Lemma in_sent_to {X Y} np q (tg : X -> nat) (f : nat -> X -> Y) T y :
  In y (sent_to np q tg f T) <-> exists s x, s < np /\ In x (T s) /\ tg x = q /\ y = f s x.
Proof.
  unfold sent_to. rewrite in_concat. split.
  - intros (l & Hl & Hy). apply in_map_iff in Hl. destruct Hl as (s & <- & Hs). apply in_seq in Hs.
    apply in_map_iff in Hy. destruct Hy as (x & <- & Hx). apply filter_In in Hx. destruct Hx as [Hx E]. apply Nat.eqb_eq in E.
    exists s, x. repeat split; auto; lia.
  - intros (s & x & Hs & Hx & E & ->). exists (map (f s) (filter (fun x => tg x =? q) (T s))). split.
    + apply in_map_iff. exists s. split; auto. apply in_seq. lia.
    + apply in_map. apply filter_In. split; auto. apply Nat.eqb_eq. auto.
Qed.
Lemma total_map {X Y} np (f : X -> Y) T : total np (fun s => map f (T s)) = total np T.
Proof. unfold total. induction (seq 0 np) as [|s l IH]; cbn [map concat]; auto. rewrite !app_length, map_length, IH. auto. Qed.
Lemma total_perm {X} np (T T' : nat -> list X) : (forall p, p < np -> Permutation (T p) (T' p)) -> total np T = total np T'.
Proof.
  intros H. unfold total. assert (H' : forall p, In p (seq 0 np) -> Permutation (T p) (T' p)) by (intros p Hp; apply H; apply in_seq in Hp; lia).
  revert H'. generalize (seq 0 np). clear. induction l as [|s l IH]; intros H; cbn [map concat]; auto.
  rewrite !app_length, IH, (Permutation_length (H s (or_introl eq_refl))); auto. intros; apply H; right; auto.
Qed.
Lemma filter_eqb_NoDup c l : NoDup l -> filter (fun x => x =? c) l = if existsb (Nat.eqb c) l then [c] else [].
Proof.
  induction 1 as [|x l Hx Hn IH]; cbn [filter existsb]; auto. rewrite (Nat.eqb_sym c x). destruct (Nat.eqb_spec x c) as [->|E]; cbn [orb]; auto.
  f_equal. rewrite IH. replace (existsb (Nat.eqb c) l) with false; auto. symmetry. apply not_true_iff_false. rewrite existsb_exists.
  intros (y & Hy & Ey). apply Nat.eqb_eq in Ey. congruence.
Qed.

Definition cdo := cell_digits_ok 1 (le_n 1) 2 (le_n 2).
(** A cell is in a box iff its digits are in the ranges of the box. *)
Section Digits.
Variable F : doubles.
Variable rnd : Q -> Q.
Lemma ranges_nth n (bd b : box F) k rb rc : nth_error b k = Some rb -> nth_error bd k = Some rc ->
  nth_error (ranges_of F rnd n bd b) k = Some (cell_range F rnd n rc rb).
Proof.
  revert bd k. unfold ranges_of. induction b as [|x b IH]; intros [|y bd] [|k] H1 H2; cbn in *; try discriminate; auto. congruence.
Qed.
Lemma digits_cell n (bd b : box F) c : 1 <= n -> length b = length bd -> c < n ^ length bd ->
  (Forall2 (fun i ir => fst ir <= i < snd ir) (cell_digits n (length bd) c) (ranges_of F rnd n bd b) <-> cell_in_box F rnd n bd b c).
Proof.
  intros Hn Lb Hc. destruct (cdo n (length bd) Hn c Hc) as (L & _ & _ & N). split.
  - intros H k rb rc H1 H2. cbv zeta. assert (Hk : k < length bd) by (eapply nth_error_Some_lt; eauto).
    exact (Forall2_at _ _ _ H k _ _ (N k Hk) (ranges_nth n bd b k rb rc H1 H2)).
  - intros H. apply Forall2_nth; [unfold ranges_of; rewrite map_length, combine_length; lia|].
    intros k i ir Hi Hir. assert (Hk : k < length bd) by (rewrite <- L; eapply nth_error_Some_lt; eauto).
    rewrite N in Hi by auto. injection Hi as <-.
    destruct (nth_error_lt_Some b k) as [rb Hb]; [lia|]. destruct (nth_error_lt_Some bd k) as [rc Hb2]; [lia|].
    rewrite (ranges_nth n bd b k rb rc Hb Hb2) in Hir. injection Hir as <-. apply (H k rb rc Hb Hb2).
Qed.
Lemma multi_cell n (bd b : box F) c : 1 <= n -> length b = length bd ->
  Forall (fun ir => fst ir < snd ir <= n) (ranges_of F rnd n bd b) ->
  ((exists is, In is (multi (ranges_of F rnd n bd b)) /\ cindex n is = c) <-> c < n ^ length bd /\ cell_in_box F rnd n bd b c).
Proof.
  intros Hn Lb Hr. split.
  - intros (is & Hi & <-). apply in_multi in Hi.
    assert (Li : length is = length bd) by (rewrite (Forall2_len _ _ _ Hi); unfold ranges_of; rewrite map_length, combine_length; lia).
    assert (Hlt : Forall (fun i => i < n) is).
    { revert Hi Hr. clear. generalize (ranges_of F rnd n bd b). induction is as [|i is IH]; intros l Hi Hr; inversion Hi; subst; constructor;
      inversion Hr; subst; [lia|eapply IH; eauto]. }
    assert (Hc : cindex n is < n ^ length bd) by (rewrite <- Li; apply cindex_lt; auto). split; auto.
    apply digits_cell; auto. destruct (cdo n (length bd) Hn _ Hc) as (L & A & C & _).
    rewrite (cindex_inj n (cell_digits n (length bd) (cindex n is)) is) by (auto; congruence). auto.
  - intros [Hc Hb]. exists (cell_digits n (length bd) c). split; [|apply cdo; auto].
    apply in_multi. apply digits_cell; auto.
Qed.
End Digits.

Section Bytes.
Variable usize : nat.
Lemma pi_row x s : pi_proc x < 256 ^ usize -> pi_index x < 256 ^ usize -> s < 256 ^ usize ->
  length (pi_bytes usize x) = 2 * usize /\ (forall b, In b (pi_bytes usize x) -> b < 256) /\
  field usize 0 (pi_bytes usize x) = pi_proc x /\ pi_of usize (set_field usize 0 s (pi_bytes usize x)) = PI s (pi_index x).
Proof.
  intros H1 H2 H3. unfold pi_bytes, pi_of, field, set_field. repeat split.
  - rewrite app_length, !enc_length. lia.
  - intros b Hb. apply in_app_or in Hb. destruct Hb as [Hb|Hb]; eapply enc_byte; eauto.
  - cbn [skipn]. rewrite firstn_enc. apply dec_enc. auto.
  - cbn [firstn app Nat.add]. rewrite skipn_enc, firstn_enc, skipn_enc, !dec_enc; auto.
Qed.
End Bytes.

Section Build.
Variable F : doubles.
Notation dbl := (dbl F).
Notation val := (val F).
Variable rnd : Q -> Q.
Hypothesis R : rounding rnd.
Variable usize lsize INT_MAX np : nat.
Hypothesis us1 : 1 <= usize.
Hypothesis usls : usize <= lsize.
Hypothesis np1 : 1 <= np.
Hypothesis np_lim : np < 256 ^ usize.
Hypothesis max_lim : INT_MAX <= 256 ^ usize.
Variable dzero : dbl.
Variable D : nat.
Hypothesis D2 : 2 <= D.
Variable obb : nat -> list (box F).
Hypothesis Hob : forall p, p < np -> boxes F D (obb p).
Notation lb := (fun p => hash_bb F dzero D (obb p)).
Notation bd := (gbd F np D lb).
Variable root : nat -> nat.
Variable hs : nat -> nat.
Hypothesis Hhs : sum (map hs (seq 0 np)) < 256 ^ lsize.
Notation hn := (root (sum (map hs (seq 0 np)))).
Hypothesis hn1 : 1 <= hn.
Hypothesis Hsz : 2 * hn ^ D + 8 <= 256 ^ usize.
Hypothesis Hcl : forall p b, p < np -> In b (obb p) -> clear F rnd bd b /\ thick_at F rnd hn bd b.
Variable L : nat -> list nat.
Hypothesis HL : forall p, p < np -> cells_of F rnd hn bd (obb p) (L p).
Hypothesis Htot : total np L * 4 * usize < INT_MAX.

Lemma lb_len p : p < np -> length (lb p) = D.
Proof. intros Hp. apply hash_bb_spec. auto. Qed.
Lemma bd_len : length bd = D.
Proof. exact (gbd_length F np D np1 lb lb_len). Qed.
Lemma lb_sub p : p < np -> sub_box F (lb p) bd.
Proof. intros Hp. apply (gbd_bounds F np D np1 lb lb_len). apply in_map_iff. exists p. split; auto. apply in_seq. lia. Qed.
Lemma el_sub_lb p b : p < np -> In b (obb p) -> sub_box F b (lb p).
Proof. intros Hp Hb. apply (hash_bb_spec F dzero D (obb p)); auto. Qed.
Lemma el_sub p b : p < np -> In b (obb p) -> sub_box F b bd.
Proof. intros Hp Hb. eapply sub_box_trans; [apply el_sub_lb; eauto|apply lb_sub; auto]. Qed.

Lemma pow_mono_us : 256 ^ usize <= 256 ^ lsize.
Proof. apply Nat.pow_le_mono_r; lia. Qed.
Lemma hn_few : few lsize hn.
Proof. apply (few_of_pow lsize ltac:(lia) hn D D2). pose proof pow_mono_us. lia. Qed.
Lemma hn_le : hn <= hn ^ D.
Proof. rewrite <- (Nat.pow_1_r hn) at 1. apply Nat.pow_le_mono_r; lia. Qed.

Lemma el_ranges p b : p < np -> In b (obb p) ->
  hash_ranges F rnd lsize hn bd (hash_setfac F rnd bd hn) b = Ok (ranges_of F rnd hn bd b) /\
  Forall (fun ir => fst ir < snd ir <= hn) (ranges_of F rnd hn bd b).
Proof.
  intros Hp Hb. apply ranges_ok; auto; [lia|apply hn_few|apply (el_sub p); auto|apply (Hob p Hp); auto|].
  apply (Hcl p b Hp Hb). auto.
Qed.

Lemma some_el p : p < np -> exists b, In b (obb p).
Proof. intros Hp. destruct (Hob p Hp) as [H _]. destruct (obb p) as [|b l]; [congruence|]. exists b. left. auto. Qed.

Lemma lb_ranges p : p < np ->
  hash_ranges F rnd lsize hn bd (hash_setfac F rnd bd hn) (lb p) = Ok (ranges_of F rnd hn bd (lb p)) /\
  Forall (fun ir => fst ir < snd ir <= hn) (ranges_of F rnd hn bd (lb p)).
Proof.
  intros Hp. destruct (some_el p Hp) as [b Hb]. pose proof (el_sub_lb p b Hp Hb) as Hs.
  assert (Ho : ordered F b) by (apply (Hob p Hp); auto).
  pose proof (proj1 (Hcl p b Hp Hb) hn hn1) as Hc.
  apply ranges_ok; auto; [lia|apply hn_few|apply lb_sub; auto| |].
  - apply Forall_forall. intros r Hr. apply In_nth_error in Hr. destruct Hr as [k Hk].
    destruct (nth_error_lt_Some b k) as [r' Hr']; [rewrite (Forall2_len _ _ _ Hs); eapply nth_error_Some_lt; eauto|].
    destruct (Forall2_at _ _ _ Hs k r' r Hr' Hk). unfold ordered in Ho. rewrite Forall_forall in Ho.
    specialize (Ho r' (nth_error_In _ _ Hr')). lra.
  - apply Forall2_nth; [rewrite bd_len; apply lb_len; auto|]. intros k r c Hr Hc'.
    destruct (nth_error_lt_Some b k) as [r' Hr']; [rewrite (Forall2_len _ _ _ Hs); eapply nth_error_Some_lt; eauto|].
    destruct (Forall2_at _ _ _ Hs k r' r Hr' Hr). destruct (Forall2_at _ _ _ Hc k r' c Hr' Hc') as [W P]. split; auto.
    eapply Qle_lt_trans; [|exact P]. apply pos_mono; auto.
Qed.

Lemma ranges_sub p b : p < np -> In b (obb p) ->
  Forall2 (fun e l => fst l <= fst e /\ snd e <= snd l) (ranges_of F rnd hn bd b) (ranges_of F rnd hn bd (lb p)).
Proof.
  intros Hp Hb. pose proof (el_sub_lb p b Hp Hb) as Hs. destruct (Hcl p b Hp Hb) as [Hc Ht]. specialize (Hc hn hn1).
  pose proof (el_sub p b Hp Hb) as Hs2. pose proof (lb_sub p Hp) as Hs3.
  assert (Lb : length b = D) by (rewrite <- bd_len; apply (Forall2_len _ _ _ Hs2)).
  assert (Ll : length (lb p) = D) by (apply lb_len; auto).
  apply Forall2_nth; [unfold ranges_of; rewrite !map_length, !combine_length; lia|].
  intros k e l He Hl. assert (Hk : k < D).
  { apply nth_error_Some_lt in He. unfold ranges_of in He. rewrite map_length, combine_length in He. lia. }
  destruct (nth_error_lt_Some b k) as [rb Hrb]; [lia|]. destruct (nth_error_lt_Some (lb p) k) as [rl Hrl]; [lia|].
  destruct (nth_error_lt_Some bd k) as [rc Hrc]; [rewrite bd_len; lia|].
  rewrite (ranges_nth F rnd hn bd b k rb rc Hrb Hrc) in He. rewrite (ranges_nth F rnd hn bd (lb p) k rl rc Hrl Hrc) in Hl.
  injection He as <-. injection Hl as <-.
  destruct (Forall2_at _ _ _ Hs k rb rl Hrb Hrl) as [S1 S2]. destruct (Forall2_at _ _ _ Hc k rb rc Hrb Hrc) as [W P].
  pose proof (Forall2_at _ _ _ Ht k rb rc Hrb Hrc) as T. cbn beta in T.
  destruct (Forall2_at _ _ _ Hs3 k rl rc Hrl Hrc) as [S3 S4].
  pose proof (pos_mono F rnd R hn rc _ _ W S1) as P1. pose proof (pos_mono F rnd R hn rc _ _ W S2) as P2.
  assert (P0 : (0 <= pos F rnd hn rc (fst rl))%Q) by (apply pos_nonneg; auto).
  unfold cell_range. cbn [fst snd].
  pose proof (Qfloor_resp_le _ _ P1) as F1. pose proof (Qceiling_resp_le _ _ P2) as F2.
  assert (F0 : (0 <= Qfloor (pos F rnd hn rc (fst rl)))%Z) by (rewrite <- (Qfloor_Z 0); apply Qfloor_resp_le; auto).
  pose proof (Qfloor_lt _ _ P) as F3.
  assert (F4 : (Qfloor (pos F rnd hn rc (fst rb)) < Qceiling (pos F rnd hn rc (snd rb)))%Z).
  { apply Z.lt_nge. intros H. apply (Qlt_irrefl (pos F rnd hn rc (fst rb))). eapply Qlt_le_trans; [exact T|].
    eapply Qle_trans; [apply Qle_ceiling|]. eapply Qle_trans; [|apply Qfloor_le]. rewrite <- Zle_Qle. auto. }
  lia.
Qed.

(** The base and size of the mask. *)
Lemma base_wrap p : p < np ->
  map (fun r => (fst r, wrap usize (usub lsize (snd r) (fst r)))) (ranges_of F rnd hn bd (lb p)) = base_of (ranges_of F rnd hn bd (lb p)).
Proof.
  intros Hp. destruct (lb_ranges p Hp) as [_ H]. unfold base_of. apply map_ext_in. intros r Hr. rewrite Forall_forall in H. specialize (H r Hr).
  pose proof hn_le. pose proof pow_mono_us. rewrite usub_ok by lia. rewrite wrap_small by lia. auto.
Qed.
Lemma total_wrap rs : Forall (fun ir => fst ir < snd ir <= hn) rs -> forall a, a * hn ^ length rs < 256 ^ usize ->
  fold_left (fun t bn => wrap usize (t * snd bn)) (base_of rs) a = a * total_of rs.
Proof.
  induction 1 as [|ir irs Hi Hf IH]; intros a Ha; unfold total_of in *; cbn [base_of map fold_left fold_right length Nat.pow snd] in *; [lia|].
  assert (1 <= hn ^ length irs) by (apply Nat.neq_0_lt_0, Nat.pow_nonzero; lia).
  set (q := hn ^ length irs) in *. fold (base_of irs).
  assert (Hw : a * (snd ir - fst ir) * q < 256 ^ usize).
  { apply Nat.le_lt_trans with (a * (hn * q)); auto. rewrite <- Nat.mul_assoc. apply Nat.mul_le_mono_l, Nat.mul_le_mono_r. lia. }
  rewrite wrap_small.
  - rewrite IH by auto. lia.
  - eapply Nat.le_lt_trans; [|exact Hw]. rewrite <- (Nat.mul_1_r (a * (snd ir - fst ir))) at 1. apply Nat.mul_le_mono_l. auto.
Qed.

Lemma total_hn irs : Forall (fun ir => fst ir < snd ir <= hn) irs -> 1 <= total_of irs <= hn ^ length irs.
Proof.
  induction 1 as [|ir irs Hi Hf IH]; [cbn; lia|]. unfold total_of in *. cbn [map fold_right length Nat.pow].
  split; [nia|]. apply Nat.mul_le_mono; lia.
Qed.
Lemma own_cells p : p < np -> exists mask L',
  set_local_mask F rnd usize lsize hn bd (hash_setfac F rnd bd hn) (base_of (ranges_of F rnd hn bd (lb p))) (obb p)
    (repeat 0 (nbytes (ranges_of F rnd hn bd (lb p)))) = Ok mask /\
  fill_hash usize lsize np (count_bits usize mask) mask (base_of (ranges_of F rnd hn bd (lb p))) hn = Ok (map (pi_cell np) L') /\
  cells_of F rnd hn bd (obb p) L'.
Proof.
  intros Hp. destruct (lb_ranges p Hp) as [_ Hr].
  assert (Lr : length (ranges_of F rnd hn bd (lb p)) = D).
  { unfold ranges_of. rewrite map_length, combine_length, bd_len, lb_len; auto. lia. }
  pose proof pow_mono_us. pose proof hn_le.
  assert (H1 : hn ^ length (ranges_of F rnd hn bd (lb p)) + 8 <= 256 ^ usize) by (rewrite Lr; lia).
  assert (H2 : hn ^ length (ranges_of F rnd hn bd (lb p)) < 256 ^ lsize) by (rewrite Lr; lia).
  assert (H3 : hn < 256 ^ lsize) by lia.
  destruct (proc_cells_ok F rnd usize lsize us1 ltac:(lia) hn np hn1 (ranges_of F rnd hn bd (lb p)) Hr H1 H2 H3 (ranges_of F rnd hn bd) (obb p) (fun b Hb => ranges_sub p b Hp Hb) bd (hash_setfac F rnd bd hn)
    (fun b Hb => proj1 (el_ranges p b Hp Hb))) as (mask & L' & E1 & E2 & Nd & Hin).
  exists mask, L'. split; auto. split; auto. split; auto. intros c. rewrite Hin. split.
  - intros (b & is & Hb & Hi & Ec). destruct (multi_cell F rnd hn bd b c) as [M _]; auto.
    + rewrite bd_len. apply (Hob p Hp). auto.
    + apply (el_ranges p); auto.
    + destruct M as [M1 M2]; eauto.
  - intros (Hc & b & Hb & Hcb). destruct (multi_cell F rnd hn bd b c) as [_ M]; auto.
    + rewrite bd_len. apply (Hob p Hp). auto.
    + apply (el_ranges p); auto.
    + destruct M as (is & M1 & M2); eauto.
Qed.

Lemma cells_perm p l l' : cells_of F rnd hn bd (obb p) l -> cells_of F rnd hn bd (obb p) l' -> Permutation l l'.
Proof. intros [N1 H1] [N2 H2]. apply NoDup_Permutation; auto. intros c. rewrite H1, H2. tauto. Qed.

(** The table of process r: for each of its cells the processes with an element box there. *)
Definition routes (r : nat) (h : hash_data F) : Prop :=
  hash_n F h = hn /\ bnd F h = bd /\ fac F h = hash_setfac F rnd bd hn /\
  lists_procs F rnd np hn bd obb r (offset F h).

Theorem global_build_goes : exists h, (forall r, r < np -> routes r (h r)) /\
  goes np (fun p => global_build F rnd usize lsize INT_MAX np p dzero D root (lb p) (obb p) (hs p)) (fun p => Ret (h p)).
Proof.
  unfold global_build.
  pose proof pow_mono_us as Hus.
  assert (Hfc : exists ml : nat -> list nat * list nat, forall p, p < np ->
    set_local_mask F rnd usize lsize hn bd (hash_setfac F rnd bd hn) (base_of (ranges_of F rnd hn bd (lb p))) (obb p)
      (repeat 0 (nbytes (ranges_of F rnd hn bd (lb p)))) = Ok (fst (ml p)) /\
    fill_hash usize lsize np (count_bits usize (fst (ml p))) (fst (ml p)) (base_of (ranges_of F rnd hn bd (lb p))) hn = Ok (map (pi_cell np) (snd (ml p))) /\
    cells_of F rnd hn bd (obb p) (snd (ml p))).
  { apply (finite_choice (fun p x => set_local_mask F rnd usize lsize hn bd (hash_setfac F rnd bd hn) (base_of (ranges_of F rnd hn bd (lb p))) (obb p)
      (repeat 0 (nbytes (ranges_of F rnd hn bd (lb p)))) = Ok (fst x) /\
    fill_hash usize lsize np (count_bits usize (fst x)) (fst x) (base_of (ranges_of F rnd hn bd (lb p))) hn = Ok (map (pi_cell np) (snd x)) /\
    cells_of F rnd hn bd (obb p) (snd x)) ([], []) np).
    intros p Hp. destruct (own_cells p Hp) as (mask & L' & H). exists (mask, L'). auto. }
  destruct Hfc as (ml & Hml).
  set (L' := fun p => snd (ml p)).
  assert (HtL : total np L' = total np L) by (apply total_perm; intros p Hp; eapply cells_perm; [apply Hml|apply HL]; auto).
  assert (Hlt : forall p c, p < np -> In c (L' p) -> c < hn ^ D).
  { intros p c Hp Hc. destruct (Hml p Hp) as (_ & _ & _ & H). apply H in Hc. rewrite bd_len in Hc. tauto. }
  destruct (transfer_ok usize INT_MAX np us1 np_lim max_lim (2 * usize) 0 true (pi_bytes usize) (pi_of usize) pi_proc
     (fun s x => PI s (pi_index x)) (fun p => map (pi_cell np) (L' p))) as (out & Po & Go); [lia|lia| | |].
  { intros s x Hs Hx. apply in_map_iff in Hx. destruct Hx as (c & <- & Hc). specialize (Hlt s c Hs Hc).
    assert (c / np <= c) by (apply Nat.div_le_upper_bound; nia). assert (c mod np < np) by (apply Nat.mod_upper_bound; lia).
    destruct (pi_row usize (pi_cell np c) s) as (B1 & B2 & B3 & B4); cbn [pi_cell pi_proc pi_index] in *; [lia|lia|lia|]. auto. }
  { rewrite total_map, HtL. replace (words_for usize (2 * usize - usize)) with 1; [lia|].
    unfold words_for. apply (Nat.div_unique _ usize 1 (usize - 1)); lia. }
  assert (Htab : exists offs : nat -> list nat, forall r, r < np ->
     table_from_hash usize lsize np D hn (out r) = Ok (offs r) /\
     forall c, c < hn ^ D -> c mod np = r -> exists b e l,
       nth_error (offs r) (c / np) = Some b /\ nth_error (offs r) (c / np + 1) = Some e /\
       mapM (rd (offs r)) (seq b (e - b)) = Ok l /\ NoDup l /\ forall q, In q l <-> q < np /\ In c (L' q)).
  { apply (finite_choice (fun r offs => table_from_hash usize lsize np D hn (out r) = Ok offs /\
     forall c, c < hn ^ D -> c mod np = r -> exists b e l,
       nth_error offs (c / np) = Some b /\ nth_error offs (c / np + 1) = Some e /\
       mapM (rd offs) (seq b (e - b)) = Ok l /\ NoDup l /\ forall q, In q l <-> q < np /\ In c (L' q)) [] np).
    intros r Hr. destruct (table_from_hash_ok usize lsize np D hn) with (hash := out r) as (S0 & offs & Ps & Eo & Ho).
    - apply power_ok; auto. lia.
    - intros x Hx. apply (Permutation_in _ (Po r Hr)) in Hx. apply in_sent_to in Hx. destruct Hx as (s & y & Hs & Hy & _ & ->).
      apply in_map_iff in Hy. destruct Hy as (c & <- & Hc). cbn [pi_index pi_cell]. specialize (Hlt s c Hs Hc).
      assert (c / np <= (hn ^ D - 1) / np) by (apply Nat.div_le_mono; lia). lia.
    - rewrite (Permutation_length (Po r Hr)). pose proof (sent_to_length np r pi_proc (fun s x => PI s (pi_index x)) (fun p => map (pi_cell np) (L' p))) as Hle.
      rewrite total_map, HtL in Hle. assert ((hn ^ D - 1) / np <= hn ^ D - 1) by (apply Nat.div_le_upper_bound; nia). nia.
    - exists offs. split; auto. intros c Hc Hcr.
      assert (Hk : c / np < (hn ^ D - 1) / np + 1) by (assert (c / np <= (hn ^ D - 1) / np) by (apply Nat.div_le_mono; lia); lia).
      destruct (Ho (c / np) Hk) as (b & e & Hb & He & Hm). do 3 eexists. split; [exact Hb|]. split; [exact He|]. split; [exact Hm|].
      assert (Pl : Permutation (map pi_proc (filter (fun x => pi_index x =? c / np) S0)) (filter (fun q => existsb (Nat.eqb c) (L' q)) (seq 0 np))).
      { rewrite <- (Permutation_filter _ _ _ Ps), (Permutation_filter _ _ _ (Po r Hr)).
        assert (Q : forall l, (forall s, In s l -> s < np) ->
          map pi_proc (filter (fun x => pi_index x =? c / np) (concat (map (fun s => map (fun x => PI s (pi_index x)) (filter (fun x => pi_proc x =? r) (map (pi_cell np) (L' s)))) l)))
          = filter (fun q => existsb (Nat.eqb c) (L' q)) l).
        2:{ unfold sent_to. rewrite Q; [reflexivity|]. intros s H. apply in_seq in H. lia. }
        induction l as [|s l IH]; intros Hs; [reflexivity|]. rewrite map_cons, concat_cons, filter_app, map_app.
        change (filter (fun q => existsb (Nat.eqb c) (L' q)) (s :: l)) with
          (if existsb (Nat.eqb c) (L' s) then s :: filter (fun q => existsb (Nat.eqb c) (L' q)) l else filter (fun q => existsb (Nat.eqb c) (L' q)) l).
        rewrite IH by (intros; apply Hs; right; auto).
        replace (map pi_proc (filter (fun x => pi_index x =? c / np) (map (fun x => PI s (pi_index x)) (filter (fun x => pi_proc x =? r) (map (pi_cell np) (L' s))))))
          with (if existsb (Nat.eqb c) (L' s) then [s] else []).
        { destruct (existsb (Nat.eqb c) (L' s)); reflexivity. }
        rewrite !filter_map, !map_map. cbn [pi_proc pi_index pi_cell].
        rewrite filter_andb.
        rewrite (filter_ext _ (fun x => x =? c)).
        2:{ intros x. pose proof (Nat.div_mod x np). pose proof (Nat.div_mod c np).
            destruct (Nat.eqb_spec x c) as [->|E]; [rewrite Hcr, !Nat.eqb_refl; auto|].
            destruct (Nat.eqb_spec (x mod np) r), (Nat.eqb_spec (x / np) (c / np)); auto. exfalso. apply E.
            rewrite (Nat.div_mod x np), (Nat.div_mod c np) by lia. congruence. }
        rewrite filter_eqb_NoDup by (apply (Hml s); apply Hs; left; auto). destruct (existsb (Nat.eqb c) (L' s)); reflexivity. }
      split.
      + eapply Permutation_NoDup; [symmetry; exact Pl|]. apply NoDup_filter. apply seq_NoDup.
      + intros q. rewrite (Permutation_in' eq_refl Pl), filter_In, in_seq, existsb_exists. split.
        * intros [H1 (x & Hx & Ex)]. apply Nat.eqb_eq in Ex. subst x. split; auto. lia.
        * intros [H1 H2]. split; [lia|]. exists c. split; auto. apply Nat.eqb_refl. }
  destruct Htab as (offs & Hof).
  exists (fun r => HD F hn bd (hash_setfac F rnd bd hn) (offs r) 0). split.
  { intros r Hr. split; [auto|]. split; [auto|]. split; [auto|]. cbn [offset]. intros c Hc Hcr. rewrite bd_len in Hc.
    destruct (Hof r Hr) as [_ H]. destruct (H c Hc Hcr) as (b & e & l & H1 & H2 & H3 & H4 & H5).
    exists b, e, l. split; [auto|]. split; [auto|]. split; [auto|]. split; [auto|]. intros q. rewrite H5. split; intros [Hq Hx]; split; auto.
    - destruct (Hml q Hq) as (_ & _ & _ & Hc'). apply Hc' in Hx. tauto.
    - destruct (Hml q Hq) as (_ & _ & _ & Hc'). apply Hc'. rewrite bd_len. auto. }
  eapply goes_trans.
  { apply (goes_bind np (fun p '(bd, hn) =>
      let fc := hash_setfac F rnd bd hn in
      pbind (plift (hash_ranges F rnd lsize hn bd fc (lb p))) (fun rngs =>
      let base_n := map (fun r => (fst r, wrap usize (usub lsize (snd r) (fst r)))) rngs in
      let ntot := fold_left (fun t bn => wrap usize (t * snd bn)) base_n 1 in
      let nbytes := wrap usize (ntot + 7) / 8 in
      pbind (plift (set_local_mask F rnd usize lsize hn bd fc base_n (obb p) (repeat 0 nbytes))) (fun mask =>
      pbind (plift (fill_hash usize lsize np (count_bits usize mask) mask base_n hn)) (fun hash =>
      pbind (transfer usize INT_MAX np p (2 * usize) 0 true (pi_bytes usize) (pi_of usize) hash) (fun hash =>
      pbind (plift (table_from_hash usize lsize np D hn hash)) (fun offs =>
      Ret (HD F hn bd fc offs 0))))))) _ _ (global_bb_goes F np D np1 lb lb_len lsize dzero root hs Hhs)). }
  eapply goes_trans.
  { apply (goes_ext np _ (fun p => pbind (transfer usize INT_MAX np p (2 * usize) 0 true (pi_bytes usize) (pi_of usize) (map (pi_cell np) (L' p))) (fun hash =>
      pbind (plift (table_from_hash usize lsize np D hn hash)) (fun offs =>
      Ret (HD F hn bd (hash_setfac F rnd bd hn) offs 0))))).
    intros p Hp. cbn [pbind]. cbv zeta.
    destruct (lb_ranges p Hp) as [E1 Hr]. destruct (Hml p Hp) as (E2 & E3 & _).
    assert (Lr : length (ranges_of F rnd hn bd (lb p)) = D).
    { unfold ranges_of. rewrite map_length, combine_length, bd_len, lb_len; auto. lia. }
    rewrite E1. cbn [plift pbind]. rewrite base_wrap by auto. rewrite (total_wrap _ Hr) by (rewrite Lr; lia). rewrite Nat.mul_1_l.
    rewrite (wrap_small usize (total_of _ + 7)).
    2:{ pose proof (total_hn _ Hr) as T. rewrite Lr in T. lia. }
    fold (nbytes (ranges_of F rnd hn bd (lb p))). cbv beta. rewrite E2. cbn [plift pbind]. rewrite E3. reflexivity. }
  eapply goes_trans.
  { apply (goes_bind np (fun p hash => pbind (plift (table_from_hash usize lsize np D hn hash)) (fun offs =>
      Ret (HD F hn bd (hash_setfac F rnd bd hn) offs 0))) _ _ Go). }
  apply goes_ext. intros p Hp. cbn [pbind]. rewrite (proj1 (Hof p Hp)). reflexivity.
Qed.
End Build.
