(** cr_learn. *)
From Verif Require Import Base BaseLemmas Net NetProof Sort SortSpec SortLemmas Transfer TransferProof TransferProof2 Kernels KernelSpec KernelProof ListLemmas Crystal CrystalProof
  GsTop GsSpec GsSortProof GsTopProof1 GsTopProof2 GsTopProof3 GsTopProof4 GsExec GsCr GsCrProof1 GsCrProof2 GsCrProof3.
From Coq Require Import Sorting.Sorted Permutation.

Lemma crl_codec usize lsize w : ci_id w < ulim lsize -> ci_p w < ulim usize -> ci_ri w < ulim usize -> ci_si w < ulim usize ->
  ci_bi w < ulim usize -> ci_send w < ulim usize -> crl_of usize lsize (crl_bytes usize lsize w) = w.
Proof.
  intros H1 H2 H3 H4 H5 H6. unfold crl_of, crl_bytes. cbv zeta.
  replace (4 * usize) with (usize + (usize + (usize + usize))) by lia. replace (3 * usize) with (usize + (usize + usize)) by lia. replace (2 * usize) with (usize + usize) by lia.
  rewrite !skipn_add, Nat.mul_1_l, Nat.mul_0_l. cbn [skipn]. rewrite !skipn_enc, !firstn_enc.
  rewrite (firstn_all2 (enc usize (ci_send w))) by (rewrite enc_length; lia).
  rewrite !dec_enc; auto. destruct w; reflexivity.
Qed.

Lemma filter_true_all {X} (f : X -> bool) l : (forall x, In x l -> f x = true) -> filter f l = l.
Proof. induction l as [|x l IH]; intros H; cbn; auto. rewrite H by (left; auto). f_equal. apply IH. intros; apply H; right; auto. Qed.
Lemma sorted_bits {X} (key : X -> nat) l : StronglySorted (fun a b => key a <= key b) l -> (forall x, In x l -> key x <= 1) ->
  l = filter (fun x => key x =? 0) l ++ filter (fun x => key x =? 1) l.
Proof.
  induction 1 as [|x l SS IH F]; intros Hk; [reflexivity|]. rewrite Forall_forall in F. cbn [filter].
  pose proof (Hk x (or_introl eq_refl)). destruct (key x) as [|[|k]] eqn:E; [| |lia]; cbn [Nat.eqb app].
  - f_equal. apply IH. intros; apply Hk; right; auto.
  - rewrite (filter_nil_all (fun y => key y =? 0) l), (filter_true_all (fun y => key y =? 1) l); auto.
    + intros y Hy. specialize (F y Hy). apply Nat.eqb_eq. pose proof (Hk y (or_intror Hy)). lia.
    + intros y Hy. specialize (F y Hy). apply Nat.eqb_neq. lia.
Qed.

Section Learn.
Variable usize lsize : nat.
Hypothesis us : 1 <= usize.
Variable np : nat.
Hypothesis np_fit : np <= ulim usize.
Variable src dst : nat -> nat -> bool.
Variable PI : nat -> nat -> nat.
Variable LB : list nat.
Hypothesis lab_in : forall x o d, src x o = true -> dst x d = true -> In x LB.
Hypothesis lab_fit : forall x, In x LB -> x < ulim lsize.
Hypothesis lab_size : 3 * length LB <= UINT_MAX usize.
Hypothesis PI_fit : forall x d, dst x d = true -> PI d x < ulim usize.
Hypothesis PI_inj : forall x y d, dst x d = true -> dst y d = true -> PI d x = PI d y -> x = y.
Notation UMAX := (UINT_MAX usize).
Notation alive := (alive src dst).
Notation maps_ok := (maps_ok src dst).
Notation sok := (sok usize src dst PI).

(** The entries a process holds. *)
Record inv (bl n : nat) (A : list origin) (cw : list crl_id) : Prop := {
  iv_to : forall w, In w cw -> (exists a, In a A /\ src (ci_id w) (fst a) = true /\ ci_si w = snd a (ci_id w)) /\
    dst (ci_id w) (ci_p w) = true /\ bl <= ci_p w < bl + n /\ ci_ri w = PI (ci_p w) (ci_id w) /\ ci_si w < ulim usize;
  iv_from : forall a x d, In a A -> src x (fst a) = true -> dst x d = true -> bl <= d < bl + n ->
    exists w, In w cw /\ ci_id w = x /\ ci_p w = d /\ ci_si w = snd a x }.

Lemma inv_alive bl n A cw x : inv bl n A cw -> (alive A bl n x <-> In x (map ci_id cw)).
Proof.
  intros [I1 I2]. unfold GsCrProof3.alive. rewrite in_map_iff. split.
  - intros [(a & Ha & Hs) (d & Hd & Hx)]. destruct (I2 a x d Ha Hs Hx Hd) as (w & Hw & E & _). eauto.
  - intros (w & <- & Hw). destruct (I1 w Hw) as ((a & Ha & Hs & _) & Hd & Hr & _). split; [eauto|eauto].
Qed.
Lemma inv_lab bl n A cw : inv bl n A cw -> incl (map ci_id cw) LB.
Proof.
  intros [I1 _] x Hx. apply in_map_iff in Hx as (w & <- & Hw). destruct (I1 w Hw) as ((a & _ & Hs & _) & Hd & _). eapply lab_in; eauto.
Qed.

(** The groups found in the entries, for any injective labelling. *)
Lemma maps_from_groups bl n A cw beta gs : inv bl n A cw ->
  (forall v w, In v cw -> In w cw -> beta (ci_id v) = beta (ci_id w) -> ci_id v = ci_id w) ->
  NoDup (map fst gs) ->
  (forall b s os, In (b, (s, os)) gs -> NoDup (s :: os) /\ forall s', In s' (s :: os) <-> exists w, In w cw /\ beta (ci_id w) = b /\ ci_si w = s') ->
  (forall w, In w cw -> exists s os, In (beta (ci_id w), (s, os)) gs) ->
  maps_ok A bl n beta gs.
Proof.
  intros I INJ ND G1 G2. constructor; auto.
  - intros b s os Hin. destruct (G1 b s os Hin) as [N0 M0]. split; auto.
    destruct (proj1 (M0 s) (or_introl eq_refl)) as (w & Hw & Eb & Es). exists (ci_id w). split; auto.
    assert (AL : alive A bl n (ci_id w)) by (apply (inv_alive bl n A cw); auto; apply in_map; auto). split; auto.
    intros s'. rewrite M0. destruct I as [I1 I2]. split.
    + intros (v & Hv & Ebv & Esv). assert (Ei : ci_id v = ci_id w) by (apply INJ; auto; congruence).
      destruct (I1 v Hv) as ((a & Ha & Hs & Hsi) & _). exists a. rewrite Ei in *. split; auto. split; auto. congruence.
    + intros (a & Ha & Hs & Hx). destruct AL as [_ (d & Hd & Hdx)]. destruct (I2 a _ d Ha Hs Hdx Hd) as (v & Hv & Ei & Ep & Esv).
      exists v. split; auto. split; congruence.
  - intros x Hx. apply (inv_alive bl n A cw x I) in Hx. apply in_map_iff in Hx as (w & <- & Hw). auto.
  - intros x y Hx Hy E. apply (inv_alive bl n A cw x I) in Hx. apply (inv_alive bl n A cw y I) in Hy.
    apply in_map_iff in Hx as (v & <- & Hv), Hy as (w & <- & Hw). auto.
Qed.

(** The sort by (send, bi). *)
Lemma sort_send cutoff hi beta cw cw' : Permutation cw' (map (labelled cutoff hi beta) cw) -> (forall w, In w cw -> beta (ci_id w) < ulim usize) ->
  exists ks sd, sort_by usize lsize [KU ci_send; KU ci_bi] cw' = Ok (ks ++ sd) /\
    length ks = length cw' - length (filter (outgoing cutoff hi) cw) /\
    Permutation ks (map (labelled cutoff hi beta) (filter (fun w => negb (outgoing cutoff hi w)) cw)) /\
    Permutation sd (map (labelled cutoff hi beta) (filter (outgoing cutoff hi) cw)).
Proof.
  intros P Hb. pose proof (ulim_256 usize us) as U.
  assert (K : forall w, In w cw' -> ci_send w <= 1 /\ ci_bi w < ulim usize).
  { intros w Hw. apply (Permutation_in _ P) in Hw. apply in_map_iff in Hw as (v & <- & Hv). cbn. split; [destruct (outgoing cutoff hi v); lia|auto]. }
  destruct (sort_by_2' usize lsize (KU ci_send) (KU ci_bi) cw') as (B & M & E & HM & [PB SO _]).
  { intros w Hw. apply K in Hw. lia. }
  { intros w Hw. apply K in Hw. tauto. }
  cbn [key_fun] in *. apply sorted_by_SS in SO.
  assert (KB : forall w, In w B -> ci_send w <= 1 /\ ci_bi w < M).
  { intros w Hw. assert (Hw' : In w cw') by (eapply Permutation_in; [symmetry; exact PB|auto]). split; [apply K; auto|auto]. }
  assert (SS : StronglySorted (fun a b => ci_send a <= ci_send b) B).
  { clear - SO KB. induction SO as [|w B SO IH F]; constructor; [apply IH; intros; apply KB; right; auto|]. rewrite Forall_forall in *. intros v Hv.
    specialize (F v Hv). pose proof (KB w (or_introl eq_refl)). pose proof (KB v (or_intror Hv)). nia. }
  exists (filter (fun w => ci_send w =? 0) B), (filter (fun w => ci_send w =? 1) B).
  assert (PF : forall f, Permutation (filter f B) (map (labelled cutoff hi beta) (filter (fun w => f (labelled cutoff hi beta w)) cw))).
  { intros f. rewrite <- filter_map. apply Permutation_filter. rewrite <- P. symmetry. auto. }
  assert (P0 := PF (fun w => ci_send w =? 0)). assert (P1 := PF (fun w => ci_send w =? 1)). cbn beta in P0, P1.
  rewrite (filter_ext (fun w => ci_send (labelled cutoff hi beta w) =? 0) (fun w => negb (outgoing cutoff hi w))) in P0 by (intros v; cbn; destruct (outgoing cutoff hi v); auto).
  rewrite (filter_ext (fun w => ci_send (labelled cutoff hi beta w) =? 1) (outgoing cutoff hi)) in P1 by (intros v; cbn; destruct (outgoing cutoff hi v); auto).
  split; [rewrite E; f_equal; apply (sorted_bits ci_send); auto; intros; apply KB; auto|]. split; [|split; auto].
  rewrite (Permutation_length P0), map_length, (Permutation_length P), map_length. pose proof (split_out cutoff hi (fun _ => true) cw). lia.
Qed.

(** ** One stage *)
Section Step.
Variable bl n : nat.
Hypothesis n2 : 2 <= n.
Hypothesis inside : bl + n <= np.
Notation bh := (bh bl n).
Notation nl := (nl n).
Notation froms := (froms bl n).
Variable A : nat -> list origin.
Variable cw : nat -> list crl_id.
Hypothesis cw_inv : forall p, bl <= p < bl + n -> inv bl n (A p) (cw p).
Variable beta : nat -> nat -> nat.
Variable gs : nat -> list cgroup.
Variable ss sk : nat -> nat.
Variable cwl : nat -> list crl_id.
Notation out p := (outgoing bh (p <? bh)).
Notation lab p := (labelled bh (p <? bh) (beta p)).
Hypothesis lab_ok : forall p, bl <= p < bl + n -> label_ok bh (p <? bh) (cw p) (length LB) (beta p) (gs p) (ss p) (sk p) (cwl p).
Variable ks sd : nat -> list crl_id.
Hypothesis ks_ok : forall p, bl <= p < bl + n -> Permutation (ks p) (map (lab p) (filter (fun w => negb (out p w)) (cw p))).
Hypothesis sd_ok : forall p, bl <= p < bl + n -> Permutation (sd p) (map (lab p) (filter (out p) (cw p))).

Definition next_cw (p : nat) : list crl_id :=
  flat_map (fun qo => map (crl_bi_to_si (snd qo)) (if fst qo =? p then ks p else sd (fst qo))) (branches bl n ss p).

Lemma bounds p q o x : bl <= p < bl + n -> In (q, o) (branches bl n ss p) -> In x (map ci_id (cw q)) ->
  o + beta q x < ulim usize.
Proof.
  intros Hp Hb Hx. apply in_map_iff in Hx as (w & <- & Hw).
  assert (SL : forall q, In q (froms p) -> ss q <= length LB).
  { intros q' Hq'. apply (froms_other bl n n2) in Hq' as [Hq' _]; auto. pose proof (lo_sizes _ _ _ _ _ _ _ _ _ (lab_ok q' Hq')). lia. }
  assert (SUM : ssum ss (froms p) <= 2 * length LB).
  { pose proof (froms_length bl n p) as L2. unfold ssum. destruct (froms p) as [|q1 [|q2 [|]]]; cbn in L2 |- *; try lia.
    - pose proof (SL q1 (or_introl eq_refl)). lia.
    - pose proof (SL q1 (or_introl eq_refl)). pose proof (SL q2 (or_intror (or_introl eq_refl))). lia. }
  assert (Hq : bl <= q < bl + n) by (apply in_branches in Hb as [[-> _]|[Hq _]]; [auto|apply (froms_other bl n n2) in Hq; tauto]).
  pose proof (lo_lt _ _ _ _ _ _ _ _ _ (lab_ok q Hq) w Hw). pose proof (lo_sizes _ _ _ _ _ _ _ _ _ (lab_ok q Hq)).
  pose proof (ulim_pos usize). unfold UINT_MAX in lab_size. apply in_branches in Hb as [[_ ->]|[_ Ho]]; lia.
Qed.

Lemma half_iff p d : bl <= p < bl + n ->
  ((if p <? bh then bl <= d < bl + nl else bh <= d < bh + (n - nl)) <-> bl <= d < bl + n /\ (d <? bh) = (p <? bh)).
Proof.
  intros Hp. pose proof (nl_cases n) as H. unfold CrystalProof.bh. destruct (Nat.ltb_spec p (bl + nl)), (Nat.ltb_spec d (bl + nl)); (split; [intros; split; [lia|auto; lia]|intros [? E]; try discriminate; lia]).
Qed.
Lemma out_iff p w : out p w = negb (Bool.eqb (ci_p w <? bh) (p <? bh)).
Proof.
  unfold outgoing. destruct (p <? bh); destruct (Nat.ltb_spec (ci_p w) bh), (Nat.leb_spec bh (ci_p w)); auto; lia.
Qed.

Lemma next_inv p : bl <= p < bl + n ->
  inv (if p <? bh then bl else bh) (if p <? bh then nl else n - nl) (next_origins bl n ss beta A p) (next_cw p).
Proof.
  intros Hp.
  assert (HF : forall d, (if p <? bh then bl else bh) <= d < (if p <? bh then bl else bh) + (if p <? bh then nl else n - nl) <->
     bl <= d < bl + n /\ (d <? bh) = (p <? bh)).
  { intros d. rewrite <- (half_iff p d Hp). destruct (p <? bh); tauto. }
  assert (HQ : forall q o, In (q, o) (branches bl n ss p) -> bl <= q < bl + n).
  { intros q o Hb. apply in_branches in Hb as [[-> _]|[Hq _]]; [auto|apply (froms_other bl n n2) in Hq; tauto]. }
  assert (SEL : forall q o w', In (q, o) (branches bl n ss p) ->
     (In w' (if q =? p then ks p else sd q) <-> exists w, In w (cw q) /\ w' = lab q w /\ (ci_p w <? bh) = (p <? bh))).
  { intros q o w' Hb. pose proof (HQ q o Hb) as Hq. destruct (Nat.eqb_spec q p) as [->|Nq].
    - split.
      + intros Hw'. apply (Permutation_in _ (ks_ok p Hp)) in Hw'. apply in_map_iff in Hw' as (w & <- & Hw). apply filter_In in Hw as [Hw Ho].
        exists w. split; auto. split; auto. rewrite out_iff in Ho. rewrite negb_involutive in Ho. apply eqb_prop in Ho. auto.
      + intros (w & Hw & -> & Ho). eapply Permutation_in; [symmetry; apply (ks_ok p Hp)|]. apply in_map, filter_In. split; auto.
        rewrite out_iff, Ho, eqb_reflx. auto.
    - assert (Hf : In q (froms p)) by (apply in_branches in Hb; intuition congruence).
      destruct (froms_other bl n n2 p q Hp Hf) as [_ OT]. split.
      + intros Hw'. apply (Permutation_in _ (sd_ok q Hq)) in Hw'. apply in_map_iff in Hw' as (w & <- & Hw). apply filter_In in Hw as [Hw Ho].
        exists w. split; auto. split; auto. rewrite out_iff in Ho. rewrite OT. destruct (ci_p w <? bh), (q <? bh); auto; discriminate.
      + intros (w & Hw & -> & Ho). eapply Permutation_in; [symmetry; apply (sd_ok q Hq)|]. apply in_map, filter_In. split; auto.
        rewrite out_iff, Ho, OT. destruct (q <? bh); auto. }
  constructor.
  - intros w' Hw'. unfold next_cw in Hw'. apply in_flat_map in Hw' as ([q o] & Hb & Hw'). cbn [fst snd] in Hw'.
    apply in_map_iff in Hw' as (w1 & <- & Hw1). apply (SEL q o w1 Hb) in Hw1 as (w & Hw & -> & Ho).
    pose proof (HQ q o Hb) as Hq. destruct (iv_to _ _ _ _ (cw_inv q Hq) w Hw) as ((a & Ha & Hs & _) & Hd & Hr & Hri & _).
    cbn [crl_bi_to_si labelled ci_id ci_p ci_ri ci_si ci_bi ci_send]. split; [|split; auto; split; [apply HF; auto|split; auto]].
    + exists (fst a, fun x => o + beta q x). split; [|split; auto; cbn [snd]; lia].
      unfold next_origins. apply in_flat_map. exists (q, o). split; auto. apply in_map_iff. exists a. auto.
    + rewrite Nat.add_comm. exact (bounds p q o _ Hp Hb (in_map ci_id _ _ Hw)).
  - intros a' x d Ha' Hs Hd Hr. apply HF in Hr as [Hr Hh]. unfold next_origins in Ha'. apply in_flat_map in Ha' as ([q o] & Hb & Ha').
    apply in_map_iff in Ha' as (a & <- & Ha). cbn [fst snd] in *. pose proof (HQ q o Hb) as Hq.
    destruct (iv_from _ _ _ _ (cw_inv q Hq) a x d Ha Hs Hd Hr) as (w & Hw & Ei & Ep & Es).
    exists (crl_bi_to_si o (lab q w)). split.
    + unfold next_cw. apply in_flat_map. exists (q, o). split; auto. apply in_map. apply (SEL q o _ Hb). exists w. rewrite Ep. auto.
    + cbn [crl_bi_to_si labelled ci_id ci_p ci_ri ci_si ci_bi ci_send]. split; auto. split; auto. rewrite Ei. lia.
Qed.

Lemma next_length p : bl <= p < bl + n -> length (next_cw p) = length (ks p) + length (concat (map sd (froms p))).
Proof.
  intros Hp. unfold next_cw, branches. cbn [flat_map fst snd]. rewrite Nat.eqb_refl, app_length, map_length. f_equal.
  assert (NP : forall q, In q (froms p) -> q <> p).
  { intros q Hq ->. apply (froms_other bl n n2) in Hq as [_ E]; auto. destruct (p <? bh); discriminate. }
  revert NP. generalize (froms p) as l. generalize 0 as acc. clear. intros acc l. revert acc.
  induction l as [|q l IH]; intros acc NP; cbn [offsets flat_map map concat fst snd]; auto.
  rewrite !app_length, map_length, IH by (intros; apply NP; right; auto). destruct (Nat.eqb_spec q p); auto. exfalso. apply (NP q); [left|]; auto.
Qed.
Lemma ks_length p : bl <= p < bl + n -> length (ks p) + length (sd p) = length (cw p).
Proof.
  intros Hp. rewrite (Permutation_length (ks_ok p Hp)), (Permutation_length (sd_ok p Hp)), !map_length.
  pose proof (split_out bh (p <? bh) (fun _ => true) (cw p)). lia.
Qed.

Lemma sum_le (l : list nat) (f g : nat -> list crl_id) : (forall p, In p l -> length (f p) <= length (g p)) ->
  length (concat (map f l)) <= length (concat (map g l)).
Proof. induction l as [|p l IH]; intros Hl; cbn [map concat]; auto. rewrite !app_length. specialize (IH (fun q Hq => Hl q (or_intror Hq))). pose proof (Hl p (or_introl eq_refl)). lia. Qed.
Lemma sum_add (l : list nat) (f g h : nat -> list crl_id) : (forall p, In p l -> length (f p) = length (g p) + length (h p)) ->
  length (concat (map f l)) = length (concat (map g l)) + length (concat (map h l)).
Proof. induction l as [|p l IH]; intros Hl; cbn [map concat]; auto. rewrite !app_length, IH by (intros; apply Hl; right; auto). rewrite (Hl p) by (left; auto). lia. Qed.

Lemma next_total_low : length (concat (map next_cw (seq bl nl))) <= length (concat (map cw (seq bl n))).
Proof.
  pose proof (nl_cases n) as Hn.
  rewrite (sum_add (seq bl nl) next_cw ks (fun p => concat (map sd (froms p)))) by (intros p Hp; apply in_seq in Hp; apply next_length; lia).
  rewrite (Permutation_length (froms_low bl n n2 sd)). fold nl bh.
  replace (seq bl n) with (seq bl nl ++ seq bh (n - nl)) by (rewrite <- seq_app; f_equal; lia).
  rewrite map_app, concat_app, app_length. apply Nat.add_le_mono; apply sum_le; intros p Hp; apply in_seq in Hp; unfold CrystalProof.bh in *; pose proof (ks_length p ltac:(lia)); lia.
Qed.
Lemma next_total_high : length (concat (map next_cw (seq bh (n - nl)))) <= length (concat (map cw (seq bl n))).
Proof.
  pose proof (nl_cases n) as Hn.
  rewrite (sum_add (seq bh (n - nl)) next_cw ks (fun p => concat (map sd (froms p)))) by (intros p Hp; apply in_seq in Hp; apply next_length; unfold CrystalProof.bh in *; lia).
  rewrite (Permutation_length (froms_high bl n n2 sd)).
  replace (seq bl n) with (seq bl nl ++ seq bh (n - nl)) by (rewrite <- seq_app; f_equal; lia).
  rewrite map_app, concat_app, app_length. rewrite Nat.add_comm. apply Nat.add_le_mono; apply sum_le; intros p Hp; apply in_seq in Hp; unfold CrystalProof.bh in *; pose proof (ks_length p ltac:(lia)); lia.
Qed.
End Step.

(** ** The program *)
(** What follows the second exchange of a stage, and the first. *)
Definition learn_end me sched' bl n tag stages size_max s g size_s size_sk p1 p2 nrecvn nkeep (cw : list crl_id) (c00 c10 r1 r2 : nat) (ms : list (list (list byte)))
    : prog (list byte) (list cr_stage * nat) :=
  let nl := (n + 1) / 2 in
  let bh := bl + nl in
  let got i := map (crl_of usize lsize) (nth i ms []) in
  if (length (got 0) =? c00) && (length (got 1) =? c10) then
    let cw := map (crl_bi_to_si (r1 + r2)) (firstn nkeep cw) ++ map (crl_bi_to_si 0) (got 0) ++ map (crl_bi_to_si r1) (got 1) in
    let st := CS s g r1 r2 size_sk size_s p1 p2 nrecvn in
    let stages := stages ++ [st] in
    let size_max := Nat.max size_max (c_total st) in
    if me <? bh then cr_learn usize lsize me sched' bl nl (tag + 2) stages size_max cw
    else cr_learn usize lsize me sched' bh (n - nl) (tag + 2) stages size_max cw
  else Stop.
Definition learn_mid me sched' bl n tag stages size_max s g size_s size_sk p1 p2 nrecvn nkeep (cw : list crl_id) (cs : list (list (list byte)))
    : prog (list byte) (list cr_stage * nat) :=
  if forallb (fun c => length c =? 2) cs then
    let count i j := dec (nth j (nth i cs []) []) in
    let r1 := count 0 1 in let r2 := count 1 1 in
    pbind (plift (sort_by usize lsize [KU ci_send; KU ci_bi] cw)) (fun cw =>
    comm [(p1, tag + 1, map (crl_bytes usize lsize) (skipn nkeep cw))]
         (map (fun m => (fst m, tag + 1, snd m)) (cr_msgs nrecvn p1 p2 (count 0 0) (count 1 0)))
         (learn_end me sched' bl n tag stages size_max s g size_s size_sk p1 p2 nrecvn nkeep cw (count 0 0) (count 1 0) r1 r2))
  else Stop.
Lemma learn_step me sched' bl n tag stages size_max cw nrecvn p1 p2 s g size_s size_sk cw' nsend :
  crl_work_label usize lsize cw (bl + (n + 1) / 2) (me <? bl + (n + 1) / 2) = Ok (s, g, size_s, size_sk, cw', nsend) ->
  cr_learn usize lsize me ((nrecvn, p1, p2) :: sched') bl n tag stages size_max cw =
  comm [(p1, tag, [enc usize nsend; enc usize size_s])] (map (fun m => (fst m, tag, snd m)) (cr_msgs nrecvn p1 p2 2 2))
    (learn_mid me sched' bl n tag stages size_max s g size_s size_sk p1 p2 nrecvn (length cw' - nsend) cw').
Proof. intros E. cbn [cr_learn]. rewrite E. reflexivity. Qed.

Lemma froms_cases bl n p :
  recvn bl n p = 0 /\ froms bl n p = [] \/ recvn bl n p = 1 /\ froms bl n p = [targ bl n p] \/
  recvn bl n p = 2 /\ froms bl n p = [targ bl n p; p - 1].
Proof.
  unfold froms. assert (R : recvn bl n p = 0 \/ recvn bl n p = 1 \/ recvn bl n p = 2).
  { unfold recvn. destruct ((n mod 2 =? 1) && (p =? bh bl n)), (p =? targ0 bl n p); auto. }
  destruct R as [->|[->| ->]]; cbn [Nat.leb Nat.eqb app]; auto.
Qed.
Lemma crmsgs_recvs bl n p tag a b :
  map (fun m => (fst m, tag, snd m)) (cr_msgs (recvn bl n p) (targ bl n p) (p - 1) a b) =
  exchange_recvs p (recvn bl n p) (targ bl n p) tag (fun i => match i with 0 => a | _ => b end).
Proof. unfold cr_msgs, exchange_recvs. destruct (recvn bl n p) as [|[|[|]]]; reflexivity. Qed.
Lemma schedule_step p fuel bl n : 2 <= n ->
  cr_schedule p (S fuel) bl n = (recvn bl n p, targ bl n p, p - 1) ::
    (if p <? bh bl n then cr_schedule p fuel bl (nl n) else cr_schedule p fuel (bh bl n) (n - nl n)).
Proof. intros H. cbn [cr_schedule]. destruct (Nat.leb_spec n 1); [lia|]. reflexivity. Qed.

Theorem learn_goes : forall n bl fuel (A : nat -> list origin) cw, 1 <= n -> n <= fuel -> bl + n <= np ->
  (forall p, bl <= p < bl + n -> inv bl n (A p) (cw p)) ->
  length (concat (map cw (seq bl n))) < ulim usize ->
  exists sts smx, sok bl n A sts /\
    (forall p, bl <= p < bl + n -> smx p <= 3 * length LB /\ forall st, In st (sts p) -> c_total st <= smx p) /\
    forall tag acc mx P, (forall p, bl <= p < bl + n -> P p = cr_learn usize lsize p (cr_schedule p fuel bl n) bl n tag (acc p) (mx p) (cw p)) ->
    goes np P (fun p => if inI bl n p then Ret (acc p ++ sts p, Nat.max (mx p) (smx p)) else P p).
Proof.
  induction n as [n IHn] using (well_founded_induction lt_wf).
  intros bl fuel A cw Hn1 Hf Hin Hinv Htot.
  destruct (Nat.leb_spec n 1) as [Hn|Hn].
  - assert (n = 1) by lia. subst n. clear Hn Hn1.
    assert (I0 := Hinv bl ltac:(lia)).
    destruct (crl_maps_ok usize lsize (map crl_ri_to_bi (cw bl))) as (gs & cw' & EM & _ & G1 & G2 & G3).
    { intros w Hw. apply in_map_iff in Hw as (v & <- & Hv). cbn. destruct (iv_to _ _ _ _ I0 v Hv) as (_ & Hd & _ & -> & Hs). split; auto. }
    assert (DP : forall v, In v (cw bl) -> ci_ri v = PI bl (ci_id v) /\ dst (ci_id v) bl = true).
    { intros v Hv. destruct (iv_to _ _ _ _ I0 v Hv) as (_ & Hd & Hr & Hri & Hs). assert (E : ci_p v = bl) by lia. rewrite E in *. auto. }
    set (st := CS (encode UMAX (s_groups gs)) (encode UMAX (g_groups gs)) 0 0 0 0 0 0 0).
    exists (fun _ => [st]), (fun _ => 0). split; [|split].
    + apply (sok_end _ _ _ _ bl A _ st gs); [reflexivity|split; reflexivity|].
      apply (maps_from_groups bl 1 (A bl) (cw bl)); auto.
      * intros v w Hv Hw E. destruct (DP v Hv), (DP w Hw). eapply PI_inj; eauto.
      * intros b s os Hin'. destruct (G2 b s os Hin') as [N0 M0]. split; auto. intros s'. rewrite M0. split.
        -- intros (w & Hw & Hb & Hs). apply in_map_iff in Hw as (v & <- & Hv). exists v. cbn in Hb, Hs. destruct (DP v Hv) as [E _]. rewrite <- E. auto.
        -- intros (v & Hv & Hb & Hs). exists (crl_ri_to_bi v). split; [apply in_map; auto|]. cbn. destruct (DP v Hv) as [E _]. rewrite E. auto.
      * intros v Hv. destruct (G3 (crl_ri_to_bi v)) as (s & os & Hin'); [apply in_map; auto|]. cbn in Hin'. destruct (DP v Hv) as [E _]. rewrite E in Hin'. eauto.
    + intros p Hp. split; [lia|]. intros st' [<-|[]]. reflexivity.
    + intros tag acc mx P HP. apply goes_ext. intros p Hp. destruct (inI bl 1 p) eqn:E; auto.
      assert (p = bl) by (unfold inI in E; lia). subst p. rewrite HP by lia.
      assert (cr_schedule bl fuel bl 1 = []) as -> by (destruct fuel; reflexivity).
      cbn [cr_learn]. rewrite EM. cbn [plift pbind]. rewrite Nat.max_0_r. reflexivity.
  - destruct fuel as [|fuel]; [lia|]. pose proof (nl_cases n) as Hnl.
    set (bh_ := bh bl n). set (nl_ := nl n).
    assert (n2 : 2 <= n) by lia.
    (* labels *)
    destruct (finite_choice (fun p (x : (nat -> nat) * list cgroup * nat * nat * list crl_id) => bl <= p < bl + n ->
        let '(beta, gs, ss, sk, cwl) := x in
        crl_work_label usize lsize (cw p) bh_ (p <? bh_) = Ok (encode UMAX (s_groups gs), encode UMAX (g_groups gs), ss, sk, cwl, length (filter (outgoing bh_ (p <? bh_)) (cw p))) /\
        label_ok bh_ (p <? bh_) (cw p) (length LB) beta gs ss sk cwl) (fun _ => 0, [], 0, 0, []) np) as [X HX].
    { intros p Hp. destruct (Nat.le_gt_cases bl p) as [H1|H1]; [|exists (fun _ => 0, [], 0, 0, []); intros; lia].
      destruct (Nat.lt_ge_cases p (bl + n)) as [H2|H2]; [|exists (fun _ => 0, [], 0, 0, []); intros; lia].
      assert (I0 := Hinv p (conj H1 H2)).
      destruct (crl_work_label_ok usize lsize bh_ (p <? bh_) (cw p) LB) as (beta & gs & ss & sk & cwl & E & L).
      - exact us.
      - intros w Hw. split; [apply lab_fit; apply (inv_lab bl n _ _ I0); apply in_map; auto|apply (iv_to _ _ _ _ I0 w Hw)].
      - apply (inv_lab bl n _ _ I0).
      - pose proof (ulim_pos usize). unfold UINT_MAX in lab_size. lia.
      - exists (beta, gs, ss, sk, cwl). intros _. split; auto. }
    set (beta := fun p => fst (fst (fst (fst (X p))))). set (gs := fun p => snd (fst (fst (fst (X p))))).
    set (ss := fun p => snd (fst (fst (X p)))). set (sk := fun p => snd (fst (X p))). set (cwl := fun p => snd (X p)).
    assert (LAB : forall p, bl <= p < bl + n ->
        crl_work_label usize lsize (cw p) bh_ (p <? bh_) = Ok (encode UMAX (s_groups (gs p)), encode UMAX (g_groups (gs p)), ss p, sk p, cwl p, length (filter (outgoing bh_ (p <? bh_)) (cw p))) /\
        label_ok bh_ (p <? bh_) (cw p) (length LB) (beta p) (gs p) (ss p) (sk p) (cwl p)).
    { intros p Hp. specialize (HX p ltac:(lia) Hp). unfold beta, gs, ss, sk, cwl. destruct (X p) as [[[[? ?] ?] ?] ?]. cbn [fst snd] in *. auto. }
    clearbody beta gs ss sk cwl. clear X HX.
    (* the sort *)
    destruct (finite_choice (fun p (x : list crl_id * list crl_id) => bl <= p < bl + n ->
        sort_by usize lsize [KU ci_send; KU ci_bi] (cwl p) = Ok (fst x ++ snd x) /\
        length (fst x) = length (cwl p) - length (filter (outgoing bh_ (p <? bh_)) (cw p)) /\
        Permutation (fst x) (map (labelled bh_ (p <? bh_) (beta p)) (filter (fun w => negb (outgoing bh_ (p <? bh_) w)) (cw p))) /\
        Permutation (snd x) (map (labelled bh_ (p <? bh_) (beta p)) (filter (outgoing bh_ (p <? bh_)) (cw p)))) ([], []) np) as [X HX].
    { intros p Hp. destruct (Nat.le_gt_cases bl p) as [H1|H1]; [|exists ([], []); intros; lia].
      destruct (Nat.lt_ge_cases p (bl + n)) as [H2|H2]; [|exists ([], []); intros; lia].
      destruct (LAB p (conj H1 H2)) as [_ L].
      destruct (sort_send bh_ (p <? bh_) (beta p) (cw p) (cwl p) (lo_items _ _ _ _ _ _ _ _ _ L)) as (ks & sd & H).
      - intros w Hw. pose proof (lo_lt _ _ _ _ _ _ _ _ _ L w Hw). pose proof (lo_sizes _ _ _ _ _ _ _ _ _ L). unfold UINT_MAX in lab_size. lia.
      - exists (ks, sd). intros _. exact H. }
    set (ks := fun p => fst (X p)). set (sd := fun p => snd (X p)).
    assert (SRT : forall p, bl <= p < bl + n -> sort_by usize lsize [KU ci_send; KU ci_bi] (cwl p) = Ok (ks p ++ sd p) /\
        length (ks p) = length (cwl p) - length (filter (outgoing bh_ (p <? bh_)) (cw p))) by (intros p Hp; specialize (HX p ltac:(lia) Hp); tauto).
    assert (KS : forall p, bl <= p < bl + n -> Permutation (ks p) (map (labelled bh_ (p <? bh_) (beta p)) (filter (fun w => negb (outgoing bh_ (p <? bh_) w)) (cw p))))
      by (intros p Hp; specialize (HX p ltac:(lia) Hp); tauto).
    assert (SD : forall p, bl <= p < bl + n -> Permutation (sd p) (map (labelled bh_ (p <? bh_) (beta p)) (filter (outgoing bh_ (p <? bh_)) (cw p))))
      by (intros p Hp; specialize (HX p ltac:(lia) Hp); tauto).
    clearbody ks sd. clear X HX.
    assert (LO : forall p, bl <= p < bl + n -> label_ok bh_ (p <? bh_) (cw p) (length LB) (beta p) (gs p) (ss p) (sk p) (cwl p)) by (intros p Hp; apply LAB; auto).
    set (A' := next_origins bl n ss beta A). set (cw' := next_cw bl n ss ks sd).
    assert (NI : forall p, bl <= p < bl + n -> inv (if p <? bh_ then bl else bh_) (if p <? bh_ then nl_ else n - nl_) (A' p) (cw' p)).
    { intros p Hp. exact (next_inv bl n n2 Hin A cw Hinv beta gs ss sk cwl LO ks sd KS SD p Hp). }
    assert (TL : length (concat (map cw' (seq bl nl_))) < ulim usize).
    { eapply Nat.le_lt_trans; [|exact Htot]. exact (next_total_low bl n n2 Hin A cw Hinv beta gs ss sk cwl LO ks sd KS SD). }
    assert (TH : length (concat (map cw' (seq bh_ (n - nl_)))) < ulim usize).
    { eapply Nat.le_lt_trans; [|exact Htot]. exact (next_total_high bl n n2 Hin A cw Hinv beta gs ss sk cwl LO ks sd KS SD). }
    assert (Ebh : bh_ = bl + nl_) by reflexivity.
    assert (Hnl' : 2 * nl_ = n \/ 2 * nl_ = n + 1) by exact (Hnl n2).
    destruct (IHn nl_ ltac:(lia) bl fuel A' cw') as (slo & mlo & Slo & Blo & Glo); [lia|lia|lia| |exact TL|].
    { intros p Hp. specialize (NI p ltac:(lia)). destruct (Nat.ltb_spec p bh_); [exact NI|lia]. }
    destruct (IHn (n - nl_) ltac:(lia) bh_ fuel A' cw') as (shi & mhi & Shi & Bhi & Ghi); [lia|lia|lia| |exact TH|].
    { intros p Hp. specialize (NI p ltac:(lia)). destruct (Nat.ltb_spec p bh_); [lia|exact NI]. }
    set (st := fun p => CS (encode UMAX (s_groups (gs p))) (encode UMAX (g_groups (gs p)))
       (match nth_error (froms bl n p) 0 with Some q => ss q | None => 0 end) (match nth_error (froms bl n p) 1 with Some q => ss q | None => 0 end)
       (sk p) (ss p) (targ bl n p) (p - 1) (recvn bl n p)).
    assert (Cr : forall p, c_r (st p) = ssum ss (froms bl n p)).
    { intros p. unfold c_r, st, ssum. cbn [c_r1 c_r2]. pose proof (froms_length bl n p). destruct (froms bl n p) as [|q1 [|q2 [|]]]; cbn in *; lia. }
    assert (SSL : forall p, bl <= p < bl + n -> ssum ss (froms bl n p) <= 2 * length LB).
    { intros p Hp. assert (SL : forall q, In q (froms bl n p) -> ss q <= length LB).
      { intros q' Hq'. apply (froms_other bl n n2) in Hq' as [Hq' _]; auto. pose proof (lo_sizes _ _ _ _ _ _ _ _ _ (LO q' Hq')). lia. }
      pose proof (froms_length bl n p) as L2. unfold ssum. destruct (froms bl n p) as [|q1 [|q2 [|]]]; cbn in L2 |- *; try lia.
      - pose proof (SL q1 (or_introl eq_refl)). lia.
      - pose proof (SL q1 (or_introl eq_refl)). pose proof (SL q2 (or_intror (or_introl eq_refl))). lia. }
    set (rest := fun p => if p <? bh_ then slo p else shi p).
    exists (fun p => st p :: rest p), (fun p => Nat.max (c_total (st p)) (if p <? bh_ then mlo p else mhi p)).
    assert (SEXT : forall b m B s1 s2, sok b m B s1 -> (forall p, b <= p < b + m -> s1 p = s2 p) -> sok b m B s2).
    { clear. intros b m B s1 s2 H. revert s2. induction H as [bl A sts st gs E M O|bl n A sts st rest beta gs Hn Hs H1 IH1 H2 IH2]; intros s2 Es.
      - apply (sok_end _ _ _ _ bl A s2 st gs); auto. rewrite <- Es by lia. auto.
      - apply (sok_step _ _ _ _ bl n A s2 st rest beta gs); auto. intros p Hp. rewrite <- Es by auto. auto. }
    split; [|split].
    + apply (sok_step usize src dst PI bl n A _ st rest beta gs n2).
      * intros p Hp. split; [reflexivity|]. split; [split; reflexivity|]. split.
        { apply (maps_from_groups bl n (A p) (cw p)); [apply Hinv; auto|apply (LO p Hp)|apply (LO p Hp)|apply (LO p Hp)|apply (LO p Hp)]. }
        split; [reflexivity|]. split; [reflexivity|]. split; [reflexivity|]. split.
        { unfold st. cbn [c_nrecvn c_p1 c_p2 c_r1 c_r2 c_s]. unfold cr_msgs.
          destruct (froms_cases bl n p) as [[-> ->]|[[-> ->]|[-> ->]]]; reflexivity. }
        split; [apply Cr|]. split; [apply (lo_sizes _ _ _ _ _ _ _ _ _ (LO p Hp))|]. split.
        { intros x Hx. apply (inv_alive bl n (A p) (cw p) x (Hinv p Hp)) in Hx. apply in_map_iff in Hx as (w & <- & Hw). apply (lo_lt _ _ _ _ _ _ _ _ _ (LO p Hp) w Hw). }
        { intros x (a & Ha & Hs) (d & Hd & Hdx & Ho). destruct (iv_from _ _ _ _ (Hinv p Hp) a x d Ha Hs Hdx Hd) as (w & Hw & <- & Ep & _).
          apply (lo_out _ _ _ _ _ _ _ _ _ (LO p Hp) w Hw). unfold bh_. rewrite (out_iff bl n n2 Hin A cw Hinv beta gs ss sk cwl LO ks sd KS SD p w), Ep, Ho. destruct (d <? bh bl n); auto. }
      * eapply SEXT; [exact Slo|]. intros p Hp. unfold rest. destruct (Nat.ltb_spec p bh_); [auto|unfold nl_ in *; lia].
      * eapply SEXT; [exact Shi|]. intros p Hp. unfold rest. destruct (Nat.ltb_spec p bh_); [unfold bh_ in *; lia|auto].
    + intros p Hp. assert (CT : c_total (st p) <= 3 * length LB).
      { unfold c_total. rewrite Cr. pose proof (SSL p Hp). pose proof (lo_sizes _ _ _ _ _ _ _ _ _ (LO p Hp)). unfold st. cbn [c_sk]. lia. }
      assert (R : (if p <? bh_ then mlo p else mhi p) <= 3 * length LB /\ forall s, In s (rest p) -> c_total s <= (if p <? bh_ then mlo p else mhi p)).
      { unfold rest. destruct (Nat.ltb_spec p bh_); [apply Blo; lia|apply Bhi; lia]. }
      split; [lia|]. intros s [<-|Hs]; [lia|]. apply R in Hs. lia.
    + intros tag acc mx P HP.
      set (ns := fun p => length (filter (outgoing bh_ (p <? bh_)) (cw p))).
      assert (NS : forall p, bl <= p < bl + n -> ns p < ulim usize /\ ss p < ulim usize /\ length (sd p) = ns p).
      { intros p Hp. split; [|split].
        - eapply Nat.le_lt_trans; [|exact Htot]. unfold ns. pose proof (split_out bh_ (p <? bh_) (fun _ => true) (cw p)).
          replace n with ((p - bl) + (1 + (n - (p - bl) - 1))) by lia. rewrite !seq_app, !map_app, !concat_app, !app_length. cbn [seq map concat]. rewrite app_length.
          replace (bl + (p - bl)) with p by lia. lia.
        - pose proof (lo_sizes _ _ _ _ _ _ _ _ _ (LO p Hp)). pose proof (ulim_pos usize). unfold UINT_MAX in lab_size. lia.
        - rewrite (Permutation_length (SD p Hp)), map_length. auto. }
      set (m1 := fun p => [enc usize (ns p); enc usize (ss p)]).
      set (m2 := fun p => map (crl_bytes usize lsize) (sd p)).
      set (sched := fun p => if p <? bh_ then cr_schedule p fuel bl nl_ else cr_schedule p fuel bh_ (n - nl_)).
      set (cnt := fun p i => match nth_error (froms bl n p) i with Some q => ns q | None => 0 end).
      set (k1 := fun p => learn_mid p (sched p) bl n tag (acc p) (mx p) (encode UMAX (s_groups (gs p))) (encode UMAX (g_groups (gs p))) (ss p) (sk p)
           (targ bl n p) (p - 1) (recvn bl n p) (length (cwl p) - ns p) (cwl p)).
      set (k2 := fun p => learn_end p (sched p) bl n tag (acc p) (mx p) (encode UMAX (s_groups (gs p))) (encode UMAX (g_groups (gs p))) (ss p) (sk p)
           (targ bl n p) (p - 1) (recvn bl n p) (length (cwl p) - ns p) (ks p ++ sd p) (cnt p 0) (cnt p 1) (c_r1 (st p)) (c_r2 (st p))).
      assert (INI : forall p, inI bl n p = true -> bl <= p < bl + n).
      { intros p Hp. unfold inI in Hp. apply andb_true_iff in Hp as [H1 H2]. apply Nat.leb_le in H1. apply Nat.ltb_lt in H2. lia. }
      assert (FI : forall p q, bl <= p < bl + n -> In q (froms bl n p) -> bl <= q < bl + n) by (intros p q Hp Hq; apply (froms_other bl n n2) in Hq; tauto).
      (* first exchange *)
      eapply goes_trans; [apply (goes_comm np (inI bl n) P (fun p => if inI bl n p then k1 p (map m1 (froms bl n p)) else P p)
          (fun p => [(targ bl n p, tag, m1 p)]) (fun p => exchange_recvs p (recvn bl n p) (targ bl n p) tag (fun i => match i with 0 => 2 | _ => 2 end))
          k1 (fun p => map m1 (froms bl n p)))|].
      { apply (stage_matched np bl n n2 Hin). intros p i q _ _. destruct i; cbn; lia. }
      { intros p _ E. rewrite E. auto. }
      { intros p Hp E. rewrite E. split; auto. apply INI in E. rewrite HP by auto. rewrite schedule_step by auto.
        rewrite (learn_step p _ bl n tag (acc p) (mx p) (cw p) _ _ _ _ _ _ _ _ _ (proj1 (LAB p E))). rewrite crmsgs_recvs. reflexivity. }
      set (P1 := fun p => if inI bl n p then k1 p (map m1 (froms bl n p)) else P p).
      assert (E1 : forall p, bl <= p < bl + n -> k1 p (map m1 (froms bl n p)) =
          comm [(targ bl n p, tag + 1, m2 p)] (exchange_recvs p (recvn bl n p) (targ bl n p) (tag + 1) (fun i => match i with 0 => cnt p 0 | _ => cnt p 1 end)) (k2 p)).
      { intros p Hp. unfold k1, learn_mid.
        assert (FB : forallb (fun c : list (list byte) => length c =? 2) (map m1 (froms bl n p)) = true).
        { apply forallb_forall. intros c Hc. apply in_map_iff in Hc as (q & <- & _). reflexivity. }
        rewrite FB. cbv zeta. destruct (SRT p Hp) as [-> LK]. cbn [plift pbind].
        assert (CNT : forall i, dec (nth 0 (nth i (map m1 (froms bl n p)) []) []) = (match nth_error (froms bl n p) i with Some q => ns q | None => 0 end) /\
                               dec (nth 1 (nth i (map m1 (froms bl n p)) []) []) = (match nth_error (froms bl n p) i with Some q => ss q | None => 0 end)).
        { intros i. destruct (nth_error (froms bl n p) i) as [q|] eqn:Eq.
          - rewrite (nth_error_nth (map m1 (froms bl n p)) i [] (x := m1 q)) by (rewrite nth_error_map, Eq; auto).
            apply nth_error_In in Eq. destruct (NS q (FI p q Hp Eq)) as (B1 & B2 & _). cbn [m1 nth]. rewrite !dec_enc; auto.
          - apply nth_error_None in Eq. rewrite (nth_overflow (map m1 _)) by (rewrite map_length; auto). split; reflexivity. }
        destruct (CNT 0) as [C00 C01], (CNT 1) as [C10 C11]. rewrite C00, C01, C10, C11.
        rewrite crmsgs_recvs. unfold comm, k2. fold (cnt p 0) (cnt p 1).
        replace (skipn (length (cwl p) - ns p) (ks p ++ sd p)) with (sd p); [reflexivity|].
        unfold ns. rewrite <- LK, skipn_app, skipn_all, Nat.sub_diag. reflexivity. }
      eapply goes_trans; [apply (goes_comm np (inI bl n) P1 (fun p => if inI bl n p then k2 p (map m2 (froms bl n p)) else P p)
          (fun p => [(targ bl n p, tag + 1, m2 p)]) (fun p => exchange_recvs p (recvn bl n p) (targ bl n p) (tag + 1) (fun i => match i with 0 => cnt p 0 | _ => cnt p 1 end))
          k2 (fun p => map m2 (froms bl n p)))|].
      { apply (stage_matched np bl n n2 Hin). intros p i q Hp Hq. apply INI in Hp. unfold m2. rewrite map_length.
        destruct (NS q (FI p q Hp (nth_error_In _ _ Hq))) as (_ & _ & ->).
        pose proof (froms_length bl n p). assert (i < length (froms bl n p)) by (apply nth_error_Some; congruence).
        unfold cnt. destruct i as [|[|i]]; [rewrite Hq; auto|rewrite Hq; auto|lia]. }
      { intros p _ E. unfold P1. rewrite E. auto. }
      { intros p Hp E. unfold P1. rewrite E. split; auto. }
      (* the next stages *)
      assert (E2 : forall p, bl <= p < bl + n -> k2 p (map m2 (froms bl n p)) =
          if p <? bh_ then cr_learn usize lsize p (cr_schedule p fuel bl nl_) bl nl_ (tag + 2) (acc p ++ [st p]) (Nat.max (mx p) (c_total (st p))) (cw' p)
          else cr_learn usize lsize p (cr_schedule p fuel bh_ (n - nl_)) bh_ (n - nl_) (tag + 2) (acc p ++ [st p]) (Nat.max (mx p) (c_total (st p))) (cw' p)).
      { intros p Hp. unfold k2, learn_end. cbv zeta.
        assert (GOT : forall i, map (crl_of usize lsize) (nth i (map m2 (froms bl n p)) []) = match nth_error (froms bl n p) i with Some q => sd q | None => [] end).
        { intros i. destruct (nth_error (froms bl n p) i) as [q|] eqn:Eq.
          - rewrite (nth_error_nth (map m2 (froms bl n p)) i [] (x := m2 q)) by (rewrite nth_error_map, Eq; auto).
            apply nth_error_In in Eq. pose proof (FI p q Hp Eq) as Hq. unfold m2. rewrite map_map. rewrite <- (map_id (sd q)) at 2. apply map_ext_in.
            intros w' Hw'. apply (Permutation_in _ (SD q Hq)) in Hw'. apply in_map_iff in Hw' as (w & <- & Hw). apply filter_In in Hw as [Hw _].
            destruct (iv_to _ _ _ _ (Hinv q Hq) w Hw) as ((a & _ & Hs & _) & Hd & Hr & Hri & Hsi).
            pose proof (lo_lt _ _ _ _ _ _ _ _ _ (LO q Hq) w Hw). pose proof (lo_sizes _ _ _ _ _ _ _ _ _ (LO q Hq)). pose proof (ulim_256 usize us).
            apply crl_codec; cbn [labelled ci_id ci_p ci_ri ci_si ci_bi ci_send]; auto.
            + apply lab_fit. eapply lab_in; eauto.
            + lia.
            + rewrite Hri. auto.
            + unfold UINT_MAX in lab_size. lia.
            + destruct (outgoing bh_ (q <? bh_) w); lia.
          - apply nth_error_None in Eq. rewrite (nth_overflow (map m2 _)) by (rewrite map_length; auto). reflexivity. }
        rewrite !GOT.
        assert (CC : forall i, length (match nth_error (froms bl n p) i with Some q => sd q | None => [] end) = cnt p i).
        { intros i. unfold cnt. destruct (nth_error (froms bl n p) i) as [q|] eqn:Eq; auto. apply nth_error_In in Eq. apply NS. eauto. }
        rewrite !CC, !Nat.eqb_refl. cbn [andb].
        replace (firstn (length (cwl p) - ns p) (ks p ++ sd p)) with (ks p).
        2:{ destruct (SRT p Hp) as [_ LK]. unfold ns. rewrite <- LK, firstn_app, firstn_all, Nat.sub_diag. cbn [firstn]. rewrite app_nil_r. auto. }
        assert (ECW : map (crl_bi_to_si (c_r1 (st p) + c_r2 (st p))) (ks p) ++
           map (crl_bi_to_si 0) (match nth_error (froms bl n p) 0 with Some q => sd q | None => [] end) ++
           map (crl_bi_to_si (c_r1 (st p))) (match nth_error (froms bl n p) 1 with Some q => sd q | None => [] end) = cw' p).
        { unfold cw', next_cw, branches. cbn [flat_map fst snd]. rewrite Nat.eqb_refl. rewrite <- Cr. unfold c_r at 1. f_equal.
          assert (NP : forall q, In q (froms bl n p) -> (q =? p) = false).
          { intros q Hq. apply Nat.eqb_neq. intros ->. apply (froms_other bl n n2) in Hq as [_ E]; auto. destruct (p <? bh bl n); discriminate. }
          pose proof (froms_length bl n p). unfold st. cbn [c_r1]. destruct (froms bl n p) as [|q1 [|q2 [|]]]; cbn [length nth_error offsets flat_map fst snd] in *; try lia.
          - reflexivity.
          - rewrite (NP q1) by (left; auto). reflexivity.
          - rewrite (NP q1) by (left; auto). rewrite (NP q2) by (right; left; auto). cbn [Nat.add map]. rewrite app_nil_r. reflexivity. }
        rewrite ECW. unfold sched. change (bl + (n + 1) / 2) with bh_. change ((n + 1) / 2) with nl_. destruct (p <? bh_); reflexivity. }
      set (P2 := fun p => if inI bl n p then k2 p (map m2 (froms bl n p)) else P p).
      eapply goes_trans; [apply (Glo (tag + 2) (fun p => acc p ++ [st p]) (fun p => Nat.max (mx p) (c_total (st p))) P2)|].
      { intros p Hp. unfold P2. assert (inI bl n p = true) as -> by (unfold inI; apply andb_true_iff; split; [apply Nat.leb_le|apply Nat.ltb_lt]; lia).
        rewrite E2 by lia. destruct (Nat.ltb_spec p bh_); [auto|lia]. }
      eapply goes_trans; [apply (Ghi (tag + 2) (fun p => acc p ++ [st p]) (fun p => Nat.max (mx p) (c_total (st p))))|].
      { intros p Hp. assert (inI bl nl_ p = false) as -> by (unfold inI; apply andb_false_iff; right; apply Nat.ltb_ge; lia).
        unfold P2. assert (inI bl n p = true) as -> by (unfold inI; apply andb_true_iff; split; [apply Nat.leb_le|apply Nat.ltb_lt]; lia).
        rewrite E2 by lia. destruct (Nat.ltb_spec p bh_); [lia|auto]. }
      apply goes_ext. intros p Hp. unfold P2, inI, rest.
      assert (R : forall s m, (acc p ++ [st p]) ++ s = acc p ++ st p :: s /\ Nat.max (Nat.max (mx p) (c_total (st p))) m = Nat.max (mx p) (Nat.max (c_total (st p)) m)).
      { intros s m. split; [rewrite <- app_assoc; reflexivity|lia]. }
      destruct (Nat.leb_spec bl p); destruct (Nat.ltb_spec p (bl + n)); destruct (Nat.leb_spec bh_ p);
       destruct (Nat.ltb_spec p (bl + nl_)); destruct (Nat.ltb_spec p bh_);
       destruct (Nat.ltb_spec p (bh_ + (n - nl_))); cbn [andb]; auto; try lia;
       rewrite <- app_assoc, Nat.max_assoc; reflexivity.
Qed.
End Learn.
