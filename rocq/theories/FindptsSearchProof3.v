(** findpts and findptsms: all stages up to the merge. *)
From Verif Require Import Base BaseLemmas Sort SortSpec SortLemmas Net NetProof NetWords NetWordsProof
  Transfer TransferSpec TransferProof TransferProof2 TransferProof4 GsTop GsSpec GsSortProof GsTopProof3 GsSetupProof ListLemmas CrystalProof
  Findpts FindptsGlobal FindptsSpec
  FindptsProof1 FindptsProof2 FindptsProof3 FindptsProof5 FindptsGlobalProof1 FindptsGlobalProof2 FindptsGlobalProof4
  FindptsSearchProof1 FindptsSearchProof2.
From Coq Require Import QArith Qround Lqa Sorting.Sorted.
Open Scope nat_scope.

Section Main.
Variable F : doubles.
Notation dbl := (dbl F).
Notation val := (val F).
Notation result := (result F).
Notation ds := (dsize F).
Variable rnd : Q -> Q.
Hypothesis R : rounding rnd.
Variable usize lsize INT_MAX np : nat.
Hypothesis us1 : 1 <= usize.
Hypothesis usls : usize <= lsize.
Hypothesis np1 : 1 <= np.
Hypothesis np_lim : np < 256 ^ usize.
Hypothesis max_lim : INT_MAX <= 256 ^ usize.
Variable dzero : dbl.
Variable D : nat.
Variable obb : nat -> list (box F).
Variable fd : nat -> findpts_data F.
Variable hn : nat.
Variable bd : box F.
Hypothesis bdl : length bd = D.
Hypothesis hn1 : 1 <= hn.
Hypothesis Hsz : hn ^ D < 256 ^ usize.
Hypothesis Hbox : forall q b, q < np -> In b (obb q) -> length b = D /\ sub_box F b bd /\
  Forall2 (fun r c => wide F rnd c /\ (pos F rnd hn c (fst r) < inject_Z (Z.of_nat hn))%Q) b bd.
Hypothesis Hh : forall r, r < np -> hash_n F (hash F (fd r)) = hn /\ bnd F (hash F (fd r)) = bd /\
  fac F (hash F (fd r)) = hash_setfac F rnd bd hn /\ lists_procs F rnd np hn bd obb r (offset F (hash F (fd r))).
(** One or several sessions. *)
Variable ms : bool.
Hypothesis Hims : forall q, q < np -> ims F (local F (fd q)) = ms.
Variable sessm : nat.
Hypothesis Hel : forall q, q < np -> length (obb q) < 256 ^ usize.
Hypothesis Hsol : forall q e x, q < np -> length (f_r F (solve F (local F (fd q)) e x)) = D.
Variable n : nat -> nat.
Variable lb : nat -> box F.

Notation bt q e x := (box_test F (local F (fd q)) e x = true).
Notation sch q y := (searched F (local F (fd q)) sessm (psid F y)).
Definition must_loc (q : nat) (y : point F) (e : nat) : Prop :=
  sch q y /\ bt q e (px F y) /\ exists b, nth_error (obb q) e = Some b /\ in_box F (px F y) b /\ below_top F rnd (n q) (lb q) b (px F y).
Definition local_res (q : nat) (y : point F) (o o' : result) : Prop :=
  exists C, proc F o' = proc F o /\
    best F nat (fun e => solve F (local F (fd q)) e (px F y)) (is_el F (local F (fd q)) y) C o' /\
    (C = [] -> o' = set_code F NOT_FOUND o) /\
    (forall e, In e C -> e < length (obb q) /\ sch q y /\ bt q e (px F y)) /\ (forall e, must_loc q y e -> In e C).
Hypothesis Hloc : forall q pts st, q < np -> length st = length pts ->
  (forall p, In p pts -> convertible F rnd usize (n q) (lb q) (px F p)) ->
  exists st', findptsms_local F rnd usize dzero (local F (fd q)) sessm pts st = Ok st' /\ length st' = length st /\
  forall i p o, nth_error pts i = Some p -> nth_error st i = Some o -> exists o', nth_error st' i = Some o' /\ local_res q p o o'.

Variable pts : nat -> list (point F).
Variable st : nat -> list result.
Hypothesis Hst : forall p, p < np -> length (st p) = length (pts p).
Hypothesis Hsid : forall p y, p < np -> In y (pts p) -> psid F y < 256 ^ usize.
Hypothesis Hcv : forall p q y, p < np -> q < np -> In y (pts p) -> convertible F rnd usize (n q) (lb q) (px F y).
Hypothesis Hcvg : forall p y, p < np -> In y (pts p) -> convertible F rnd lsize hn bd (px F y).
Hypothesis Htot : total np pts * (words_for usize (D * ds + 2 * usize) + 3) * usize < INT_MAX.
Variable V : list (nat * nat * nat).
Hypothesis HV : forall p i q y bx c, p < np -> q < np -> p <> q -> nth_error (pts p) i = Some y -> In bx (obb q) ->
  cell_at F rnd hn bd (px F y) c -> cell_in_box F rnd hn bd bx c -> In (p, i, q) V.
Hypothesis HV1 : length V * (words_for usize (D * ds + 3 * usize) + 3) * usize < INT_MAX.
Hypothesis HV2 : length V * (words_for usize ((D + 2) * ds + 4 * usize) + 3) * usize < INT_MAX.

Notation cell x := (cindex hn (digits F rnd hn bd x)).

Lemma len_lt p : p < np -> length (pts p) < 256 ^ usize.
Proof.
  intros Hp. pose proof (total_ge np pts p Hp). assert (total np pts < INT_MAX); [|lia].
  eapply Nat.le_lt_trans; [|exact Htot]. rewrite <- Nat.mul_assoc. rewrite <- (Nat.mul_1_r (total np pts)) at 1. apply Nat.mul_le_mono_l. nia.
Qed.
Lemma pow_us_ls : 256 ^ usize <= 256 ^ lsize.
Proof. apply Nat.pow_le_mono_r; lia. Qed.

Lemma cell_ok p r y : p < np -> r < np -> In y (pts p) -> let x := px F y in
  table_index F rnd lsize (hash F (fd r)) x = Ok (cell x) /\ cell x < hn ^ D /\ cell_at F rnd hn bd x (cell x) /\
  cell_digits hn D (cell x) = digits F rnd hn bd x /\ length x = D.
Proof.
  intros Hp Hr Hx. cbv zeta. destruct (Hh r Hr) as (E1 & E2 & E3 & _). unfold table_index. rewrite E1, E2, E3.
  pose proof (Hcvg p y Hp Hx) as C. set (x := px F y) in *. pose proof pow_us_ls.
  assert (Hl : hn ^ length bd <= 256 ^ lsize) by (rewrite bdl; lia).
  destruct (index_ok F rnd lsize ltac:(lia) hn bd x hn1 Hl C) as (I1 & I2 & I3).
  destruct (digits_cell_at F rnd lsize hn bd x ltac:(lia) hn1 Hl C) as [C1 C2]. rewrite bdl in C2.
  split; [auto|]. split; [rewrite <- bdl; apply C1|]. split; [auto|]. split; [auto|]. rewrite <- bdl. eapply Forall2_len; eauto.
Qed.

(** A. The local search. *)
Lemma stage_local : exists st1 : nat -> list result, forall p, p < np ->
  (if length (pts p) =? 0 then Ok (st p) else findptsms_local F rnd usize dzero (local F (fd p)) sessm (pts p) (st p)) = Ok (st1 p) /\
  length (st1 p) = length (pts p) /\
  forall i x o, nth_error (pts p) i = Some x -> nth_error (st p) i = Some o ->
    exists o1, nth_error (st1 p) i = Some o1 /\ local_res p x o o1.
Proof.
  apply (finite_choice (fun p s => (if length (pts p) =? 0 then Ok (st p) else findptsms_local F rnd usize dzero (local F (fd p)) sessm (pts p) (st p)) = Ok s /\
  length s = length (pts p) /\ forall i x o, nth_error (pts p) i = Some x -> nth_error (st p) i = Some o ->
    exists o1, nth_error s i = Some o1 /\ local_res p x o o1) [] np).
  intros p Hp. destruct (Nat.eqb_spec (length (pts p)) 0) as [E|E].
  - exists (st p). split; auto. split; auto. intros i x o Hx. apply nth_error_Some_lt in Hx. lia.
  - destruct (Hloc p (pts p) (st p) Hp) as (st' & E' & L & H); auto.
    { intros q Hq. eapply Hcv; eauto. }
    exists st'. split; auto. split; [rewrite L; auto|]. intros i x o Hx Ho. apply H; auto.
Qed.

Lemma cell_lists : exists lc : nat -> list nat, forall c, c < hn ^ D -> NoDup (lc c) /\
  (forall q, In q (lc c) <-> q < np /\ exists bx, In bx (obb q) /\ cell_in_box F rnd hn bd bx c) /\
  exists b e, nth_error (offset F (hash F (fd (c mod np)))) (c / np) = Some b /\ nth_error (offset F (hash F (fd (c mod np)))) (c / np + 1) = Some e /\
    mapM (rd (offset F (hash F (fd (c mod np))))) (seq b (e - b)) = Ok (lc c).
Proof.
  apply (finite_choice (fun c l => NoDup l /\ (forall q, In q l <-> q < np /\ exists bx, In bx (obb q) /\ cell_in_box F rnd hn bd bx c) /\
  exists b e, nth_error (offset F (hash F (fd (c mod np)))) (c / np) = Some b /\ nth_error (offset F (hash F (fd (c mod np)))) (c / np + 1) = Some e /\
    mapM (rd (offset F (hash F (fd (c mod np))))) (seq b (e - b)) = Ok l) [] (hn ^ D)).
  intros c Hc. assert (Hr : c mod np < np) by (apply Nat.mod_upper_bound; lia).
  destruct (Hh _ Hr) as (_ & _ & _ & H). destruct (H c) as (b & e & l & H1 & H2 & H3 & H4 & H5); [rewrite bdl; auto|auto|].
  exists l. split; auto. split; auto. exists b, e. auto.
Qed.
Section Stages.
Variable st1 : nat -> list result.
Hypothesis Hst1 : forall p, p < np ->
  (if length (pts p) =? 0 then Ok (st p) else findptsms_local F rnd usize dzero (local F (fd p)) sessm (pts p) (st p)) = Ok (st1 p) /\
  length (st1 p) = length (pts p) /\
  forall i x o, nth_error (pts p) i = Some x -> nth_error (st p) i = Some o ->
    exists o1, nth_error (st1 p) i = Some o1 /\ local_res p x o o1.
Notation st2 p := (map (set_proc F p) (st1 p)).

(** B. The points to look for elsewhere. *)
Definition goes_on (o : result) : bool := ms || negb (code F o =? INTERNAL).
Definition entry (x : nat * (point F * result)) : src_pt F :=
  SP F (px F (fst (snd x))) (fst x) (cell (px F (fst (snd x))) mod np) (psid F (fst (snd x))).
Definition hp (p : nat) : list (src_pt F) :=
  map entry (filter (fun x => goes_on (snd (snd x))) (combine (seq 0 (length (pts p))) (combine (pts p) (st2 p)))).
Lemma hp_len2 p : p < np -> length (combine (pts p) (st2 p)) = length (pts p).
Proof. intros Hp. rewrite combine_length, !map_length. destruct (Hst1 p Hp) as (_ & -> & _). lia. Qed.
Lemma in_hp p s : p < np -> (In s (hp p) <-> exists i y o1, nth_error (pts p) i = Some y /\ nth_error (st1 p) i = Some o1 /\
  goes_on o1 = true /\ s = SP F (px F y) i (cell (px F y) mod np) (psid F y)).
Proof.
  intros Hp. unfold hp. rewrite in_map_iff. rewrite <- (hp_len2 p Hp). split.
  - intros ([i [y o]] & <- & H). apply filter_In in H. destruct H as [H K]. apply in_numbered, in_combine_nth in H. destruct H as [H1 H2].
    rewrite nth_error_map in H2.
    destruct (nth_error (st1 p) i) as [o1|] eqn:Eo; [|discriminate]. cbn in H2. injection H2 as <-.
    exists i, y, o1. split; auto. 
  - intros (i & y & o1 & H1 & H2 & H3 & ->). exists (i, (y, set_proc F p o1)). split; [reflexivity|]. apply filter_In. split.
    + apply in_numbered, in_combine_nth. split; [auto|apply map_nth_error; auto].
    + exact H3.
Qed.
Lemma hp_index p : p < np -> NoDup (map (sp_index F) (hp p)).
Proof.
  intros Hp. unfold hp. rewrite map_map. change (fun x => sp_index F (entry x)) with (fun x : nat * (point F * result) => fst x).
  apply NoDup_map_filter. rewrite map_fst_combine; [apply seq_NoDup|]. rewrite seq_length. symmetry. apply hp_len2. auto.
Qed.
Lemma hp_length p : p < np -> length (hp p) <= length (pts p).
Proof.
  intros Hp. unfold hp. rewrite map_length. eapply Nat.le_trans; [apply flen_le|]. rewrite combine_length, seq_length. lia.
Qed.
Lemma to_hash_ok p : p < np -> to_hash F rnd usize lsize np (fd p) (pts p) (st2 p) = Ok (hp p).
Proof.
  intros Hp. unfold to_hash. rewrite (BaseLemmas.mapM_ok _ (fun x => if goes_on (snd (snd x)) then [entry x] else [])).
  - cbn [bind]. rewrite concat_if. reflexivity.
  - intros [i [y o]] H. rewrite <- (hp_len2 p Hp) in H. apply in_numbered, in_combine_nth in H. destruct H as [H1 _].
    rewrite (Hims p Hp). cbn [snd]. unfold goes_on. assert (Eb : (negb (code F o =? INTERNAL) && negb ms || ms) = (ms || negb (code F o =? INTERNAL))) by (destruct ms, (code F o =? INTERNAL); auto).
    rewrite Eb. destruct (ms || negb (code F o =? INTERNAL)); auto.
    destruct (cell_ok p p y Hp Hp (nth_error_In _ _ H1)) as (E & Hlt & _). rewrite E. cbn [bind]. unfold entry. cbn [fst snd px psid].
    rewrite wrap_small by lia. reflexivity.
Qed.

(** C. They reach the process that keeps their cell. *)
Lemma stage_hash : exists hp' : nat -> list (src_pt F),
  (forall r, r < np -> Permutation (hp' r) (sent_to np r (sp_proc F) (fun s x => SP F (sp_x F x) (sp_index F x) s (sp_sid F x)) hp)) /\
  goes np (fun p => transfer usize INT_MAX np p (D * ds + 3 * usize) (D * ds + usize) true (sp_bytes F usize) (sp_of F usize D) (hp p))
    (fun r => Ret (hp' r)).
Proof.
  apply (transfer_ok usize INT_MAX np us1 np_lim max_lim); [lia|pose proof (dsize_pos F); lia| |].
  - intros s x Hs Hx. apply in_hp in Hx; auto. destruct Hx as (i & y & o1 & H1 & H2 & _ & ->). cbn [sp_proc sp_x sp_index sp_sid].
    pose proof (nth_error_Some_lt _ _ _ H1). pose proof (len_lt s Hs).
    assert (cell (px F y) mod np < np) by (apply Nat.mod_upper_bound; lia).
    destruct (cell_ok s s y Hs Hs (nth_error_In _ _ H1)) as (_ & _ & _ & _ & Ly).
    pose proof (Hsid s y Hs (nth_error_In _ _ H1)).
    destruct (sp_row F usize D (SP F (px F y) i (cell (px F y) mod np) (psid F y)) s) as (B1 & B2 & B3 & _ & B5); cbn [sp_proc sp_x sp_index sp_sid]; auto; try lia.
  - eapply Nat.le_lt_trans; [|exact Htot]. replace (D * ds + 3 * usize - usize) with (D * ds + 2 * usize) by lia.
    apply Nat.mul_le_mono_r, Nat.mul_le_mono_r. rewrite !total_sum. unfold sum.
    assert (Hl : forall p, In p (seq 0 np) -> length (hp p) <= length (pts p)) by (intros p Hp; apply in_seq in Hp; apply hp_length; lia).
    revert Hl. generalize (seq 0 np). induction l as [|a l IH]; intros Hl; cbn [map fold_right]; auto.
    apply Nat.add_le_mono; [apply Hl; left; auto|apply IH; intros; apply Hl; right; auto].
Qed.

Variable hp' : nat -> list (src_pt F).
Hypothesis Hhp' : forall r, r < np -> Permutation (hp' r) (sent_to np r (sp_proc F) (fun s x => SP F (sp_x F x) (sp_index F x) s (sp_sid F x)) hp).

Lemma in_hp' r s : r < np -> (In s (hp' r) <-> exists p i x o1, p < np /\ nth_error (pts p) i = Some x /\ nth_error (st1 p) i = Some o1 /\
  goes_on o1 = true /\ cell (px F x) mod np = r /\ s = SP F (px F x) i p (psid F x)).
Proof.
  intros Hr. rewrite (Permutation_in' eq_refl (Hhp' r Hr)), in_sent_to. split.
  - intros (p & y & Hp & Hy & E & ->). apply in_hp in Hy; auto. destruct Hy as (i & x & o1 & H1 & H2 & H3 & ->).
    exists p, i, x, o1. cbn [sp_proc sp_x sp_index sp_sid] in *. repeat (split; auto).
  - intros (p & i & x & o1 & Hp & H1 & H2 & H3 & E & ->). exists p, (SP F (px F x) i (cell (px F x) mod np) (psid F x)).
    split; auto. split; [apply in_hp; auto; exists i, x, o1; auto|]. split; auto.
Qed.
Lemma hp'_NoDup r : r < np -> NoDup (hp' r).
Proof.
  intros Hr. eapply Permutation_NoDup; [symmetry; apply Hhp'; auto|]. unfold sent_to. rewrite <- flat_map_concat_map.
  apply NoDup_flat_map_in; [apply seq_NoDup| |].
  - intros p Hp. apply in_seq in Hp. apply NoDup_map_in.
    + apply NoDup_filter. apply (NoDup_of_map (sp_index F)). apply hp_index. lia.
    + intros a a' Ha Ha' E. apply filter_In in Ha, Ha'. destruct Ha as [Ha _], Ha' as [Ha' _].
      apply in_hp in Ha; [|lia]. apply in_hp in Ha'; [|lia]. destruct Ha as (i & x & o1 & H1 & _ & _ & ->), Ha' as (i' & x' & o1' & H1' & _ & _ & ->).
      cbn [sp_x sp_index sp_sid] in E. injection E as _ Ei _. subst i'. rewrite H1 in H1'. injection H1' as <-. reflexivity.
  - intros p p' b _ _ Hb Hb'. apply in_map_iff in Hb, Hb'. destruct Hb as (x & <- & _), Hb' as (x' & E & _). injection E as _ _ -> _. auto.
Qed.

(** D. The processes with elements there. *)
Variable lc : nat -> list nat.
Hypothesis Hlc : forall c, c < hn ^ D -> NoDup (lc c) /\
  (forall q, In q (lc c) <-> q < np /\ exists bx, In bx (obb q) /\ cell_in_box F rnd hn bd bx c) /\
  exists b e, nth_error (offset F (hash F (fd (c mod np)))) (c / np) = Some b /\ nth_error (offset F (hash F (fd (c mod np)))) (c / np + 1) = Some e /\
    mapM (rd (offset F (hash F (fd (c mod np))))) (seq b (e - b)) = Ok (lc c).
Definition rt1 (s : src_pt F) : list (nat * src_pt F) :=
  map (fun pp => (pp, s)) (filter (fun pp => negb (pp =? sp_proc F s)) (lc (cell (sp_x F s)))).
Definition rt (r : nat) : list (nat * src_pt F) := concat (map rt1 (hp' r)).
Lemma to_procs_ok r : r < np -> to_procs F rnd usize lsize np (fd r) (hp' r) = Ok (rt r).
Proof.
  intros Hr. unfold to_procs. rewrite (BaseLemmas.mapM_ok _ rt1); [reflexivity|].
  intros s Hs. apply in_hp' in Hs; auto. destruct Hs as (p & i & x & o1 & Hp & H1 & H2 & _ & Ec & ->). cbn [sp_x sp_proc].
  destruct (cell_ok p r x Hp Hr (nth_error_In _ _ H1)) as (E & Hlt & _). rewrite E. cbn [bind].
  destruct (Hlc _ Hlt) as (_ & _ & b & e & N1 & N2 & N3). rewrite Ec in N1, N2, N3.
  assert (cell (px F x) / np <= cell (px F x)) by (apply Nat.div_le_upper_bound; nia).
  rewrite wrap_small by lia. rewrite (rd_ok _ _ _ N1). cbn [bind]. rewrite (rd_ok _ _ _ N2). cbn [bind]. rewrite N3. cbn [bind]. reflexivity.
Qed.
(** The point x, number i of process p, is looked for on process q. *)
Definition visit (p i : nat) (x : point F) (q : nat) : Prop :=
  p < np /\ q < np /\ p <> q /\ nth_error (pts p) i = Some x /\
  (exists o1, nth_error (st1 p) i = Some o1 /\ goes_on o1 = true) /\
  exists bx, In bx (obb q) /\ cell_in_box F rnd hn bd bx (cell (px F x)).
Lemma in_rt r q s : r < np -> (In (q, s) (rt r) <-> exists p i x, visit p i x q /\ cell (px F x) mod np = r /\ s = SP F (px F x) i p (psid F x)).
Proof.
  intros Hr. unfold rt. rewrite <- flat_map_concat_map, in_flat_map. split.
  - intros (s' & Hs & Hq). unfold rt1 in Hq. apply in_map_iff in Hq. destruct Hq as (q' & E & Hq). injection E as -> ->.
    apply in_hp' in Hs; auto. destruct Hs as (p & i & x & o1 & Hp & H1 & H2 & H3 & Ec & ->). cbn [sp_x sp_proc] in Hq.
    apply filter_In in Hq. destruct Hq as [Hq Hn]. apply negb_true_iff, Nat.eqb_neq in Hn.
    destruct (cell_ok p r x Hp Hr (nth_error_In _ _ H1)) as (_ & Hlt & _). apply Hlc in Hq; auto. destruct Hq as [Hq Hb].
    exists p, i, x. split; [|auto]. unfold visit. split; [auto|]. split; [auto|]. split; [auto|]. split; [auto|]. split; [eauto|auto].
  - intros (p & i & x & (Hp & Hq & Hn & H1 & (o1 & H2 & H3) & Hb) & Ec & ->). exists (SP F (px F x) i p (psid F x)). split.
    + apply in_hp'; auto. exists p, i, x, o1. auto 10.
    + unfold rt1. cbn [sp_x sp_proc]. apply in_map_iff. exists q. split; auto. apply filter_In. split.
      * destruct (cell_ok p r x Hp Hr (nth_error_In _ _ H1)) as (_ & Hlt & _). apply Hlc; auto.
      * apply negb_true_iff, Nat.eqb_neq. auto.
Qed.
Definition vkey (x : nat * src_pt F) : nat * nat * nat := (sp_proc F (snd x), sp_index F (snd x), fst x).
Lemma rt_total : total np rt <= length V.
Proof.
  unfold total. rewrite <- (map_length vkey), <- flat_map_concat_map.
  apply NoDup_incl_length.
  - rewrite map_flat_map. apply NoDup_flat_map_in; [apply seq_NoDup| |].
    + intros r Hr. apply in_seq in Hr. unfold rt. rewrite <- flat_map_concat_map, map_flat_map.
      apply NoDup_flat_map_in; [apply hp'_NoDup; lia| |].
      * intros s Hs. unfold rt1. rewrite map_map. cbn [vkey fst snd]. apply in_hp' in Hs; [|lia].
        destruct Hs as (p & i & x & o1 & Hp & H1 & _ & _ & _ & ->). cbn [sp_x sp_proc sp_index].
        apply NoDup_map_in; [apply NoDup_filter, Hlc; apply (cell_ok p p x Hp Hp (nth_error_In _ _ H1))|].
        intros a a' _ _ E. unfold vkey in E. injection E. auto.
      * intros s s' b Hs Hs' Hb Hb'. unfold rt1 in Hb, Hb'. rewrite map_map in Hb, Hb'. apply in_map_iff in Hb, Hb'.
        destruct Hb as (q & <- & _), Hb' as (q' & E & _). unfold vkey in E. cbn [fst snd] in E. injection E as E1 E2 E3.
        apply in_hp' in Hs; [|lia]. apply in_hp' in Hs'; [|lia]. destruct Hs as (p & i & x & o1 & Hp & H1 & _ & _ & _ & ->).
        destruct Hs' as (p' & i' & x' & o1' & Hp' & H1' & _ & _ & _ & ->). cbn [sp_proc sp_index] in *. subst. congruence.
    + intros r r' b Hr Hr' Hb Hb'. apply in_seq in Hr, Hr'. apply in_map_iff in Hb, Hb'. destruct Hb as ([q s] & <- & Hb), Hb' as ([q' s'] & E & Hb').
      apply in_rt in Hb; [|lia]. apply in_rt in Hb'; [|lia]. destruct Hb as (p & i & x & Vx & <- & ->). destruct Hb' as (p' & i' & x' & Vx' & <- & ->).
      unfold vkey in E. cbn [fst snd sp_proc sp_index] in E. injection E as -> -> ->.
      destruct Vx as (_ & _ & _ & H1 & _), Vx' as (_ & _ & _ & H1' & _). rewrite H1 in H1'. injection H1' as <-. reflexivity.
  - intros k Hk. apply in_map_iff in Hk. destruct Hk as ([q s] & <- & Hk). apply in_flat_map in Hk. destruct Hk as (r & Hr & Hk). apply in_seq in Hr.
    apply in_rt in Hk; [|lia]. destruct Hk as (p & i & x & (Hp & Hq & Hn & H1 & _ & bx & Hb & Hc) & _ & ->). unfold vkey. cbn [fst snd sp_proc sp_index].
    eapply HV; eauto. apply (cell_ok p p x Hp Hp (nth_error_In _ _ H1)).
Qed.

(** E. They reach these processes. *)
Lemma stage_route : exists src : nat -> list (src_pt F),
  (forall q, q < np -> Permutation (src q) (sent_to np q fst (fun _ x => snd x) rt)) /\
  goes np (fun r => transfer_ext usize INT_MAX np r (D * ds + 3 * usize) (sp_bytes F usize) (sp_of F usize D) (map fst (rt r)) (map snd (rt r)))
    (fun q => Ret (src q)).
Proof.
  apply (transfer_ext_ok usize INT_MAX np us1 np_lim max_lim); [lia| |].
  - intros r [q s] Hr Hx. apply in_rt in Hx; auto. destruct Hx as (p & i & x & (Hp & Hq & Hn & H1 & _) & _ & ->). cbn [fst snd].
    pose proof (nth_error_Some_lt _ _ _ H1). pose proof (len_lt p Hp).
    destruct (cell_ok p p x Hp Hp (nth_error_In _ _ H1)) as (_ & _ & _ & _ & Lx).
    pose proof (Hsid p x Hp (nth_error_In _ _ H1)).
    destruct (sp_row F usize D (SP F (px F x) i p (psid F x)) 0) as (B1 & B2 & _ & B4 & _); cbn [sp_proc sp_x sp_index sp_sid]; auto; try lia.
  - eapply Nat.le_lt_trans; [|exact HV1]. apply Nat.mul_le_mono_r, Nat.mul_le_mono_r, rt_total.
Qed.
Variable src : nat -> list (src_pt F).
Hypothesis Hsrc : forall q, q < np -> Permutation (src q) (sent_to np q fst (fun _ x => snd x) rt).
Lemma in_src q s : q < np -> (In s (src q) <-> exists p i x, visit p i x q /\ s = SP F (px F x) i p (psid F x)).
Proof.
  intros Hq. rewrite (Permutation_in' eq_refl (Hsrc q Hq)), in_sent_to. split.
  - intros (r & [q' s'] & Hr & H & E & ->). cbn [fst snd] in *. subst q'. apply in_rt in H; auto. destruct H as (p & i & x & H1 & _ & H2). eauto.
  - intros (p & i & x & H & ->). exists (cell (px F x) mod np), (q, SP F (px F x) i p (psid F x)). assert (Hr : cell (px F x) mod np < np) by (apply Nat.mod_upper_bound; lia).
    split; auto. split; [|auto]. apply in_rt; auto. exists p, i, x. auto.
Qed.
Lemma src_total : total np src <= length V.
Proof.
  rewrite (total_perm np src _ Hsrc), total_sent; [apply rt_total|].
  intros r [q s] Hr Hx. apply in_rt in Hx; auto. destruct Hx as (p & i & x & (_ & Hq & _) & _). auto.
Qed.

(** F. The search there. *)
Definition none (p : nat) : result := Res F 0 p 0 (repeat dzero D) dzero dzero 0.
Lemma stage_search q : q < np -> exists out, search_here F rnd usize lsize dzero D (fd q) sessm (src q) = Ok out /\ length out <= length (src q) /\
  (forall i o, In (i, o) out <-> code F o <> NOT_FOUND /\ exists k p x, nth_error (src q) k = Some (SP F (px F x) i p (psid F x)) /\
     exists res, findptsms_local F rnd usize dzero (local F (fd q)) sessm (map (fun s => Pt F (sp_x F s) (sp_sid F s)) (src q)) (map (fun s => none (sp_proc F s)) (src q)) = Ok res /\
       nth_error res k = Some o).
Proof.
  intros Hq. set (P := map (fun s => Pt F (sp_x F s) (sp_sid F s)) (src q)). set (O := map (fun s => none (sp_proc F s)) (src q)).
  destruct (Hloc q P O Hq) as (res & Er & Lr & Hr).
  { unfold P, O. rewrite !map_length. auto. }
  { intros s Hs. unfold P in Hs. apply in_map_iff in Hs. destruct Hs as (y & <- & Hy). cbn [px].
    apply in_src in Hy; auto. destruct Hy as (p & i & x & (Hp & _ & _ & H1 & _) & ->). cbn [sp_x].
    apply (Hcv p q x); auto. eapply nth_error_In; eauto. }
  assert (LO : length O = length (src q)) by (unfold O; rewrite map_length; auto).
  unfold search_here. fold P. change (map (fun p => Res F 0 (sp_proc F p) 0 (repeat dzero D) dzero dzero 0) (src q)) with O.
  assert (Ei : (if length (src q) =? 0 then Ok O else findptsms_local F rnd usize dzero (local F (fd q)) sessm P O) = Ok res).
  { destruct (Nat.eqb_spec (length (src q)) 0) as [E|E]; auto.
    destruct O as [|o O']; [|cbn in LO; lia]. destruct res; [reflexivity|discriminate]. }
  rewrite Ei. cbn [bind].
  assert (Hcode : forall o, In o res -> code F o <= NOT_FOUND).
  { intros o Ho. apply In_nth_error in Ho. destruct Ho as [k Hk].
    destruct (nth_error_lt_Some O k) as [o0 Ho0]; [rewrite <- Lr; eapply nth_error_Some_lt; eauto|].
    destruct (nth_error_lt_Some P k) as [y Hy]; [unfold P; rewrite map_length, <- LO, <- Lr; eapply nth_error_Some_lt; eauto|].
    destruct (Hr k y o0 Hy Ho0) as (o' & E' & C & _ & B & _). rewrite Hk in E'. injection E' as <-.
    destruct B as [[_ ->]|(c & _ & _ & -> & _)]; auto. destruct (f_internal F _); unfold INTERNAL, BORDER, NOT_FOUND; lia. }
  assert (Hin : forall i o, In (i, o) (combine (map (sp_index F) (src q)) res) <-> exists k p x, nth_error (src q) k = Some (SP F (px F x) i p (psid F x)) /\ nth_error res k = Some o).
  { intros i o. split.
    - intros H. apply In_nth_error in H. destruct H as [k Hk]. apply in_combine_nth in Hk. destruct Hk as [H1 H2].
      rewrite nth_error_map in H1. destruct (nth_error (src q) k) as [s|] eqn:Es; [|discriminate]. cbn in H1. injection H1 as <-.
      pose proof (nth_error_In _ _ Es) as Hs. apply in_src in Hs; auto. destruct Hs as (p & i & x & _ & ->). exists k, p, x. cbn [sp_index]. auto.
    - intros (k & p & x & H1 & H2). apply (nth_error_In _ k). apply in_combine_nth. split; auto. erewrite map_nth_error; eauto. reflexivity. }
  destruct (sort_by_1 usize lsize (KU (fun x : nat * result => code F (snd x))) (combine (map (sp_index F) (src q)) res)) as (B & EB & [PB SB _]).
  { intros [i o] H. cbn [snd]. apply in_combine_r in H. specialize (Hcode o H). unfold NOT_FOUND, ulim in *.
    assert (256 ^ 1 <= 256 ^ usize) by (apply Nat.pow_le_mono_r; lia). cbn in H0. lia. }
  rewrite EB. cbn [bind]. eexists. split; [reflexivity|].
  assert (Ed : rev (drop_unfound F (rev B)) = filter (fun x => negb (code F (snd x) =? NOT_FOUND)) B).
  { apply drop_spec.
    - apply SS_sorted_by in SB. eapply SS_impl; [|exact SB]. cbn. intros x y H. apply Nat.ltb_ge in H. auto.
    - intros [i o] H. apply (Permutation_in _ (Permutation_sym PB)) in H. apply in_combine_r in H. apply Hcode. auto. }
  rewrite Ed. split.
  - eapply Nat.le_trans; [apply flen_le|]. rewrite <- (Permutation_length PB), combine_length, map_length. lia.
  - intros i o. rewrite filter_In, <- (Permutation_in' eq_refl PB), Hin. cbn [snd]. rewrite negb_true_iff, Nat.eqb_neq. split.
    + intros [(k & p & x & H1 & H2) Hc]. split; auto. exists k, p, x. split; auto. exists res. auto.
    + intros [Hc (k & p & x & H1 & res' & E' & H2)]. rewrite Er in E'. injection E' as <-. split; auto. exists k, p, x. auto.
Qed.
(** What is found on q for a visit. *)
Definition answered (q p i : nat) (o : result) : Prop :=
  exists x, visit p i x q /\ code F o <> NOT_FOUND /\ local_res q x (none p) o.
Lemma found_all : exists out : nat -> list (nat * result), forall q, q < np ->
  search_here F rnd usize lsize dzero D (fd q) sessm (src q) = Ok (out q) /\ length (out q) <= length (src q) /\
  (forall i o, In (i, o) (out q) -> exists p, proc F o = p /\ answered q p i o) /\
  (forall p i x, visit p i x q -> (exists o, In (i, o) (out q) /\ proc F o = p /\ local_res q x (none p) o) \/
     (forall e, ~ must_loc q x e)).
Proof.
  apply (finite_choice (fun q out => search_here F rnd usize lsize dzero D (fd q) sessm (src q) = Ok out /\ length out <= length (src q) /\
  (forall i o, In (i, o) out -> exists p, proc F o = p /\ answered q p i o) /\
  (forall p i x, visit p i x q -> (exists o, In (i, o) out /\ proc F o = p /\ local_res q x (none p) o) \/
     (forall e, ~ must_loc q x e))) [] np).
  intros q Hq. destruct (stage_search q Hq) as (out & E & L & H). exists out. split; auto. split; auto.
  set (P := map (fun s => Pt F (sp_x F s) (sp_sid F s)) (src q)) in *. set (O := map (fun s => none (sp_proc F s)) (src q)) in *.
  assert (Hk : forall k p x i res, nth_error (src q) k = Some (SP F (px F x) i p (psid F x)) -> findptsms_local F rnd usize dzero (local F (fd q)) sessm P O = Ok res ->
    exists o, nth_error res k = Some o /\ local_res q x (none p) o).
  { intros k p x i res Hs Er. destruct (Hloc q P O Hq) as (res' & Er' & _ & Hr).
    { unfold P, O. rewrite !map_length. auto. }
    { intros s Hs'. unfold P in Hs'. apply in_map_iff in Hs'. destruct Hs' as (y & <- & Hy). cbn [px].
      apply in_src in Hy; auto. destruct Hy as (p' & i' & x' & (Hp & _ & _ & H1 & _) & ->). cbn [sp_x].
      apply (Hcv p' q x'); auto. eapply nth_error_In; eauto. }
    rewrite Er in Er'. injection Er' as <-. destruct (Hr k x (none p)) as (o & H1 & H2).
    - unfold P. erewrite map_nth_error; eauto. destruct x; reflexivity.
    - unfold O. erewrite map_nth_error; eauto. reflexivity.
    - exists o. auto. }
  split.
  - intros i o Hi. apply H in Hi. destruct Hi as (Hc & k & p & x & Hs & res & Er & Ho). destruct (Hk k p x i res Hs Er) as (o' & Ho' & Hl).
    rewrite Ho in Ho'. injection Ho' as <-. exists p. split; [destruct Hl as (C & Ep & _); rewrite Ep; reflexivity|].
    exists x. split; [|auto]. pose proof (nth_error_In _ _ Hs) as Hi. apply in_src in Hi; auto. destruct Hi as (p' & i' & x' & Hv & Es).
    destruct x, x'. cbn in Es. congruence.
  - intros p i x Hv. assert (Hi : In (SP F (px F x) i p (psid F x)) (src q)) by (apply in_src; eauto).
    apply In_nth_error in Hi. destruct Hi as [k Hs].
    destruct (Hloc q P O Hq) as (res & Er & _ & _).
    { unfold P, O. rewrite !map_length. auto. }
    { intros s Hs'. unfold P in Hs'. apply in_map_iff in Hs'. destruct Hs' as (y & <- & Hy). cbn [px].
      apply in_src in Hy; auto. destruct Hy as (p' & i' & x' & (Hp & _ & _ & H1 & _) & ->). cbn [sp_x].
      apply (Hcv p' q x'); auto. eapply nth_error_In; eauto. }
    destruct (Hk k p x i res Hs Er) as (o & Ho & Hl).
    destruct (Nat.eq_dec (code F o) NOT_FOUND) as [Ec|Ec].
    + right. intros e He. destruct Hl as (C & _ & B & _ & _ & M). apply M in He.
      destruct B as [[-> _]|(c & _ & _ & K & _)]; [destruct He|]. rewrite K in Ec. destruct (f_internal F _); discriminate.
    + left. exists o. split; [apply H; split; auto; exists k, p, x; split; auto; exists res; auto|].
      split; auto. destruct Hl as (C & Ep & _). rewrite Ep. reflexivity.
Qed.
Variable out : nat -> list (nat * result).
Hypothesis Hout : forall q, q < np ->
  search_here F rnd usize lsize dzero D (fd q) sessm (src q) = Ok (out q) /\ length (out q) <= length (src q) /\
  (forall i o, In (i, o) (out q) -> exists p, proc F o = p /\ answered q p i o) /\
  (forall p i x, visit p i x q -> (exists o, In (i, o) (out q) /\ proc F o = p /\ local_res q x (none p) o) \/
     (forall e, ~ must_loc q x e)).

(** G. The results come back. *)
Lemma answered_fit q p i o : answered q p i o -> proc F o = p ->
  length (r F o) = D /\ i < 256 ^ usize /\ code F o < 256 ^ usize /\ el F o < 256 ^ usize /\ proc F o < 256 ^ usize /\ p < np.
Proof.
  intros (x & (Hp & Hq & _ & H1 & _) & Hc & C & Ep & B & _ & M & _) Ho.
  destruct B as [[_ B]|(c & Ic & [Ec _] & K & Er & _)]; [congruence|]. destruct (M c Ic) as [Mc _]. pose proof (Hel q Hq).
  assert (H256 : 256 ^ 1 <= 256 ^ usize) by (apply Nat.pow_le_mono_r; lia). cbn in H256.
  pose proof (nth_error_Some_lt _ _ _ H1). pose proof (len_lt p Hp).
  split; [rewrite Er; apply Hsol; auto|]. split; [lia|]. split; [rewrite K; destruct (f_internal F _); unfold INTERNAL, BORDER; lia|].
  split; [lia|]. split; [lia|auto].
Qed.
Lemma stage_return : exists arr : nat -> list (nat * result),
  (forall p, p < np -> Permutation (arr p) (sent_to np p (fun x => proc F (snd x)) (from_proc F usize) out)) /\
  goes np (fun q => transfer usize INT_MAX np q ((D + 2) * ds + 5 * usize) ((D + 2) * ds + 3 * usize) true (op_bytes F usize) (op_of F usize dzero D) (out q))
    (fun p => Ret (arr p)).
Proof.
  apply (transfer_ok usize INT_MAX np us1 np_lim max_lim); [lia|pose proof (dsize_pos F); lia| |].
  - intros q [i o] Hq Hx. destruct (Hout q Hq) as (_ & _ & H & _). destruct (H i o Hx) as (p & Ep & Ha).
    destruct (answered_fit q p i o Ha Ep) as (A1 & A2 & A3 & A4 & A5 & A6). 
    destruct (op_row F usize D dzero (i, o) q) as (B1 & B2 & B3 & B4); cbn [fst snd]; auto; [lia|]. cbn [snd] in B3. rewrite B3, Ep. auto 10.
  - eapply Nat.le_lt_trans; [|exact HV2]. replace ((D + 2) * ds + 5 * usize - usize) with ((D + 2) * ds + 4 * usize) by lia.
    apply Nat.mul_le_mono_r, Nat.mul_le_mono_r. eapply Nat.le_trans; [|apply src_total]. rewrite !total_sum. unfold sum.
    assert (Hl : forall q, In q (seq 0 np) -> length (out q) <= length (src q)) by (intros q Hq; apply in_seq in Hq; apply Hout; lia).
    revert Hl. generalize (seq 0 np). induction l as [|a l IH]; intros Hl; cbn [map fold_right]; auto.
    apply Nat.add_le_mono; [apply Hl; left; auto|apply IH; intros; apply Hl; right; auto].
Qed.
Variable arr : nat -> list (nat * result).
Hypothesis Harr : forall p, p < np -> Permutation (arr p) (sent_to np p (fun x => proc F (snd x)) (from_proc F usize) out).
Lemma in_arr p i o : p < np -> (In (i, o) (arr p) <-> exists q o', q < np /\ In (i, o') (out q) /\ proc F o' = p /\ (i, o) = from_proc F usize q (i, o')).
Proof.
  intros Hp. rewrite (Permutation_in' eq_refl (Harr p Hp)), in_sent_to. split.
  - intros (q & [i' o'] & Hq & H & E & Eo). cbn [snd] in E. unfold from_proc in *. cbn [fst snd] in *. exists q, o'. injection Eo as <- Eo. subst o. auto.
  - intros (q & o' & Hq & H & E & Eo). exists q, (i, o'). auto.
Qed.


Lemma in_cell x b : (exists p, p < np /\ In x (pts p)) -> (exists q, q < np /\ In b (obb q)) ->
  in_box F (px F x) b -> below_top F rnd hn bd b (px F x) -> cell_in_box F rnd hn bd b (cell (px F x)).
Proof.
  intros (p & Hp & Hx) (q & Hq & Hb) Hin Hbt. destruct (Hbox q b Hq Hb) as (Lb & Hs & Hc).
  destruct (cell_ok p p x Hp Hp Hx) as (_ & Hlt & _ & Ed & _).
  apply digits_cell; auto; [congruence|rewrite bdl; auto|]. rewrite bdl, Ed. apply digits_in_ranges; auto.
Qed.
Lemma arr_sound p i o : p < np -> In (i, o) (arr p) -> exists q o' y o1, q < np /\ q <> p /\ nth_error (pts p) i = Some y /\
  nth_error (st1 p) i = Some o1 /\ goes_on o1 = true /\ code F o' <> NOT_FOUND /\ local_res q y (none p) o' /\ (i, o) = from_proc F usize q (i, o').
Proof.
  intros Hp H. apply in_arr in H; auto. destruct H as (q & o' & Hq & H & E & Eo).
  destruct (Hout q Hq) as (_ & _ & Ho & _). destruct (Ho i o' H) as (p' & E' & y & (_ & _ & Hne & H1 & (o1 & H2 & H3) & _) & Hc & Hl).
  rewrite E in E'. subst p'. exists q, o', y, o1. auto 10.
Qed.
Lemma arr_complete p i y o1 q e b : p < np -> q < np -> q <> p -> nth_error (pts p) i = Some y -> nth_error (st1 p) i = Some o1 ->
  goes_on o1 = true -> must_loc q y e -> nth_error (obb q) e = Some b -> below_top F rnd hn bd b (px F y) ->
  exists o', In (from_proc F usize q (i, o')) (arr p) /\ code F o' <> NOT_FOUND /\ local_res q y (none p) o'.
Proof.
  intros Hp Hq Hne Hy Ho1 Hg Hm Hb Hbt. pose proof Hm as (_ & _ & b' & Hb' & Hin & _). rewrite Hb in Hb'. injection Hb' as <-.
  assert (Hv : visit p i y q).
  { split; [auto|]. split; [auto|]. split; [auto|]. split; [auto|]. split; [eauto|].
    exists b. split; [eapply nth_error_In; eauto|]. apply in_cell; auto.
    - exists p. eauto using nth_error_In.
    - exists q. eauto using nth_error_In. }
  destruct (Hout q Hq) as (_ & _ & H0 & H). destruct (H p i y Hv) as [(o' & Ho' & Hpr & Hl)|Hno]; [|destruct (Hno e Hm)].
  exists o'. split; [|split; [|auto]].
  - apply in_arr; auto. exists q, o'. auto.
  - destruct (H0 i o' Ho') as (p' & _ & y' & _ & Hc & _). auto.
Qed.
End Stages.

(** The whole search. *)
Theorem stages_goes : exists (st1 : nat -> list result) (arr : nat -> list (nat * result)),
  (forall p, p < np -> length (st1 p) = length (pts p) /\
     forall i y o, nth_error (pts p) i = Some y -> nth_error (st p) i = Some o -> exists o1, nth_error (st1 p) i = Some o1 /\ local_res p y o o1) /\
  (forall p i o, p < np -> In (i, o) (arr p) -> exists q o' y o1, q < np /\ q <> p /\ nth_error (pts p) i = Some y /\
     nth_error (st1 p) i = Some o1 /\ goes_on o1 = true /\ code F o' <> NOT_FOUND /\ local_res q y (none p) o' /\ (i, o) = from_proc F usize q (i, o')) /\
  (forall p i y o1 q e b, p < np -> q < np -> q <> p -> nth_error (pts p) i = Some y -> nth_error (st1 p) i = Some o1 ->
     goes_on o1 = true -> must_loc q y e -> nth_error (obb q) e = Some b -> below_top F rnd hn bd b (px F y) ->
     exists o', In (from_proc F usize q (i, o')) (arr p) /\ code F o' <> NOT_FOUND /\ local_res q y (none p) o') /\
  goes np (fun p => findpts_search F rnd usize lsize INT_MAX np p dzero D (fd p) sessm (pts p) (st p))
    (fun p => Ret (map (set_proc F p) (st1 p), arr p)).
Proof.
  destruct stage_local as (st1 & Hst1).
  destruct (stage_hash st1 Hst1) as (hp' & Hhp' & G1).
  destruct cell_lists as (lc & Hlc).
  destruct (stage_route st1 Hst1 hp' Hhp' lc Hlc) as (src & Hsrc & G2).
  destruct (found_all st1 Hst1 hp' Hhp' lc Hlc src Hsrc) as (out & Hout).
  destruct (stage_return st1 Hst1 hp' Hhp' lc Hlc src Hsrc out Hout) as (arr & Harr & G3).
  exists st1, arr. split; [intros p Hp; apply Hst1; auto|]. split; [eapply arr_sound; eauto|]. split; [eapply arr_complete; eauto|].
  eapply goes_trans.
  { apply (goes_ext np _ (fun p =>
      pbind (transfer usize INT_MAX np p (D * ds + 3 * usize) (D * ds + usize) true (sp_bytes F usize) (sp_of F usize D) (hp st1 p)) (fun hash_pt =>
        pbind (plift (to_procs F rnd usize lsize np (fd p) hash_pt)) (fun routed =>
        pbind (transfer_ext usize INT_MAX np p (D * ds + 3 * usize) (sp_bytes F usize) (sp_of F usize D) (map fst routed) (map snd routed)) (fun src =>
        pbind (plift (search_here F rnd usize lsize dzero D (fd p) sessm src)) (fun out =>
        pbind (transfer usize INT_MAX np p ((D + 2) * ds + 5 * usize) ((D + 2) * ds + 3 * usize) true
           (op_bytes F usize) (op_of F usize dzero D) out) (fun out =>
        Ret (map (set_proc F p) (st1 p), out)))))))).
    intros p Hp. unfold findpts_search. rewrite (proj1 (Hst1 p Hp)). cbn [plift pbind].
    rewrite to_hash_ok by auto. reflexivity. }
  eapply goes_trans; [apply (goes_bind np (fun p hash_pt =>
        pbind (plift (to_procs F rnd usize lsize np (fd p) hash_pt)) (fun routed =>
        pbind (transfer_ext usize INT_MAX np p (D * ds + 3 * usize) (sp_bytes F usize) (sp_of F usize D) (map fst routed) (map snd routed)) (fun src =>
        pbind (plift (search_here F rnd usize lsize dzero D (fd p) sessm src)) (fun out =>
        pbind (transfer usize INT_MAX np p ((D + 2) * ds + 5 * usize) ((D + 2) * ds + 3 * usize) true
           (op_bytes F usize) (op_of F usize dzero D) out) (fun out =>
        Ret (map (set_proc F p) (st1 p), out)))))) _ _ G1)|].
  eapply goes_trans; [apply (goes_ext np _ (fun p =>
        pbind (transfer_ext usize INT_MAX np p (D * ds + 3 * usize) (sp_bytes F usize) (sp_of F usize D) (map fst (rt hp' lc p)) (map snd (rt hp' lc p))) (fun src =>
        pbind (plift (search_here F rnd usize lsize dzero D (fd p) sessm src)) (fun out =>
        pbind (transfer usize INT_MAX np p ((D + 2) * ds + 5 * usize) ((D + 2) * ds + 3 * usize) true
           (op_bytes F usize) (op_of F usize dzero D) out) (fun out =>
        Ret (map (set_proc F p) (st1 p), out))))))|].
  { intros p Hp. cbn [pbind]. rewrite (to_procs_ok st1 Hst1 hp' Hhp' lc Hlc p Hp). reflexivity. }
  eapply goes_trans; [apply (goes_bind np (fun p src =>
        pbind (plift (search_here F rnd usize lsize dzero D (fd p) sessm src)) (fun out =>
        pbind (transfer usize INT_MAX np p ((D + 2) * ds + 5 * usize) ((D + 2) * ds + 3 * usize) true
           (op_bytes F usize) (op_of F usize dzero D) out) (fun out =>
        Ret (map (set_proc F p) (st1 p), out)))) _ _ G2)|].
  eapply goes_trans; [apply (goes_ext np _ (fun p =>
        pbind (transfer usize INT_MAX np p ((D + 2) * ds + 5 * usize) ((D + 2) * ds + 3 * usize) true
           (op_bytes F usize) (op_of F usize dzero D) (out p)) (fun out =>
        Ret (map (set_proc F p) (st1 p), out))))|].
  { intros p Hp. cbn [pbind]. rewrite (proj1 (Hout p Hp)). reflexivity. }
  apply (goes_bind np (fun p out => Ret (map (set_proc F p) (st1 p), out)) _ _ G3).
Qed.
End Main.
