(** findpts_setup and findpts on all processes. *)
From Verif Require Import Base BaseLemmas Sort SortSpec SortLemmas Net NetProof NetWords NetWordsProof
  Transfer TransferSpec TransferProof TransferProof2 TransferProof4 GsTop GsSpec GsSortProof GsTopProof3 GsSetupProof ListLemmas CrystalProof
  GsUserSpec GsUserProof Findpts FindptsGlobal FindptsSpec
  FindptsProof1 FindptsProof2 FindptsProof3 FindptsProof5 FindptsGlobalProof1 FindptsGlobalProof2 FindptsGlobalProof3 FindptsGlobalProof4
  FindptsSearchProof1 FindptsSearchProof2 FindptsSearchProof3 FindptsSearchProof4 FindptsUserSpec FindptsEvalProof.
From Coq Require Import QArith Qround Lqa Sorting.Sorted.
Open Scope nat_scope.

Section Bounds.
Variable F : doubles.
Lemma sub_box_antisym (b b' : box F) : sub_box F b b' -> sub_box F b' b -> b = b'.
Proof.
  intros H. induction H as [|[l h] [l' h'] b b' [H1 H2] _ IH]; intros H'; auto. inversion H' as [|? ? ? ? [H3 H4] H5]; subst. cbn [fst snd] in *.
  f_equal; [f_equal; apply val_inj; lra|auto].
Qed.
Lemma sub_box_trans (a b c : box F) : sub_box F a b -> sub_box F b c -> sub_box F a c.
Proof.
  intros H. revert c. induction H as [|x y a b [H1 H2] _ IH]; intros c H'; inversion H' as [|? z ? c' [H3 H4] H5]; subst; constructor; [split; lra|].
  apply IH. auto.
Qed.
Lemma bounds_unique obb (b b' : box F) : bounds F obb b -> bounds F obb b' -> b = b'.
Proof. intros [H1 H2] [H3 H4]. apply sub_box_antisym; auto. Qed.
Lemma bounds_nested np (obb : nat -> list (box F)) lb gb : (forall p, p < np -> bounds F (obb p) (lb p)) ->
  bounds F (map lb (seq 0 np)) gb -> bounds F (concat (map obb (seq 0 np))) gb.
Proof.
  intros Hl [H1 H2]. split.
  - intros b Hb. apply in_concat in Hb. destruct Hb as (l & Hl' & Hb). apply in_map_iff in Hl'. destruct Hl' as (p & <- & Hp). apply in_seq in Hp.
    apply (sub_box_trans _ (lb p)); [apply Hl; auto; lia|]. apply H1. apply in_map, in_seq. lia.
  - intros b' H. apply H2. intros b Hb. apply in_map_iff in Hb. destruct Hb as (p & <- & Hp). pose proof Hp as Hp'. apply in_seq in Hp.
    apply Hl; [lia|]. intros b Hb. apply H. apply in_concat. exists (obb p). split; auto. apply in_map. auto.
Qed.
End Bounds.

Section User.
Variable F : doubles.
Notation dbl := (dbl F).
Notation result := (result F).
Notation ds := (dsize F).
Variable rnd : Q -> Q.
Variable usize lsize INT_MAX np : nat.
Variable dzero : dbl.
Variable D : nat.
Variable root : nat -> nat.
Variable M : nat -> mesh F.
Variable lb : nat -> box F.
Variable gb : box F.
Variable hn : nat.
Hypothesis Hf : mesh_fits F rnd usize lsize INT_MAX np D root M lb gb hn.
Notation obb p := (m_obb F (M p)).

(** The data after setup; one session or several, process p belonging to session sid p. *)
Definition ready (ms : bool) (sid : nat -> nat) (n : nat -> nat) (fd : nat -> findpts_data F) : Prop :=
  (forall r, r < np -> hash_n F (hash F (fd r)) = hn /\ bnd F (hash F (fd r)) = gb /\
    fac F (hash F (fd r)) = hash_setfac F rnd gb hn /\ lists_procs F rnd np hn gb (fun q => obb q) r (offset F (hash F (fd r)))) /\
  (forall q, q < np -> ims F (local F (fd q)) = ms /\ nsid F (local F (fd q)) = sid q /\ box_test F (local F (fd q)) = m_test F (M q) /\
    solve F (local F (fd q)) = m_solve F (M q) /\ npt_max F (local F (fd q)) = m_npt F (M q)) /\
  (forall q, q < np -> 1 <= n q /\ n q ^ D < 256 ^ usize) /\
  forall sessm q pts st, q < np -> length st = length pts ->
    (forall p, In p pts -> convertible F rnd usize (n q) (lb q) (px F p)) ->
    exists st', findptsms_local F rnd usize dzero (local F (fd q)) sessm pts st = Ok st' /\ length st' = length st /\
    forall i p o, nth_error pts i = Some p -> nth_error st i = Some o -> exists o', nth_error st' i = Some o' /\
      local_res F rnd (fun q => obb q) fd sessm n lb q p o o'.

Lemma ready_ext ms sid n fd fd' : (forall p, p < np -> local F (fd p) = local F (fd' p) /\ hash F (fd p) = hash F (fd' p)) -> ready ms sid n fd -> ready ms sid n fd'.
Proof.
  intros E (H1 & H2 & H3 & H4). split; [|split; [|split]].
  - intros r Hr. rewrite <- (proj2 (E r Hr)). auto.
  - intros q Hq. rewrite <- (proj1 (E q Hq)). auto.
  - auto.
  - intros sm q pts st Hq Hl Hc. destruct (H4 sm q pts st Hq Hl Hc) as (st' & E1 & L & H). exists st'. rewrite <- (proj1 (E q Hq)). split; [auto|].
    split; [auto|]. intros i p o Hp Ho. destruct (H i p o Hp Ho) as (o' & N & Hr). exists o'. split; auto.
    unfold local_res, must_loc in *. rewrite <- (proj1 (E q Hq)). auto.
Qed.

Lemma hash_lb q : q < np -> hash_bb F dzero D (obb q) = lb q.
Proof. intros Hq. eapply bounds_unique; [apply hash_bb_spec|]; apply (Hf); auto. Qed.
Lemma lb_length q : q < np -> length (lb q) = D.
Proof. intros Hq. rewrite <- hash_lb by auto. apply hash_bb_spec. apply Hf. auto. Qed.
Lemma global_gb : gbd F np D (fun p => hash_bb F dzero D (obb p)) = gb.
Proof.
  destruct Hf. eapply bounds_unique; [|eassumption]. unfold all_boxes. apply (bounds_nested F np (fun p => obb p) (fun p => hash_bb F dzero D (obb p))).
  - intros p Hp. apply hash_bb_spec. auto.
  - apply gbd_bounds; [lia|]. intros p Hp. apply hash_bb_spec. auto.
Qed.
Lemma gb_length : length gb = D.
Proof. rewrite <- global_gb. apply gbd_length; [apply Hf|]. intros p Hp. apply hash_bb_spec. apply Hf. auto. Qed.

Theorem setup_goes ms sid : exists n fd, ready ms sid n fd /\
  goes np (fun p => findpts_setup F rnd usize lsize INT_MAX np p dzero D root (m_obb F (M p))
      (m_local_size F (M p)) (m_nu F (M p)) (m_global_size F (M p)) (m_test F (M p)) (m_solve F (M p)) (m_npt F (M p)) ms (sid p))
    (fun p => Ret (fd p)).
Proof.
  pose proof hash_lb as El. pose proof global_gb as Eg. destruct Hf as [R [us1 usls] [np1 npl] ml D2 Hnpt Hr Hob Hlb Hgb Hlc Hgc Hsz Hsum Hhn [Hh1 Hh2] (L & HL & HtL)].
  assert (Hloc : exists h : nat -> hash_data F, forall q, q < np ->
    hash_build F rnd usize dzero D (obb q) (m_local_size F (M q)) (m_nu F (M q)) = Ok (h q) /\ bnd F (h q) = lb q /\
    1 <= hash_n F (h q) /\ hash_n F (h q) ^ D < 256 ^ usize /\
    forall fd pts st sessm, Findpts.hd F fd = h q -> 1 <= npt_max F fd -> length st = length pts ->
    (forall p, In p pts -> convertible F rnd usize (hash_n F (h q)) (lb q) (px F p)) ->
    exists st', findptsms_local F rnd usize dzero fd sessm pts st = Ok st' /\ length st' = length st /\
    forall i p o, nth_error pts i = Some p -> nth_error st i = Some o ->
      exists o' C, nth_error st' i = Some o' /\ proc F o' = proc F o /\
        best F nat (fun e => solve F fd e (px F p)) (is_el F fd p) C o' /\
        (C = [] -> o' = set_code F NOT_FOUND o) /\
        (forall e, In e C -> may_el F (obb q) fd sessm p e) /\ (forall e, must_el F rnd (obb q) (hash_n F (h q)) (lb q) fd sessm p e -> In e C)).
  { apply (finite_choice (fun q h => hash_build F rnd usize dzero D (obb q) (m_local_size F (M q)) (m_nu F (M q)) = Ok h /\ bnd F h = lb q /\
    1 <= hash_n F h /\ hash_n F h ^ D < 256 ^ usize /\
    forall fd pts st sessm, Findpts.hd F fd = h -> 1 <= npt_max F fd -> length st = length pts ->
    (forall p, In p pts -> convertible F rnd usize (hash_n F h) (lb q) (px F p)) ->
    exists st', findptsms_local F rnd usize dzero fd sessm pts st = Ok st' /\ length st' = length st /\
    forall i p o, nth_error pts i = Some p -> nth_error st i = Some o ->
      exists o' C, nth_error st' i = Some o' /\ proc F o' = proc F o /\
        best F nat (fun e => solve F fd e (px F p)) (is_el F fd p) C o' /\
        (C = [] -> o' = set_code F NOT_FOUND o) /\
        (forall e, In e C -> may_el F (obb q) fd sessm p e) /\ (forall e, must_el F rnd (obb q) (hash_n F h) (lb q) fd sessm p e -> In e C)) (HD F 0 [] [] [] 0) np).
    intros q Hq.
    assert (Hcl' : forall b, In b (obb q) -> clear F rnd (hash_bb F dzero D (obb q)) b) by (intros b Hb; rewrite El by auto; apply Hlc; auto).
    assert (Hsz' : sizes_fit F rnd usize (m_nu F (M q)) D (hash_bb F dzero D (obb q)) (obb q)) by (rewrite El; auto).
    destruct (search_ok F rnd R usize us1 dzero D D2 (obb q) (Hob q Hq) Hcl' _ (m_local_size F (M q)) Hsz') as (h & E1 & E2 & E3 & _ & E4).
    destruct (table_ok F rnd R usize us1 dzero D D2 (obb q) (Hob q Hq) Hcl' _ (m_local_size F (M q)) Hsz') as (h' & E1' & ((_ & T) & _) & _).
    rewrite E1 in E1'. injection E1' as <-. exists h. rewrite (El q Hq) in *. repeat (split; [solve [auto|lia]|]). exact E4. }
  destruct Hloc as (hl & Hl).
  destruct (global_build_goes F rnd R usize lsize INT_MAX np us1 usls np1 npl ml dzero D D2 (fun p => obb p) Hob root (fun p => m_global_size F (M p)))
    with (L := L) as (h & Hh & G); auto; unfold sum; try rewrite <- Hhn; try rewrite Eg; auto.
  exists (fun q => hash_n F (hl q)), (fun q => FD F (LD F (hl q) (m_test F (M q)) (m_solve F (M q)) (m_npt F (M q)) ms (sid q)) (h q) None).
  split; [split; [|split; [|split]]|].
  - intros r0 Hr0. cbn [hash]. specialize (Hh r0 Hr0). unfold routes, sum in Hh. rewrite <- Hhn, Eg in Hh. exact Hh.
  - intros q Hq. cbn [local ims nsid box_test solve npt_max]. auto.
  - intros q Hq. destruct (Hl q Hq) as (_ & _ & H1 & H2 & _). auto.
  - intros sm q pts st Hq Hlen Hcv. destruct (Hl q Hq) as (_ & _ & _ & _ & H). cbn [local].
    destruct (H (LD F (hl q) (m_test F (M q)) (m_solve F (M q)) (m_npt F (M q)) ms (sid q)) pts st sm) as (st' & E & Ls & Hs); auto; [cbn [npt_max]; auto|].
    exists st'. split; [auto|]. split; [auto|]. intros i p o Hp Ho. destruct (Hs i p o Hp Ho) as (o' & C & N & Ep & B & Bn & B1 & B2).
    exists o'. split; [auto|]. exists C. cbn [local]. split; [auto|]. split; [auto|]. split; [auto|]. split.
    + intros e He. destruct (B1 e He) as (M1 & M3 & M2). auto.
    + intros e (Hsc & Hb & b & Hb1 & Hb2 & Hb3). apply B2. split; [exact Hsc|]. split; [auto|]. exists b. auto.
  - unfold findpts_setup. eapply goes_trans.
    { apply (goes_ext np _ (fun p => pbind (global_build F rnd usize lsize INT_MAX np p dzero D root (hash_bb F dzero D (obb p)) (obb p) (m_global_size F (M p))) (fun h =>
        Ret (FD F (LD F (hl p) (m_test F (M p)) (m_solve F (M p)) (m_npt F (M p)) ms (sid p)) h None)))).
      intros p Hp. destruct (Hl p Hp) as (E & Eb & _). rewrite E. cbn [plift pbind]. rewrite Eb, El by auto. reflexivity. }
    exact (goes_bind np (fun p h => Ret (FD F (LD F (hl p) (m_test F (M p)) (m_solve F (M p)) (m_npt F (M p)) ms (sid p)) h None)) _ _ G).
Qed.

Lemma data_ready fd : data_of F rnd usize lsize INT_MAX np dzero D root M fd -> exists n, ready false (fun _ => 0) n fd.
Proof.
  intros (fd0 & H & E). destruct (setup_goes false (fun _ => 0)) as (n & fd' & Hr & G). apply goes_always_fun in G. exists n.
  apply (ready_ext false (fun _ => 0) n fd'); auto. intros p Hp. destruct (E p Hp) as [-> ->]. rewrite (returns_fun_at np _ fd' fd0 G H p Hp). auto.
Qed.

Theorem search_goes fd pts st : data_of F rnd usize lsize INT_MAX np dzero D root M fd ->
  (forall p, p < np -> length (st p) = length (pts p)) ->
  points_fit F rnd usize lsize INT_MAX np D M lb gb hn pts ->
  exists st', (forall p, p < np -> length (st' p) = length (pts p) /\
    forall i x o, nth_error (pts p) i = Some x -> nth_error (st p) i = Some o ->
      exists o', nth_error (st' p) i = Some o' /\
        answer F (near F np M x) (inside F rnd np M lb gb x) (solution F M x) (names F) (unfound F p o) o') /\
  goes np (fun p => findpts F rnd usize lsize INT_MAX np p dzero D (fd p) (pts p) (st p)) (fun p => Ret (st' p, forget F (fd p))).
Proof.
  intros Hd Hst [Pl Pg Ptot (V & HV & HV1 & HV2)]. destruct (data_ready fd Hd) as (n & H1 & H2 & H3 & H4).
  pose proof gb_length as Lg. pose proof hash_lb as El. destruct Hf as [R [us1 usls] [np1 npl] ml D2 Hnpt Hr Hob Hlb Hgb Hlc Hgc Hsz Hsum Hhn [Hh1 Hh2] (L & HL & HtL)].
  destruct (findpts_goes F rnd R usize lsize INT_MAX np us1 usls np1 npl ml dzero D (fun q => obb q) fd hn gb Lg Hh1) with (n := n) (lb := lb) (pts := pts) (st := st) (V := V)
    as (st' & Hs & G); auto.
  - lia.
  - intros q b Hq Hb. split; [apply (Hob q Hq); auto|]. split.
    + apply Hgb. unfold all_boxes. apply in_concat. exists (obb q). split; auto. apply (in_map (fun p => obb p)), in_seq. lia.
    + destruct (Hgc q b Hq Hb) as [Hc _]. exact (Hc hn Hh1).
  - intros q Hq. apply (H2 q Hq).
  - intros q Hq. destruct (Hsz q Hq) as [_ Hs]. specialize (Hs 1 (le_n 1) (or_intror eq_refl)). rewrite <- (El q Hq) in Hs.
    rewrite (entries_one F rnd R usize us1 dzero D D2 (obb q) (Hob q Hq)) with (nu := m_nu F (M q)) in Hs; [lia| |]; rewrite ?El by auto; auto.
  - intros q e x Hq. destruct (H2 q Hq) as (_ & _ & _ & -> & _). auto.
  - intros p q x Hp Hq Hx. apply (Pl p q x); auto; apply H3; auto.
  - exists st'. split; [|exact G]. intros p Hp. destruct (Hs p Hp) as [L' Ha]. split; [auto|]. intros i x o Hx Ho.
    destruct (Ha i x o Hx Ho) as (o' & N & A). exists o'. split; [auto|].
    assert (Hmay : forall c, may F np (fun q => obb q) fd 0 (Pt F x 0) c -> near F np M x c).
    { intros c (C1 & C2 & _ & C3). destruct (H2 (fst c) C1) as (_ & _ & E & _). split; [auto|]. split; [auto|]. rewrite <- E. auto. }
    assert (Hmust : forall c, inside F rnd np M lb gb x c -> must F rnd np (fun q => obb q) fd hn gb 0 n lb (Pt F x 0) c).
    { intros c (C1 & C2 & b & B1 & B2 & B3). destruct (H2 (fst c) C1) as (E0 & _ & E & _). split; [auto|]. split; [left; auto|]. split; [rewrite E; auto|].
      exists b. split; [auto|]. split; [auto|]. split; apply B3; auto. apply H3. auto. }
    assert (Hsol : forall c, fst c < np -> sol F fd x c = solution F M x c).
    { intros c Hc. unfold sol, solution. destruct (H2 (fst c) Hc) as (_ & _ & _ & -> & _). auto. }
    destruct A as [(A1 & A2 & A3)|(c & Mc & Wc & A1 & A2 & A3 & A4)]; [left|right].
    + split; [exact A1|]. split; [auto|]. intros c Hc. apply (A3 c). auto.
    + rewrite (Hsol c) in * by apply Mc. exists c. split; [auto|]. split; [auto|]. split; [auto|]. split; [auto|]. split; [auto|].
      intros c' Hc'. rewrite <- (Hsol c') by apply Hc'. apply A4. auto.
Qed.
End User.
