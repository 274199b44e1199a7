(** findptsms_setup and findptsms on all processes. *)
From Verif Require Import Base BaseLemmas Sort SortSpec SortLemmas Net NetProof NetWords NetWordsProof
  Transfer TransferSpec TransferProof TransferProof2 TransferProof4 GsTop GsSpec GsSortProof GsTopProof3 GsSetupProof GsUserProof ListLemmas CrystalProof
  Findpts FindptsGlobal FindptsMs FindptsSpec FindptsUserSpec FindptsMsSpec
  FindptsProof1 FindptsProof2 FindptsProof3 FindptsProof5 FindptsGlobalProof1 FindptsGlobalProof2 FindptsGlobalProof4
  FindptsSearchProof1 FindptsSearchProof2 FindptsSearchProof3 FindptsSearchProof4 FindptsUserProof FindptsMsProof1 FindptsMsProof2 FindptsMsProof3.
From Coq Require Import QArith Qround Lqa Sorting.Sorted.
Open Scope nat_scope.

Section User.
Variable F : doubles.
Notation dbl := (dbl F).
Notation result := (result F).
Variable rnd : Q -> Q.
Variable usize lsize INT_MAX np : nat.
Variable dzero : dbl.
Variable D : nat.
Variable root : nat -> nat.
Variable M : nat -> mesh F.
Variable lb : nat -> box F.
Variable gb : box F.
Variable hn : nat.
Hypothesis Hf : mesh_fits F rnd usize lsize INT_MAX np D root M lb gb hn.
Variable sid : nat -> nat.
Hypothesis Hsid : forall p, p < np -> sid p < 256 ^ usize.
Notation obb p := (m_obb F (M p)).

Lemma data_ready_ms fd : data_of_ms F rnd usize lsize INT_MAX np dzero D root M sid fd ->
  exists n, ready F rnd usize np dzero D M lb gb hn true sid n fd.
Proof.
  intros (fd0 & H & E). destruct (setup_goes F rnd usize lsize INT_MAX np dzero D root M lb gb hn Hf true sid) as (n & fd' & Hr & G).
  apply goes_always_fun in G. exists n. eapply (ready_ext F rnd usize np dzero D M lb gb hn true sid n fd'); eauto.
  intros p Hp. destruct (E p Hp) as [-> ->]. rewrite (returns_fun_at np _ fd' fd0 G H p Hp). auto.
Qed.

Theorem search_ms_goes fd sessm pts st : data_of_ms F rnd usize lsize INT_MAX np dzero D root M sid fd ->
  (forall p, p < np -> length (st p) = length (pts p)) ->
  points_fit F rnd usize lsize INT_MAX np D M lb gb hn (fun p => map (px F) (pts p)) ->
  (forall p y, p < np -> In y (pts p) -> psid F y < 256 ^ usize) ->
  exists st', (forall p, p < np -> length (st' p) = length (pts p) /\
    forall i y o, nth_error (pts p) i = Some y -> nth_error (st p) i = Some o ->
      exists o', nth_error (st' p) i = Some o' /\
        answer_ms F sid (near_ms F np M sid sessm y) (inside_ms F rnd np M sid lb gb sessm y) (solution F M (px F y)) (unfound F p o) o') /\
  goes np (fun p => findptsms F rnd usize lsize INT_MAX np p dzero D (fd p) sessm (pts p) (st p)) (fun p => Ret (st' p, forget F (fd p))).
Proof.
  intros Hd Hst [Pl Pg Ptot (V & HV & HV1 & HV2)] Hps. destruct (data_ready_ms fd Hd) as (n & H1 & H2 & H3 & H4).
  pose proof (gb_length F rnd usize lsize INT_MAX np dzero D root M lb gb hn Hf) as Lg. pose proof (hash_lb F rnd usize lsize INT_MAX np dzero D root M lb gb hn Hf) as El.
  destruct Hf as [R [us1 usls] [np1 npl] ml D2 Hnpt Hr Hob Hlb Hgb Hlc Hgc Hsz Hsum Hhn [Hh1 Hh2] (L & HL & HtL)].
  assert (Hel : forall q, q < np -> length (obb q) < 256 ^ usize).
  { intros q Hq. destruct (Hsz q Hq) as [_ Hs]. specialize (Hs 1 (le_n 1) (or_intror eq_refl)). rewrite <- (El q Hq) in Hs.
    rewrite (entries_one F rnd R usize us1 dzero D D2 (obb q) (Hob q Hq)) with (nu := m_nu F (M q)) in Hs; [lia| |]; rewrite ?El by auto; auto. }
  destruct (stages_goes F rnd R usize lsize INT_MAX np us1 usls np1 npl ml dzero D (fun q => obb q) fd hn gb Lg Hh1) with
    (ms := true) (sessm := sessm) (n := n) (lb := lb) (pts := pts) (st := st) (V := V) as (st1 & arr & Hs1 & Ha1 & Ha2 & G); auto.
  - lia.
  - intros q b Hq Hb. split; [apply (Hob q Hq); auto|]. split.
    + apply Hgb. unfold all_boxes. apply in_concat. exists (obb q). split; auto. apply (in_map (fun p => obb p)), in_seq. lia.
    + destruct (Hgc q b Hq Hb) as [Hc _]. exact (Hc hn Hh1).
  - intros q Hq. apply (H2 q Hq).
  - intros q e x Hq. destruct (H2 q Hq) as (_ & _ & _ & -> & _). auto.
  - intros p q y Hp Hq Hy. apply (Pl p q (px F y)); auto; [apply in_map; auto| |]; apply H3; auto.
  - intros p y Hp Hy. eapply Pg; eauto. apply in_map. auto.
  - rewrite (total_map np (px F) pts) in Ptot. auto.
  - intros p i q y bx c Hp Hq Hne Hy. apply HV; auto. apply (map_nth_error (px F)). auto.
  - rewrite (total_map np (px F) pts) in Ptot.
    assert (Hlen : forall p, p < np -> length (pts p) < 256 ^ usize).
    { intros p Hp. pose proof (total_ge np pts p Hp). assert (total np pts < INT_MAX); [|lia].
      eapply Nat.le_lt_trans; [|exact Ptot]. rewrite <- Nat.mul_assoc. rewrite <- (Nat.mul_1_r (total np pts)) at 1. apply Nat.mul_le_mono_l. nia. }
    assert (Hmay : forall y c, may F np (fun q => obb q) fd sessm y c -> near_ms F np M sid sessm y c).
    { intros y c (C1 & C2 & C0 & C3). destruct (H2 (fst c) C1) as (Ei & Es & E & _). split; [split; [auto|]; split; [auto|]; rewrite <- E; auto|].
      destruct C0 as [C0|C0]; [congruence|]. rewrite Es in C0. unfold allowed. destruct (sessm =? 1); auto. }
    assert (Hmust : forall y c, inside_ms F rnd np M sid lb gb sessm y c -> must F rnd np (fun q => obb q) fd hn gb sessm n lb y c).
    { intros y c [(C1 & C2 & b & B1 & B2 & B3) C0]. destruct (H2 (fst c) C1) as (Ei & Es & E & _). split; [auto|]. split.
      { right. rewrite Es. unfold allowed in C0. destruct (sessm =? 1); auto. }
      split; [rewrite E; auto|]. exists b. split; [auto|]. split; [auto|]. split; apply B3; auto. apply H3. auto. }
    assert (Hsol : forall x c, fst c < np -> sol F fd x c = solution F M x c).
    { intros x c Hc. unfold sol, solution. destruct (H2 (fst c) Hc) as (_ & _ & _ & -> & _). auto. }
    assert (Hsb : forall y c, fst c < np -> session_best F sid (must F rnd np (fun q => obb q) fd hn gb sessm n lb y) (sol F fd (px F y)) c ->
      session_best F sid (inside_ms F rnd np M sid lb gb sessm y) (solution F M (px F y)) c).
    { intros y c Hc S c' Hm Es. rewrite <- (Hsol _ c) by auto. rewrite <- (Hsol _ c') by apply Hm. apply S; auto. }
    assert (Hm : exists st' : nat -> list result, forall p, p < np -> merge_ms F usize lsize dzero D (arr p) (map (set_proc F p) (st1 p)) = Ok (st' p) /\
      length (st' p) = length (pts p) /\ forall i y o, nth_error (pts p) i = Some y -> nth_error (st p) i = Some o ->
        exists o', nth_error (st' p) i = Some o' /\
          answer_ms F sid (near_ms F np M sid sessm y) (inside_ms F rnd np M sid lb gb sessm y) (solution F M (px F y)) (unfound F p o) o').
    { apply (finite_choice (fun p s => merge_ms F usize lsize dzero D (arr p) (map (set_proc F p) (st1 p)) = Ok s /\
      length s = length (pts p) /\ forall i y o, nth_error (pts p) i = Some y -> nth_error (st p) i = Some o ->
        exists o', nth_error s i = Some o' /\
          answer_ms F sid (near_ms F np M sid sessm y) (inside_ms F rnd np M sid lb gb sessm y) (solution F M (px F y)) (unfound F p o) o') [] np).
      intros p Hp. destruct (Hs1 p Hp) as [L1 Hl1].
      destruct (merge_ms_ok F usize lsize dzero D (arr p) (map (set_proc F p) (st1 p))) as (B & s & P & Es & Ls & So & Ns).
      { intros x Hx. rewrite map_length.
        assert (Hi : fst x < length (st1 p)) by exact (arr_index F rnd usize np dzero D (fun q => obb q) fd true sessm n lb pts st1 arr Ha1 p x Hp L1 Hx).
        split; [auto|]. split; [specialize (Hlen p Hp); lia|]. destruct x as [i o]. destruct (Ha1 p i o Hp Hx) as (q & o' & y & o1 & Hq & _ & _ & _ & _ & Hc & (C & _ & Bb & _) & E).
        rewrite E. unfold from_proc. cbn [snd elsid]. destruct Bb as [[_ Bb]|(c & _ & [_ K] & _)]; [congruence|].
        destruct (H2 q Hq) as (Ei & Es & _). destruct (K Ei) as [_ ->]. rewrite Es, dec_enc; auto. }
      exists s. split; [auto|]. split; [rewrite Ls, map_length; auto|]. intros i y o Hy Ho.
      destruct (Hl1 i y o Hy Ho) as (o1 & Ho1 & Hlr). destruct (Ns i (set_proc F p o1)) as (o' & No' & Fo'); [apply map_nth_error; auto|].
      exists o'. split; [auto|].
      assert (A : answer_ms F sid (may F np (fun q => obb q) fd sessm y) (must F rnd np (fun q => obb q) fd hn gb sessm n lb y) (sol F fd (px F y)) (set_proc F p (set_code F NOT_FOUND o)) o').
      { apply (ms_answer F rnd usize np dzero D (fun q => obb q) fd hn gb sid sessm n lb) with (p := p) (i := i) (o1 := o1) (l := map snd (filter (fun x => fst x =? i) B)); auto.
        - intros q Hq. destruct (H2 q Hq) as (? & ? & _). auto.
        - pose proof (arr_returned F rnd usize np dzero D (fun q => obb q) fd hn gb true sessm n lb pts st1 (fun q => if q =? p then B else arr q)) as HR.
          specialize (HR) with (p := p) (i := i) (y := y) (o1 := o1). cbv beta in HR. rewrite Nat.eqb_refl in HR. apply HR; auto.
          + intros p' i' o2 Hp' Hin. apply Ha1; auto. destruct (Nat.eqb_spec p' p) as [->|]; [|auto]. apply (Permutation_in _ (Permutation_sym P)); auto.
          + intros p' i' y' o1' q e b Hp' Hq Hne Hy' Ho' Hg Hml Hb Hbt. destruct (Ha2 p' i' y' o1' q e b) as (o2 & K1 & K2); auto. exists o2. split; [|auto].
            destruct (Nat.eqb_spec p' p) as [->|]; [|auto]. apply (Permutation_in _ P). auto. }
      destruct A as [(A1 & A2 & A3)|(c & Mc & Wc & A1 & A2 & A3 & A4 & A5)]; [left|right].
      - split; [exact A1|]. split; [auto|]. intros c Hc. apply (A3 c). auto.
      - assert (Lc : fst c < np) by apply Mc. exists c. rewrite <- (Hsol _ c) by auto.
        split; [auto|]. split; [auto|]. split; [auto|]. split; [auto|]. split; [auto|]. split; [auto|].
        intros c' Hc'. destruct (A5 c' (Hmust _ _ Hc')) as (w & W1 & W2 & W3 & W4). exists w. split; [auto|]. split; [auto|].
        split; [apply Hsb; [apply W1|auto]|]. rewrite <- (Hsol _ w) by apply W1. auto. }
    destruct Hm as (st' & Hm). exists st'. split; [intros p Hp; apply Hm; auto|].
    eapply goes_trans.
    { apply (goes_ext np _ (fun p => pbind (findpts_search F rnd usize lsize INT_MAX np p dzero D (fd p) sessm (pts p) (st p))
        (fun '(st, out) => pbind (plift (merge_ms F usize lsize dzero D out st)) (fun st => Ret (st, FD F (local F (fd p)) (hash F (fd p)) None))))).
      intros p Hp. unfold findptsms. rewrite (proj1 (H2 p Hp)). reflexivity. }
    eapply goes_trans.
    { apply (goes_bind np (fun p '(st, out) => pbind (plift (merge_ms F usize lsize dzero D out st)) (fun st => Ret (st, FD F (local F (fd p)) (hash F (fd p)) None))) _ _ G). }
    apply goes_ext. intros p Hp. cbn [pbind]. rewrite (proj1 (Hm p Hp)). reflexivity.
Qed.
End User.
