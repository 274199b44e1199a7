(** findptsms with several sessions: the winner of the winners of the sessions. *)
From Verif Require Import Base BaseLemmas Findpts FindptsGlobal FindptsMs FindptsSpec FindptsProof1 FindptsProof2 FindptsProof3 FindptsProof5 FindptsGlobalProof1 FindptsGlobalProof2 ListLemmas CrystalProof FindptsMsProof1.
From Coq Require Import QArith Qround Lqa Sorting.Sorted.
Open Scope nat_scope.

Section Win.
Variable F : doubles.
Notation result := (result F).
Notation val := (val F).
Variable E : Type.
Variable sol : E -> found F.
Variable is : E -> result -> Prop.
Variable sess : E -> nat.
Hypothesis is_sess : forall c o, is c o -> elsid F o = sess c /\ disti F o = f_disti F (sol c).
Notation best := (best F E sol is).

Lemma pick_best C1 C2 o1 o2 : best C1 o1 -> best C2 o2 -> C2 <> [] -> best (C1 ++ C2) (ms_pick F o1 o2).
Proof.
  intros B1 B2 N2. destruct B2 as [[-> _]|(c2 & I2 & S2 & K2 & R2 & D2 & M2)]; [congruence|]. clear N2.
  unfold ms_pick. destruct (Nat.eqb_spec (code F o1) INTERNAL) as [Ei|Ei]; cbn [negb andb].
  { destruct B1 as [[-> H]|(c1 & I1 & S1 & K1 & R1 & D1 & M1)]; [rewrite H in Ei; discriminate|].
    right. exists c1. split; [apply in_or_app; auto|]. repeat (split; auto). }
  assert (Take : (code F o2 = INTERNAL \/ forall c', In c' C1 -> f_internal F (sol c') = false /\ (val (dist2 F o2) <= val (f_dist2 F (sol c')))%Q) ->
    best (C1 ++ C2) o2).
  { intros H. right. exists c2. split; [apply in_or_app; auto|]. split; [auto|].
    split; [auto|]. split; [auto|]. split; [auto|]. destruct H as [H|H]; [left; auto|]. destruct M2 as [M2|M2]; [left; auto|]. right.
    intros c' Hc'. apply in_app_or in Hc'. destruct Hc'; auto. }
  assert (Ho : code F o1 = NOT_FOUND -> C1 = []).
  { intros En. destruct B1 as [[-> _]|(c1 & _ & _ & K1 & _)]; auto. rewrite K1 in En. destruct (f_internal F (sol c1)); discriminate. }
  destruct (Nat.eqb_spec (code F o1) NOT_FOUND) as [En|En]; cbn [orb].
  { apply Take. right. rewrite (Ho En). intros c' []. }
  destruct B1 as [[-> H]|(c1 & I1 & S1 & K1 & R1 & D1 & M1)]; [congruence|]. destruct M1 as [M1|M1]; [congruence|].
  destruct (Nat.eqb_spec (code F o2) INTERNAL) as [Ei2|Ei2]; cbn [orb]; [apply Take; auto|].
  destruct (dlt F (dist2 F o2) (dist2 F o1)) eqn:Ed.
  - apply dlt_spec in Ed. apply Take. right. intros c' Hc'. destruct (M1 c' Hc') as [H1 H2]. split; auto. lra.
  - apply dlt_false in Ed. destruct M2 as [M2|M2]; [congruence|]. right. exists c1. split; [apply in_or_app; auto|].
    repeat (split; auto). right. intros c' Hc'. apply in_app_or in Hc'. destruct Hc' as [Hc'|Hc']; auto.
    destruct (M2 c' Hc') as [H1 H2]. split; auto. lra.
Qed.

(** A session with its candidates and its winner. *)
Record group := Gr { g_s : nat; g_C : list E; g_w : result }.
Definition good (g : group) : Prop := best (g_C g) (g_w g) /\ g_C g <> [] /\ forall c, In c (g_C g) -> sess c = g_s g.
Definition top (G : list group) (o : result) : Prop :=
  exists g, In g G /\ o = g_w g /\ forall g', In g' G -> (val (disti F (g_w g')) <= val (disti F o))%Q.
Definition covers (G : list group) (c : E) : Prop := exists g, In g G /\ In c (g_C g).

Lemma good_elsid g : good g -> elsid F (g_w g) = g_s g.
Proof.
  intros (B & N & S). destruct B as [[B _]|(c & I & H & _)]; [congruence|]. rewrite (proj1 (is_sess _ _ H)). auto.
Qed.
Lemma top_over G a g : (G = [] -> disti F a = dbl_lowest F) -> (G <> [] -> top G a) -> top (G ++ [g]) (ms_over F a (g_w g)).
Proof.
  intros H0 H1. unfold ms_over. destruct (dlt F (disti F (g_w g)) (disti F a)) eqn:Ed; cbn [negb].
  - apply dlt_spec in Ed. destruct G as [|g0 G].
    { rewrite (H0 eq_refl) in Ed. pose proof (dbl_lowest_bot F (disti F (g_w g))). lra. }
    destruct H1 as (g1 & I1 & E1 & M1); [discriminate|]. exists g1. split; [apply in_or_app; auto|]. split; [auto|].
    intros g' Hg'. apply in_app_or in Hg'. destruct Hg' as [Hg'|[<-|[]]]; [auto|]. lra.
  - apply dlt_false in Ed. exists g. split; [apply in_or_app; right; left; auto|]. split; [auto|].
    intros g' Hg'. apply in_app_or in Hg'. destruct Hg' as [Hg'|[<-|[]]]; [|lra].
    destruct G as [|g0 G]; [destruct Hg'|]. destruct H1 as (g1 & I1 & E1 & M1); [discriminate|]. specialize (M1 g' Hg'). lra.
Qed.

Variable may must : E -> Prop.
Variable part : result -> E -> Prop.
(** An entry that came back. *)
Definition entry_ok (opt : result) : Prop :=
  exists C, C <> [] /\ best C opt /\ (forall c, In c C -> may c /\ sess c = elsid F opt) /\ forall c, must c -> part opt c -> In c C.

(** The user's own result. *)
Variable o : result.
Variable C0 : list E.
Hypothesis own_best : best C0 o.
Hypothesis own_may : forall c, In c C0 -> may c /\ sess c = elsid F o.
Lemma own_code : code F o = NOT_FOUND <-> C0 = [].
Proof.
  split.
  - intros Hc. destruct own_best as [[H _]|(c & _ & _ & K & _)]; [auto|]. rewrite K in Hc. destruct (f_internal F (sol c)); discriminate.
  - intros ->. destruct own_best as [[_ H]|(c & [] & _)]; auto.
Qed.

(** The state before an entry of session h: sessions G are done, candidates Cc of session h have
    been seen. *)
Record inv (s : ms_state F) (G : list group) (Cc : list E) (h : nat) : Prop := {
  iv_good : forall g, In g G -> good g /\ g_s g < h /\ forall c, In c (g_C g) -> may c;
  iv_nodup : NoDup (map g_s G);
  iv_as0 : G = [] -> disti F (as_ F s) = dbl_lowest F;
  iv_as : G <> [] -> top G (as_ F s);
  iv_own1 : ioriginator F s = true -> C0 <> [] /\ ~ In (elsid F o) (map g_s G) /\ (Cc <> [] -> elsid F o <> h);
  iv_own2 : ioriginator F s = false -> forall c, In c C0 -> covers G c \/ In c Cc;
  iv_new : Cc = [] -> istart F s = false \/ oldelsid F s <> h;
  iv_cur : Cc <> [] -> istart F s = true /\ oldelsid F s = h /\ best Cc (cs F s);
  iv_curs : forall c, In c Cc -> may c /\ sess c = h }.

(** After the initialisation for the session. *)
Definition mid (s : ms_state F) (G : list group) (Cc : list E) (h : nat) : Prop :=
  (forall g, In g G -> good g /\ g_s g < h /\ forall c, In c (g_C g) -> may c) /\ NoDup (map g_s G) /\
  (G = [] -> disti F (as_ F s) = dbl_lowest F) /\ (G <> [] -> top G (as_ F s)) /\
  (ioriginator F s = true -> C0 <> [] /\ ~ In (elsid F o) (map g_s G) /\ elsid F o <> h) /\
  (ioriginator F s = false -> forall c, In c C0 -> covers G c \/ In c Cc) /\
  istart F s = true /\ oldelsid F s = h /\ best Cc (cs F s) /\ (forall c, In c Cc -> may c /\ sess c = h).

Lemma new_session s G Cc opt : inv s G Cc (elsid F opt) ->
  exists Cc', mid (ms_new_session F opt o s) G Cc' (elsid F opt) /\ forall c, In c Cc -> In c Cc'.
Proof.
  intros [g1 g2 a0 a1 o1 o2 n1 c1 c2]. unfold ms_new_session.
  destruct Cc as [|c Cc].
  - assert (Eb : negb (elsid F opt =? oldelsid F s) || negb (istart F s) = true).
    { destruct (n1 eq_refl) as [->|Hne]; [apply orb_true_r|]. destruct (Nat.eqb_spec (elsid F opt) (oldelsid F s)); [congruence|reflexivity]. }
    rewrite Eb. destruct (ioriginator F s) eqn:Ei; cbn [andb].
    + destruct (Nat.eqb_spec (elsid F o) (elsid F opt)) as [Ee|Ee].
      * exists C0. split; [|intros c []]. unfold mid. cbn [as_ ioriginator istart oldelsid cs].
        repeat (split; [solve [auto|discriminate]|]). rewrite <- Ee. exact own_may.
      * exists []. split; [|auto]. unfold mid. cbn [as_ ioriginator istart oldelsid cs].
        split; [auto|]. split; [auto|]. split; [auto|]. split; [auto|]. split.
        { intros _. destruct (o1 eq_refl) as (O1 & O2 & _). auto. }
        split; [discriminate|]. split; [auto|]. split; [auto|]. split; [left; auto|]. intros c [].
    + exists []. split; [|auto]. unfold mid. cbn [as_ ioriginator istart oldelsid cs].
      split; [auto|]. split; [auto|]. split; [auto|]. split; [auto|]. split; [discriminate|]. split; [auto|].
      split; [auto|]. split; [auto|]. split; [left; auto|]. intros c [].
  - destruct c1 as (C1 & C2 & C3); [discriminate|]. rewrite C1, C2, Nat.eqb_refl. cbn [negb orb]. exists (c :: Cc). split; [|auto].
    unfold mid. split; [auto|]. split; [auto|]. split; [auto|]. split; [auto|]. split.
    { intros Hi. destruct (o1 Hi) as (O1 & O2 & O3). split; [auto|]. split; [auto|]. apply O3. discriminate. }
    auto.
Qed.

(** What the loop leaves. *)
Definition outcome (l : list result) (G0 : list group) (Cc : list E) (o' : result) : Prop :=
  exists G, (forall g, In g G -> good g /\ forall c, In c (g_C g) -> may c) /\ NoDup (map g_s G) /\ top G o' /\
    (forall c, In c C0 \/ covers G0 c \/ In c Cc -> covers G c) /\
    forall opt c, In opt l -> must c -> part opt c -> covers G c.

Lemma one_outcome i : forall l s G Cc first, l <> [] -> (forall opt, In opt l -> entry_ok opt) ->
  StronglySorted (fun a b => elsid F a <= elsid F b) l ->
  (forall opt, hd_error l = Some opt -> inv (ms_new_point F first i o s) G Cc (elsid F opt)) ->
  outcome l G Cc (stored F o (snd (ms_one F first i o l s))).
Proof.
  induction l as [|opt l IH]; intros s G Cc first Hl He Hs Hi; [congruence|]. clear Hl.
  specialize (Hi opt eq_refl). destruct (new_session _ G Cc opt Hi) as (C1 & Hm & Hinc). clear Hi. cbn [ms_one].
  set (s1 := ms_new_session F opt o (ms_new_point F first i o s)) in *.
  destruct Hm as (m1 & m2 & m3 & m4 & m5 & m6 & m7 & m8 & m9 & m10).
  destruct (He opt (or_introl eq_refl)) as (C2 & N2 & B2 & My2 & P2).
  assert (Bp : best (C1 ++ C2) (ms_pick F (cs F s1) opt)) by (apply pick_best; auto).
  assert (Np : C1 ++ C2 <> []) by (destruct C1; [auto|discriminate]).
  set (g := Gr (elsid F opt) (C1 ++ C2) (ms_pick F (cs F s1) opt)).
  assert (Hg : good g).
  { split; [exact Bp|]. split; [exact Np|]. intros c Hc. cbn [g_C g g_s] in *. apply in_app_or in Hc. destruct Hc as [Hc|Hc]; [apply m10; auto|apply My2; auto]. }
  assert (Hgm : forall c, In c (g_C g) -> may c).
  { intros c Hc. cbn [g_C g] in Hc. apply in_app_or in Hc. destruct Hc as [Hc|Hc]; [apply m10; auto|apply My2; auto]. }
  assert (Ht : top (G ++ [g]) (ms_over F (as_ F s1) (g_w g))) by (apply top_over; auto).
  assert (Hnd : NoDup (map g_s (G ++ [g]))).
  { rewrite map_app. cbn [map g_s g]. apply NoDup_app_dis; [auto|repeat constructor; auto|].
    intros x Hx [<-|[]]. apply in_map_iff in Hx. destruct Hx as (g' & E' & Hg'). destruct (m1 g' Hg') as (_ & Hlt & _). lia. }
  assert (Hall : forall g', In g' (G ++ [g]) -> good g' /\ forall c, In c (g_C g') -> may c).
  { intros g' Hg'. apply in_app_or in Hg'. destruct Hg' as [Hg'|[<-|[]]]; [destruct (m1 g' Hg') as (? & _ & ?)|]; auto. }
  destruct l as [|nx l].
  - unfold ms_step. fold s1. rewrite !Nat.eqb_refl. cbn [negb orb]. cbn [snd as_ ioriginator oldindex oldelsid istart cs].
    change (ms_pick F (cs F s1) opt) with (g_w g). destruct (ioriginator F s1) eqn:Ei; cbn [andb].
    + destruct (m5 eq_refl) as (O1 & O2 & O3).
      set (g0 := Gr (elsid F o) C0 o).
      assert (G0 : forall g', In g' ((G ++ [g]) ++ [g0]) -> good g' /\ forall c, In c (g_C g') -> may c).
      { intros g' Hg'. apply in_app_or in Hg'. destruct Hg' as [Hg'|[<-|[]]]; [auto|]. split; [split; [exact own_best|split; [exact O1|]]|].
        - intros c Hc. apply own_may. exact Hc.
        - intros c Hc. apply own_may. exact Hc. }
      assert (ND : NoDup (map g_s ((G ++ [g]) ++ [g0]))).
      { rewrite map_app. apply NoDup_app_dis; [auto|repeat constructor; auto|]. intros x Hx [<-|[]]. cbn [g_s g0] in Hx.
        rewrite map_app in Hx. apply in_app_or in Hx. destruct Hx as [Hx|[Hx|[]]]; [auto|]. cbn [g_s g] in Hx. auto. }
      exists ((G ++ [g]) ++ [g0]). split; [auto|]. split; [auto|]. split; [|split].
      * destruct Ht as (gt & T1 & T2 & T3).
        destruct (dlt F (disti F (ms_over F (as_ F s1) (g_w g))) (disti F o)) eqn:Ed; cbn [negb]; cbv beta iota zeta; cbn [snd stored].
        -- apply dlt_spec in Ed. exists g0. split; [apply in_or_app; right; left; auto|]. split; [reflexivity|].
           intros g' Hg'. apply in_app_or in Hg'. destruct Hg' as [Hg'|[<-|[]]]; [specialize (T3 g' Hg'); lra|cbn [g_w g0]; lra].
        -- apply dlt_false in Ed. exists gt. split; [apply in_or_app; auto|]. split; [auto|].
           intros g' Hg'. apply in_app_or in Hg'. destruct Hg' as [Hg'|[<-|[]]]; [auto|exact Ed].
      * intros c [Hc|[(g' & Hg' & Hc)|Hc]].
        -- exists g0. split; [apply in_or_app; right; left; auto|exact Hc].
        -- exists g'. split; [apply in_or_app; left; apply in_or_app; auto|auto].
        -- exists g. split; [apply in_or_app; left; apply in_or_app; right; left; auto|]. cbn [g_C g]. apply in_or_app. left. auto.
      * intros opt' c [<-|[]] Hm Hp. exists g. split; [apply in_or_app; left; apply in_or_app; right; left; auto|]. cbn [g_C g]. apply in_or_app. right. auto.
    + cbn [negb]; cbv beta iota zeta; cbn [snd stored]. exists (G ++ [g]). split; [auto|]. split; [auto|]. split; [auto|]. split.
      * intros c [Hc|[(g' & Hg' & Hc)|Hc]].
        -- destruct (m6 eq_refl c Hc) as [(g' & Hg' & Hc')|Hc'].
           ++ exists g'. split; [apply in_or_app; auto|auto].
           ++ exists g. split; [apply in_or_app; right; left; auto|]. cbn [g_C g]. apply in_or_app. left. auto.
        -- exists g'. split; [apply in_or_app; auto|auto].
        -- exists g. split; [apply in_or_app; right; left; auto|]. cbn [g_C g]. apply in_or_app. left. auto.
      * intros opt' c [<-|[]] Hm Hp. exists g. split; [apply in_or_app; right; left; auto|]. cbn [g_C g]. apply in_or_app. right. auto.
  - inversion Hs as [|? ? Hs' Hf]; subst. rewrite Forall_forall in Hf. pose proof (Hf nx (or_introl eq_refl)) as Hnx.
    assert (Hold : oldindex F s1 = i).
    { unfold s1. assert (E1 : oldindex F (ms_new_point F first i o s) = i).
      { unfold ms_new_point. destruct (Nat.eqb_spec i (oldindex F s)) as [Ei|Ei]; cbn [negb orb]; [destruct first; auto|reflexivity]. }
      unfold ms_new_session. destruct (_ || _); [|auto]. destruct (_ && _); auto. }
    unfold ms_step. fold s1. rewrite !Nat.eqb_refl. cbn [negb orb]. rewrite orb_false_r.
    destruct (Nat.eqb_spec (elsid F opt) (elsid F nx)) as [Ee|Ee]; cbn [negb].
    + (* the same session goes on *)
      destruct (IH (MS F (oldindex F s1) (oldelsid F s1) (istart F s1) (ioriginator F s1) (as_ F s1) (ms_pick F (cs F s1) opt)) G (C1 ++ C2) false)
        as (G' & K1 & K2 & K3 & K4 & K5).
      * discriminate.
      * intros; apply He; right; auto.
      * auto.
      * intros opt' E'. injection E' as <-. unfold ms_new_point. cbn [oldindex]. rewrite Hold, Nat.eqb_refl. cbn [negb orb].
        rewrite <- Ee. split; cbn [as_ ioriginator istart oldelsid cs]; auto.
        -- intros Hi. destruct (m5 Hi) as (O1 & O2 & O3). auto.
        -- intros Hi c Hc. destruct (m6 Hi c Hc) as [H|H]; [auto|right; apply in_or_app; auto].
        -- intros c Hc. apply in_app_or in Hc. destruct Hc as [Hc|Hc]; [apply m10; auto|apply My2; auto].
      * exists G'. split; [auto|]. split; [auto|]. split; [exact K3|]. split.
        -- intros c [Hc|[Hc|Hc]]; apply K4; auto. right. right. apply in_or_app. auto.
        -- intros opt' c [<-|Ho'] Hm Hp; [apply K4; right; right; apply in_or_app; right; auto|eapply K5; eauto].
    + (* a new session follows *)
      destruct (IH (MS F (oldindex F s1) (oldelsid F s1) (istart F s1) (ioriginator F s1) (ms_over F (as_ F s1) (ms_pick F (cs F s1) opt)) (ms_pick F (cs F s1) opt)) (G ++ [g]) [] false)
        as (G' & K1 & K2 & K3 & K4 & K5).
      * discriminate.
      * intros; apply He; right; auto.
      * auto.
      * intros opt' E'. injection E' as <-. unfold ms_new_point. cbn [oldindex]. rewrite Hold, Nat.eqb_refl. cbn [negb orb].
        split; cbn [as_ ioriginator istart oldelsid cs]; auto.
        -- intros g' Hg'. apply in_app_or in Hg'. destruct Hg' as [Hg'|[<-|[]]].
           ++ destruct (m1 g' Hg') as (H1 & H2 & H3). split; [auto|]. split; [lia|auto].
           ++ split; [auto|]. split; [cbn [g_s g]; lia|auto].
        -- intros En. destruct G; discriminate.
        -- intros Hi. destruct (m5 Hi) as (O1 & O2 & O3). split; [auto|]. split; [|intros Ec; congruence].
           rewrite map_app. intros Hx. apply in_app_or in Hx. destruct Hx as [Hx|[Hx|[]]]; [auto|]. cbn [g_s g] in Hx. auto.
        -- intros Hi c Hc. left. destruct (m6 Hi c Hc) as [(g' & Hg' & Hc')|H].
           ++ exists g'. split; [apply in_or_app; auto|auto].
           ++ exists g. split; [apply in_or_app; right; left; auto|]. cbn [g_C g]. apply in_or_app. auto.
        -- intros _. right. rewrite m8. auto.
        -- intros Ec. congruence.
        -- intros c [].
      * exists G'. split; [auto|]. split; [auto|]. split; [exact K3|]. split.
        -- intros c [Hc|[(g' & Hg' & Hc)|Hc]]; apply K4; auto; right; left.
           ++ exists g'. split; [apply in_or_app; auto|auto].
           ++ exists g. split; [apply in_or_app; right; left; auto|]. cbn [g_C g]. apply in_or_app. auto.
        -- intros opt' c [<-|Ho'] Hm Hp; [|eapply K5; eauto]. apply K4. right. left. exists g.
           split; [apply in_or_app; right; left; auto|]. cbn [g_C g]. apply in_or_app. auto.
Qed.

(** What is stored for a point. *)
Theorem final_outcome i l o' : (forall opt, In opt l -> entry_ok opt) ->
  StronglySorted (fun a b => elsid F a <= elsid F b) l -> final F i o l o' ->
  (C0 = [] /\ l = [] /\ o' = o) \/ outcome l [] [] o'.
Proof.
  intros He Hs [[-> ->]|(Hl & s & ->)].
  - assert (Dec : C0 = [] \/ C0 <> []) by (clear; destruct C0; [left; auto|right; discriminate]). destruct Dec as [Ec|Ec]; [left; auto|]. right. exists [Gr (elsid F o) C0 o]. split.
    { intros g [<-|[]]. split; [split; [exact own_best|split; [exact Ec|]]|]; intros x Hx; apply own_may; exact Hx. }
    split; [repeat constructor; auto|]. split; [exists (Gr (elsid F o) C0 o); split; [left; auto|]; split; [reflexivity|]; intros g' [<-|[]]; cbn [g_w]; lra|].
    split; [|intros ? ? []]. intros x [Hx|[(g & [] & _)|[]]]. exists (Gr (elsid F o) C0 o). split; [left; auto|exact Hx].
  - right. apply one_outcome; auto. intros opt _. unfold ms_new_point. rewrite orb_true_r.
    split; cbn [as_ ioriginator istart oldelsid cs]; auto.
    + intros g [].
    + constructor.
    + intros H. congruence.
    + intros H. apply negb_true_iff, Nat.eqb_neq in H. split; [intros Ec; apply H; apply own_code; auto|]. split; [intros []|]. intros Ec. congruence.
    + intros H c Hc. apply negb_false_iff, Nat.eqb_eq in H. apply own_code in H. rewrite H in Hc. destruct Hc.
    + intros H. congruence.
    + intros c [].
Qed.
End Win.
