(** The maps and labels of the crystal-router setup. *)
From Verif Require Import Base BaseLemmas Sort SortSpec SortLemmas Transfer Kernels KernelSpec KernelProof ListLemmas GsTop GsSortProof GsTopProof1 GsTopProof3 GsTopProof4
  GsExec GsCr.
From Coq Require Import Sorting.Sorted.

(** ** crl_maps: groups of equal bi, in each the different si *)
Definition cgroup := (nat * (nat * list nat))%type.
Definition hd_tail (bi si : nat) (gs : list cgroup) : list nat * list cgroup :=
  match gs with
  | (b, (s, os)) :: gs' => if b =? bi then ((if s =? si then os else s :: os), gs') else ([], gs)
  | [] => ([], [])
  end.
Fixpoint crl_groups (ws : list crl_id) : list cgroup :=
  match ws with
  | [] => []
  | w :: rest => let (tl, gs) := hd_tail (ci_bi w) (ci_si w) (crl_groups rest) in (ci_bi w, (ci_si w, tl)) :: gs
  end.
Definition s_groups (gs : list cgroup) : groups := map (fun g => (fst (snd g), [fst g])) gs.
Definition g_groups (gs : list cgroup) : groups :=
  flat_map (fun g => match snd (snd g) with [] => [] | os => [(fst g, os)] end) gs.

Section Maps.
Variable usize lsize : nat.
Notation UMAX := (UINT_MAX usize).

Lemma maps_loop_some ws : forall bi si any,
  crl_maps_loop usize (Some (bi, si, any)) ws =
  let (tl, gs) := hd_tail bi si (crl_groups ws) in
  (encode UMAX (s_groups gs),
   (if any : bool then tl ++ [UMAX] else match tl with [] => [] | _ => bi :: tl ++ [UMAX] end) ++ encode UMAX (g_groups gs)).
Proof.
  induction ws as [|w ws IH]; intros bi si any.
  - cbn. destruct any; reflexivity.
  - cbn [crl_maps_loop crl_groups]. destruct (hd_tail (ci_bi w) (ci_si w) (crl_groups ws)) as [tl gs] eqn:E.
    cbn [hd_tail]. destruct (Nat.eqb_spec (ci_bi w) bi) as [Eb|Nb].
    + destruct (Nat.eqb_spec (ci_si w) si) as [Es|Ns].
      * rewrite IH. rewrite <- Eb, <- Es, E. reflexivity.
      * rewrite IH. rewrite <- Eb, E. destruct any; cbn [app]; reflexivity.
    + rewrite IH, E. unfold s_groups, g_groups, encode. cbn [map flat_map fst snd app]. f_equal.
      destruct any; destruct tl as [|s tl]; cbn [app flat_map fst snd]; rewrite <- ?app_assoc; cbn [app]; auto.
Qed.
Lemma maps_loop_ok ws : crl_maps_loop usize None ws = (encode UMAX (s_groups (crl_groups ws)), encode UMAX (g_groups (crl_groups ws))).
Proof.
  destruct ws as [|w ws]; [reflexivity|]. cbn [crl_maps_loop crl_groups]. rewrite maps_loop_some.
  destruct (hd_tail (ci_bi w) (ci_si w) (crl_groups ws)) as [tl gs]. unfold s_groups, g_groups, encode. cbn [map flat_map fst snd app].
  destruct tl as [|s tl]; cbn [app flat_map fst snd]; rewrite <- ?app_assoc; cbn [app]; auto.
Qed.
End Maps.

(** The lexicographic order of (bi, si). *)
Definition le_bs (v w : crl_id) : Prop := ci_bi v < ci_bi w \/ ci_bi v = ci_bi w /\ ci_si v <= ci_si w.
Lemma crl_groups_ok ws : StronglySorted le_bs ws ->
  StronglySorted lt (map fst (crl_groups ws)) /\
  (forall b s os, In (b, (s, os)) (crl_groups ws) -> StronglySorted lt (s :: os) /\
     forall s', In s' (s :: os) <-> exists w, In w ws /\ ci_bi w = b /\ ci_si w = s') /\
  (forall w, In w ws -> exists s os, In (ci_bi w, (s, os)) (crl_groups ws)).
Proof.
  induction 1 as [|w ws SS IH F].
  - cbn. split; [constructor|]. split; [intros ? ? ? []|intros ? []].
  - destruct IH as (I1 & I2 & I3). rewrite Forall_forall in F. cbn [crl_groups].
    destruct (crl_groups ws) as [|[b [s os]] gs] eqn:Eg.
    + cbn [hd_tail]. assert (ws = []) as ->.
      { destruct ws as [|v ws]; auto. destruct (I3 v (or_introl eq_refl)) as (s & os & []). }
      split; [repeat constructor|]. split.
      * intros b s os [E|[]]. injection E as <- <- <-. split; [repeat constructor|]. intros s'. cbn [In]. split.
        -- intros [<-|[]]. exists w. auto.
        -- intros (v & [<-|[]] & _ & <-). auto.
      * intros v [<-|[]]. exists (ci_si w), []. left; auto.
    + cbn [hd_tail].
      destruct (I2 b s os (or_introl eq_refl)) as [S1 M1].
      assert (Wh : le_bs w (CI 0 0 0 s b 0)).
      { destruct (proj1 (M1 s) (or_introl eq_refl)) as (v & Hv & Eb & Es). specialize (F v Hv). unfold le_bs in *. cbn. lia. }
      unfold le_bs in Wh. cbn in Wh.
      destruct (Nat.eqb_spec b (ci_bi w)) as [Eb|Nb].
      * assert (Hs : ci_si w <= s) by lia. cbn [map fst] in I1 |- *.
        assert (Sx : forall s', In s' ((if s =? ci_si w then os else s :: os)) <-> In s' (s :: os) /\ s' <> ci_si w).
        { inversion S1 as [|? ? S1' F1]; subst. rewrite Forall_forall in F1. intros s'. destruct (Nat.eqb_spec s (ci_si w)) as [E|N].
          - cbn [In]. split; [intros Hi; split; auto; specialize (F1 s' Hi); lia|intros [[<-|]]; auto; congruence].
          - cbn [In]. split; [|tauto]. intros Hi. split; auto. destruct Hi as [<-|Hi]; auto. specialize (F1 s' Hi). lia. }
        split; [inversion I1; subst; constructor; auto|]. split.
        -- intros b' s' os' [E|Hin].
           ++ injection E as <- <- <-. split.
              ** constructor; [destruct (s =? ci_si w); [inversion S1; auto|auto]|]. rewrite Forall_forall. intros s' Hs'. apply Sx in Hs' as [Hin Hne].
                 inversion S1 as [|? ? S1' F1]; subst. rewrite Forall_forall in F1. destruct Hin as [<-|Hin]; [lia|]. specialize (F1 s' Hin). lia.
              ** intros s'. cbn [In]. rewrite Sx. rewrite M1. split.
                 --- intros [<-|[(v & Hv & Ebv & Esv) Hne]]; [exists w; auto|]. exists v. split; [auto|]. split; auto. congruence.
                 --- intros (v & [<-|Hv] & Ebv & Esv); [auto|]. destruct (Nat.eq_dec s' (ci_si w)); [auto|]. right. split; auto. exists v. split; auto. split; [congruence|auto].
           ++ destruct (I2 b' s' os' (or_intror Hin)) as [S2 M2]. split; auto. intros s2. rewrite M2. split.
              ** intros (v & Hv & E). exists v. split; [right; auto|auto].
              ** intros (v & [<-|Hv] & Ebv & Esv); [|exists v; auto]. exfalso.
                 inversion I1 as [|? ? I1' F1]; subst. rewrite Forall_forall in F1.
                 specialize (F1 (ci_bi w)). assert (In (ci_bi w) (map fst gs)) by (apply in_map_iff; exists (ci_bi w, (s', os')); auto).
                 specialize (F1 H). lia.
        -- intros v [<-|Hv]; [do 2 eexists; left; reflexivity|]. destruct (I3 v Hv) as (s' & os' & [E|Hin]).
           ++ injection E as E _ _. exists (ci_si w), (if s =? ci_si w then os else s :: os). left. f_equal. lia.
           ++ exists s', os'. right; auto.
      * assert (Hb : ci_bi w < b) by lia.
        split; [constructor; auto; rewrite Forall_forall; intros b' Hb'; destruct Hb' as [<-|Hb']; [cbn; lia|];
                inversion I1 as [|? ? I1' F1]; subst; rewrite Forall_forall in F1; specialize (F1 b' Hb'); cbn in F1; cbn; lia|].
        assert (NB : forall v, In v ws -> ci_bi w < ci_bi v).
        { intros v Hv. destruct (I3 v Hv) as (s' & os' & [E|Hin]); [injection E as E _ _; lia|].
          inversion I1 as [|? ? I1' F1]; subst; rewrite Forall_forall in F1. specialize (F1 (ci_bi v)).
          assert (In (ci_bi v) (map fst gs)) by (apply in_map_iff; exists (ci_bi v, (s', os')); auto). specialize (F1 H). cbn in F1. lia. }
        split.
        -- intros b' s' os' [E|Hin].
           ++ injection E as <- <- <-. split; [repeat constructor|]. intros s'. cbn [In]. split; [intros [<-|[]]; exists w; auto|].
              intros (v & [<-|Hv] & Ebv & Esv); auto. specialize (NB v Hv). lia.
           ++ destruct (I2 b' s' os' Hin) as [S2 M2]. split; auto. intros s2. rewrite M2. split.
              ** intros (v & Hv & E). exists v. split; [right; auto|auto].
              ** intros (v & [<-|Hv] & Ebv & Esv); [|exists v; auto]. exfalso.
                 destruct (proj1 (M2 s') (or_introl eq_refl)) as (v & Hv & Eb & _). specialize (NB v Hv). lia.
        -- intros v [<-|Hv]; [do 2 eexists; left; reflexivity|]. destruct (I3 v Hv) as (s' & os' & Hin). exists s', os'. right; auto.
Qed.

(** crl_maps as used by the code. *)
Lemma crl_maps_ok usize lsize cw : (forall w, In w cw -> ci_bi w < ulim usize /\ ci_si w < ulim usize) ->
  exists gs cw', crl_maps usize lsize cw = Ok (encode (UINT_MAX usize) (s_groups gs), encode (UINT_MAX usize) (g_groups gs), cw') /\
    Permutation cw cw' /\ NoDup (map fst gs) /\
    (forall b s os, In (b, (s, os)) gs -> NoDup (s :: os) /\ forall s', In s' (s :: os) <-> exists w, In w cw /\ ci_bi w = b /\ ci_si w = s') /\
    (forall w, In w cw -> exists s os, In (ci_bi w, (s, os)) gs).
Proof.
  intros Hk. destruct (sort_by_2' usize lsize (KU ci_bi) (KU ci_si) cw) as (B & M & E & HM & [P SO _]);
    [intros w Hw; apply Hk; auto|intros w Hw; apply Hk; auto|].
  cbn [key_fun] in *.
  assert (SS : StronglySorted le_bs B).
  { assert (HB : forall w, In w B -> ci_si w < M) by (intros w Hw; apply HM; eapply Permutation_in; [symmetry; exact P|auto]).
    clear - SO HB. induction B as [|w B IH]; constructor.
    - apply IH; [|intros; apply HB; right; auto]. intros i j x y Hij Hx Hy. apply (SO (S i) (S j) x y); auto. lia.
    - rewrite Forall_forall. intros v Hv. apply In_nth_error in Hv as [j Hj]. specialize (SO 0 (S j) w v ltac:(lia) eq_refl Hj).
      unfold nlt in SO. apply Nat.ltb_ge in SO. pose proof (HB w (or_introl eq_refl)). assert (ci_si v < M) by (apply HB; right; eapply nth_error_In; eauto).
      unfold le_bs. cbn in SO. nia. }
  destruct (crl_groups_ok B SS) as (G1 & G2 & G3).
  exists (crl_groups B), B. split.
  - unfold crl_maps. rewrite E. cbn [bind]. rewrite maps_loop_ok. auto.
  - split; auto. split; [apply StronglySorted_lt_NoDup; auto|]. split.
    + intros b s os Hin. destruct (G2 b s os Hin) as [S1 M1]. split; [apply StronglySorted_lt_NoDup; auto|].
      intros s'. rewrite M1. split; intros (w & Hw & Hx); exists w; (split; [|auto]); eapply Permutation_in; [symmetry; exact P|auto|exact P|auto].
    + intros w Hw. apply G3. eapply Permutation_in; [exact P|auto].
Qed.
