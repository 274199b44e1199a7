(** crl_work_label. *)
From Verif Require Import Base BaseLemmas Sort SortSpec SortLemmas Transfer Kernels KernelSpec KernelProof ListLemmas CrystalProof GsTop GsSpec GsSortProof GsTopProof1 GsTopProof2 GsTopProof3 GsTopProof4
  GsExec GsCr GsCrProof1.
From Coq Require Import Sorting.Sorted.

(** Sorted by key, in terms of StronglySorted. *)
Lemma sorted_by_SS {A} (key : A -> nat) l : sorted_by (nlt key) l -> StronglySorted (fun a b => key a <= key b) l.
Proof.
  intros SO. induction l as [|w B IH]; constructor.
  - apply IH. intros i j x y Hij Hx Hy. apply (SO (S i) (S j) x y); auto. lia.
  - rewrite Forall_forall. intros v Hv. apply In_nth_error in Hv as [j Hj]. specialize (SO 0 (S j) w v ltac:(lia) eq_refl Hj).
    unfold nlt in SO. apply Nat.ltb_ge in SO. auto.
Qed.

(** ** Numbering of the ids of a sorted list *)
Lemma number_ok first ws : StronglySorted le (map ci_id ws) -> forall sid bi,
  (forall w, In w ws -> sid <= ci_id w) \/ ~ In sid (map ci_id ws) ->
  exists D, NoDup (sid :: D) /\ (forall x, In x D -> In x (map ci_id ws)) /\ (forall x, In x (map ci_id ws) -> In x (sid :: D)) /\
    crl_number first sid bi ws =
      (map (fun w => CI (ci_id w) (ci_p w) (ci_ri w) (ci_si w) (bi + index_of (ci_id w) (sid :: D))
              (if first : bool then (if ci_bi w =? 1 then ci_send w else 1) else 0)) ws, last D sid, bi + length D).
Proof.
  intros SS. induction ws as [|w ws IH]; intros sid bi Hs.
  - exists []. split; [repeat constructor; intros []|]. cbn. split; [tauto|]. split; [tauto|]. rewrite Nat.add_0_r. auto.
  - cbn [map] in SS. inversion SS as [|? ? SS' F]; subst. rewrite Forall_forall in F. specialize (IH SS').
    cbn [crl_number]. destruct (Nat.eqb_spec (ci_id w) sid) as [E|NE].
    + destruct (IH (ci_id w) bi) as (D & ND & H1 & H2 & EQ).
      { left. intros v Hv. apply F, in_map; auto. }
      rewrite EQ. exists D. rewrite <- E. split; auto. split; [intros x Hx; right; auto|]. split.
      { intros x [<-|Hx]; [left; auto|auto]. }
      f_equal. f_equal. cbn [map index_of]. rewrite Nat.eqb_refl, Nat.add_0_r. auto.
    + assert (Ns : ~ In sid (map ci_id ws) /\ sid <> ci_id w).
      { split; [|congruence]. destruct Hs as [Hs|Hs]; [|intros Hx; apply Hs; right; auto]. intros Hx.
        assert (sid <= ci_id w) by (apply Hs; left; auto). apply F in Hx. lia. }
      destruct Ns as [Ns Nw].
      destruct (IH (ci_id w) (S bi)) as (D & ND & H1 & H2 & EQ).
      { left. intros v Hv. apply F, in_map; auto. }
      rewrite EQ. exists (ci_id w :: D). split.
      { constructor; auto. intros [Hx|Hx]; [congruence|]. apply Ns. auto. }
      split; [intros x [<-|Hx]; [left; auto|right; auto]|]. split; [intros x [<-|Hx]; right; [left; auto|auto]|].
      f_equal; [f_equal|cbn [length]; lia].
      * cbn [map]. assert (X : forall y, y <> sid -> bi + index_of y (sid :: ci_id w :: D) = S bi + index_of y (ci_id w :: D)).
        { intros y Hy. cbn [index_of]. destruct (Nat.eqb_spec sid y); [congruence|]. destruct (ci_id w =? y); lia. }
        f_equal.
        -- rewrite X by auto. cbn [index_of]. rewrite Nat.eqb_refl, Nat.add_0_r. auto.
        -- apply map_ext_in. intros v Hv. rewrite X; auto. intros Ev. apply Ns. rewrite <- Ev. apply in_map; auto.
      * destruct D as [|d D]; [reflexivity|]. cbn [last]. clear. revert d. induction D as [|d' D IH]; intros d; cbn [last]; auto.
Qed.

Lemma last_any (D : list nat) : forall a i j, last (a :: D) i = last (a :: D) j.
Proof. induction D as [|d D IH]; intros a i j; [reflexivity|]. change (last (d :: D) i = last (d :: D) j). auto. Qed.
Lemma nth_last (D : list nat) : forall i, nth_error (i :: D) (length D) = Some (last D i).
Proof.
  induction D as [|d D IH]; intros i; [reflexivity|]. cbn [length]. change (nth_error (i :: d :: D) (S (length D))) with (nth_error (d :: D) (length D)).
  rewrite (IH d). f_equal. destruct D as [|a D]; [reflexivity|]. change (last (a :: D) d = last (a :: D) i). apply last_any.
Qed.
Lemma index_of_app_l x l1 l2 : In x l1 -> index_of x (l1 ++ l2) = index_of x l1.
Proof. induction l1 as [|y l IH]; intros Hx; [destruct Hx|]. cbn [app index_of]. destruct (Nat.eqb_spec y x); auto. destruct Hx; [congruence|]. rewrite IH; auto. Qed.
Lemma index_of_app_r x l1 l2 : ~ In x l1 -> index_of x (l1 ++ l2) = length l1 + index_of x l2.
Proof.
  induction l1 as [|y l IH]; intros Hx; auto. cbn [app index_of length]. destruct (Nat.eqb_spec y x) as [->|]; [exfalso; apply Hx; left; auto|].
  rewrite IH; [auto|]. intros H; apply Hx; right; auto.
Qed.
Lemma index_of_inj l x y : In x l -> In y l -> index_of x l = index_of y l -> x = y.
Proof. intros Hx Hy E. apply nth_index_of in Hx, Hy. rewrite E in Hx. congruence. Qed.

Section Label.
Variable usize lsize : nat.
Variable cutoff : nat.
Variable hi : bool.
(** The entry leaves this half. *)
Definition outgoing (w : crl_id) : bool := if hi then cutoff <=? ci_p w else ci_p w <? cutoff.
Definition has_out (cw : list crl_id) (x : nat) : bool := existsb (fun w => (ci_id w =? x) && outgoing w) cw.
(** The entry with its label and send flag. *)
Definition labelled (beta : nat -> nat) (w : crl_id) : crl_id :=
  CI (ci_id w) (ci_p w) (ci_ri w) (ci_si w) (beta (ci_id w)) (if outgoing w then 1 else 0).

Definition mark (ho : nat -> bool) (w : crl_id) : crl_id :=
  CI (ci_id w) (ci_p w) (ci_ri w) (ci_si w) (if negb (outgoing w) && ho (ci_id w) then 1 else 0) (if ho (ci_id w) then 0 else 1).

Lemma set_send_out w : ci_send (crl_set_send cutoff hi w) = (if outgoing w then 0 else 1).
Proof.
  unfold crl_set_send, outgoing. cbn [ci_send]. destruct hi.
  - destruct (Nat.ltb_spec (ci_p w) cutoff), (Nat.leb_spec cutoff (ci_p w)); auto; lia.
  - destruct (Nat.ltb_spec (ci_p w) cutoff), (Nat.leb_spec cutoff (ci_p w)); auto; lia.
Qed.

Definition le_is (v w : crl_id) : Prop := ci_id v < ci_id w \/ ci_id v = ci_id w /\ ci_send v <= ci_send w.
(** crl_mark on a list sorted by (id, send). *)
Lemma mark_ok (ho : nat -> bool) ws : StronglySorted le_is ws -> (forall w, In w ws -> ci_send w = if outgoing w then 0 else 1) ->
  forall start : option (nat * nat), (match start with
                 | Some (i, s) => (forall w, In w ws -> i <= ci_id w) /\ s = (if ho i then 0 else 1) /\
                      (forall x, x <> i -> In x (map ci_id ws) -> ho x = has_out ws x) /\
                      (ho i = false -> has_out ws i = false)
                 | None => forall x, In x (map ci_id ws) -> ho x = has_out ws x
                 end) ->
  crl_mark start ws = (map (mark ho) ws, length (filter (fun w => negb (outgoing w)) ws),
                       length (filter (fun w => negb (outgoing w) && ho (ci_id w)) ws)).
Proof.
  induction 1 as [|w ws SS IH F]; intros Hs start Hst; [reflexivity|].
  rewrite Forall_forall in F. cbn [crl_mark].
  set (st := match start with Some (i, s) => if ci_id w =? i then (i, s) else (ci_id w, ci_send w) | None => (ci_id w, ci_send w) end).
  assert (Hs' : forall w, In w ws -> ci_send w = if outgoing w then 0 else 1) by (intros; apply Hs; right; auto).
  pose proof (Hs w (or_introl eq_refl)) as Sw.
  assert (HO : forall x, has_out (w :: ws) x = ((ci_id w =? x) && outgoing w || has_out ws x)%bool) by reflexivity.
  assert (FRESH : (forall x, In x (map ci_id (w :: ws)) -> ho x = has_out (w :: ws) x) ->
     ho (ci_id w) = outgoing w /\ (forall x, x <> ci_id w -> In x (map ci_id ws) -> ho x = has_out ws x)).
  { intros Hh. split.
    - rewrite Hh by (left; auto). rewrite HO, Nat.eqb_refl. cbn [andb]. destruct (outgoing w) eqn:Eo; auto. cbn [orb].
      unfold has_out. destruct (existsb _ ws) eqn:Ex; auto. apply existsb_exists in Ex as (v & Hv & Ev). apply andb_true_iff in Ev as [Ei Ev].
      apply Nat.eqb_eq in Ei. specialize (F v Hv). unfold le_is in F. rewrite Sw, (Hs' v Hv), Ev in F. lia.
    - intros x Hx Hin. rewrite Hh by (right; auto). rewrite HO. destruct (Nat.eqb_spec (ci_id w) x); [congruence|]. auto. }
  assert (ST : fst st = ci_id w /\ snd st = (if ho (ci_id w) then 0 else 1) /\ (outgoing w = true -> ho (ci_id w) = true) /\
     (forall x, x <> ci_id w -> In x (map ci_id ws) -> ho x = has_out ws x) /\ (ho (ci_id w) = false -> has_out ws (ci_id w) = false)).
  { subst st. destruct start as [[i s]|].
    - destruct Hst as (A1 & A2 & A3 & A4). destruct (Nat.eqb_spec (ci_id w) i) as [E|N].
      + cbn. subst i s. split; auto. split; auto.
        split. { intros Eo. destruct (ho (ci_id w)) eqn:Eh; auto. specialize (A4 eq_refl). rewrite HO, Nat.eqb_refl, Eo in A4. discriminate. }
        split. { intros x Hx Hin. rewrite A3 by (auto; right; auto). rewrite HO. destruct (Nat.eqb_spec (ci_id w) x); [congruence|]. auto. }
        intros Eh. specialize (A4 Eh). rewrite HO in A4. apply orb_false_iff in A4. tauto.
      + assert (Hi : i < ci_id w) by (specialize (A1 w (or_introl eq_refl)); lia).
        destruct FRESH as [F1 F2].
        { intros x Hx. apply A3; auto. destruct Hx as [<-|Hx]; [lia|]. apply in_map_iff in Hx as (v & <- & Hv).
          specialize (F v Hv). unfold le_is in F. lia. }
        cbn. split; auto. split; [rewrite Sw, F1; destruct (outgoing w); auto|]. split; [congruence|]. split; auto.
        intros Eh. unfold has_out. destruct (existsb _ ws) eqn:Ex; auto. apply existsb_exists in Ex as (v & Hv & Ev). apply andb_true_iff in Ev as [Ei Ev].
        apply Nat.eqb_eq in Ei. specialize (F v Hv). unfold le_is in F. rewrite Sw, (Hs' v Hv), Ev, <- F1, Eh in F. lia.
    - destruct (FRESH Hst) as [F1 F2]. cbn. split; auto. split; [rewrite Sw, F1; destruct (outgoing w); auto|]. split; [congruence|]. split; auto.
        intros Eh. unfold has_out. destruct (existsb _ ws) eqn:Ex; auto. apply existsb_exists in Ex as (v & Hv & Ev). apply andb_true_iff in Ev as [Ei Ev].
        apply Nat.eqb_eq in Ei. specialize (F v Hv). unfold le_is in F. rewrite Sw, (Hs' v Hv), Ev, <- F1, Eh in F. lia. }
  destruct ST as (T1 & T2 & T3 & T4 & T5). destruct st as [i s]. cbn [fst snd] in T1, T2. subst i s.
  rewrite (IH Hs' (Some (ci_id w, if ho (ci_id w) then 0 else 1))).
  2:{ split; [intros v Hv; specialize (F v Hv); unfold le_is in F; lia|]. auto. }
  cbn [snd]. rewrite Sw. cbn [map filter]. unfold mark at 3 4.
  destruct (outgoing w) eqn:Eo; cbn [negb andb].
  - rewrite (T3 eq_refl). cbn [Nat.eqb Nat.add]. auto.
  - destruct (ho (ci_id w)) eqn:Eh; cbn [Nat.eqb Nat.add length]; auto.
Qed.

Lemma split_out (ho : nat -> bool) cw : length (filter outgoing cw) + length (filter (fun w => negb (outgoing w)) cw) = length cw.
Proof. induction cw as [|w cw IH]; cbn; auto. destruct (outgoing w); cbn; lia. Qed.
Lemma count_ho (ho : nat -> bool) cw : (forall w, In w cw -> outgoing w = true -> ho (ci_id w) = true) ->
  length (filter outgoing cw) + length (filter (fun w => negb (outgoing w) && ho (ci_id w)) cw) = length (filter (fun w => ho (ci_id w)) cw).
Proof.
  induction cw as [|w cw IH]; intros Hh; cbn; auto. specialize (IH (fun v Hv => Hh v (or_intror Hv))). pose proof (Hh w (or_introl eq_refl)) as Hw.
  destruct (outgoing w); cbn [negb andb].
  - rewrite Hw by auto. cbn. lia.
  - destruct (ho (ci_id w)); cbn; lia.
Qed.

(** What a labelling achieves. *)
Record label_ok (cw : list crl_id) (bound : nat) (beta : nat -> nat) (gs : list cgroup) (size_s size_sk : nat) (cw' : list crl_id) : Prop := {
  lo_items : Permutation cw' (map (labelled beta) cw);
  lo_sizes : size_s <= size_sk <= bound;
  lo_lt : forall w, In w cw -> beta (ci_id w) < size_sk;
  lo_out : forall w, In w cw -> outgoing w = true -> beta (ci_id w) < size_s;
  lo_inj : forall v w, In v cw -> In w cw -> beta (ci_id v) = beta (ci_id w) -> ci_id v = ci_id w;
  lo_heads : NoDup (map fst gs);
  lo_group : forall b s os, In (b, (s, os)) gs -> NoDup (s :: os) /\ forall s', In s' (s :: os) <-> exists w, In w cw /\ beta (ci_id w) = b /\ ci_si w = s';
  lo_all : forall w, In w cw -> exists s os, In (beta (ci_id w), (s, os)) gs }.

Lemma labelled_set_send beta w : labelled beta (crl_set_send cutoff hi w) = labelled beta w.
Proof. reflexivity. Qed.

Lemma filter_negb_perm {A} (f : A -> bool) l : Permutation l (filter f l ++ filter (fun x => negb (f x)) l).
Proof. induction l as [|x l IH]; cbn; auto. destruct (f x); cbn; [auto|]. etransitivity; [apply perm_skip; exact IH|]. apply Permutation_middle. Qed.

Lemma crl_work_label_ok cw LB : 1 <= usize ->
  (forall w, In w cw -> ci_id w < ulim lsize /\ ci_si w < ulim usize) ->
  incl (map ci_id cw) LB -> length LB <= ulim usize ->
  exists beta gs size_s size_sk cw',
    crl_work_label usize lsize cw cutoff hi =
      Ok (encode (UINT_MAX usize) (s_groups gs), encode (UINT_MAX usize) (g_groups gs), size_s, size_sk, cw', length (filter outgoing cw)) /\
    label_ok cw (length LB) beta gs size_s size_sk cw'.
Proof.
  intros us Hk HL HB. pose proof (ulim_256 usize us) as U256.
  set (cw0 := map (crl_set_send cutoff hi) cw).
  assert (S01 : forall w, In w cw0 -> ci_send w = if outgoing w then 0 else 1).
  { intros w Hw. unfold cw0 in Hw. apply in_map_iff in Hw as (v & <- & Hv). exact (set_send_out v). }
  destruct (sort_by_2' usize lsize (KL ci_id) (KU ci_send) cw0) as (B & M & E & HM & [P SO _]).
  { intros w Hw. unfold cw0 in Hw. apply in_map_iff in Hw as (v & <- & Hv). apply Hk in Hv. cbn. tauto. }
  { intros w Hw. rewrite (S01 w Hw). destruct (outgoing w); lia. }
  cbn [key_fun] in *.
  assert (InB : forall w, In w B -> In w cw0) by (intros; eapply Permutation_in; [symmetry; exact P|auto]).
  assert (SB : StronglySorted le_is B).
  { apply sorted_by_SS in SO. assert (HB' : forall w, In w B -> ci_send w < M) by auto. clear - SO HB'.
    induction SO as [|w B SO IH F]; constructor; [apply IH; intros; apply HB'; right; auto|]. rewrite Forall_forall in *. intros v Hv.
    specialize (F v Hv). pose proof (HB' w (or_introl eq_refl)). pose proof (HB' v (or_intror Hv)). unfold le_is. nia. }
  set (ho := has_out cw).
  assert (HOB : forall x, has_out B x = ho x).
  { intros x. unfold ho, has_out. apply eq_true_iff_eq. rewrite !existsb_exists. split; intros (w & Hw & Ew).
    - apply InB in Hw. unfold cw0 in Hw. apply in_map_iff in Hw as (v & <- & Hv). exists v. split; auto.
    - exists (crl_set_send cutoff hi w). split; auto. eapply Permutation_in; [exact P|]. apply in_map; auto. }
  pose proof (mark_ok ho B SB (fun w Hw => S01 w (InB w Hw)) None ltac:(intros x _; symmetry; apply HOB)) as MK.
  set (n_s := length (filter outgoing cw)).
  assert (L0 : length B = length cw) by (rewrite <- (Permutation_length P); apply map_length).
  assert (NF : forall f, (forall w, f (crl_set_send cutoff hi w) = f w) -> length (filter f B) = length (filter f cw)).
  { intros f Hf. rewrite <- (Permutation_length (CrystalProof.Permutation_filter f _ _ P)). unfold cw0. rewrite filter_map, map_length. f_equal.
    apply filter_ext. auto. }
  assert (ES : length B - length (filter (fun w => negb (outgoing w)) B) = n_s).
  { rewrite L0, NF by reflexivity. pose proof (split_out ho cw). unfold n_s. lia. }
  assert (HOW : forall w, In w B -> outgoing w = true -> ho (ci_id w) = true).
  { intros w Hw Ho. rewrite <- HOB. unfold has_out. apply existsb_exists. exists w. rewrite Nat.eqb_refl. auto. }
  assert (EK : n_s + length (filter (fun w => negb (outgoing w) && ho (ci_id w)) B) = length (filter (fun w => ho (ci_id w)) B)).
  { pose proof (count_ho ho B HOW) as C. rewrite <- C. f_equal. unfold n_s. symmetry. apply NF. reflexivity. }
  (* the sort by send *)
  destruct (sort_by_1 usize lsize (KU ci_send) (map (mark ho) B)) as (B1 & E1 & SS1).
  { intros w Hw. apply in_map_iff in Hw as (v & <- & Hv). cbn. destruct (ho (ci_id v)); lia. }
  cbn [key_fun] in SS1. apply (stable_sort_groups ci_send _ _ [0; 1]) in SS1.
  2:{ repeat constructor. }
  2:{ intros w Hw. apply in_map_iff in Hw as (v & <- & Hv). cbn. destruct (ho (ci_id v)); auto. }
  cbn [flat_map] in SS1. rewrite app_nil_r, !filter_map in SS1.
  rewrite (filter_ext _ (fun w => ho (ci_id w))) in SS1 by (intros v; cbn; destruct (ho (ci_id v)); auto).
  rewrite (filter_ext (fun x => ci_send (mark ho x) =? 1) (fun w => negb (ho (ci_id w)))) in SS1 by (intros v; cbn; destruct (ho (ci_id v)); auto).
  set (F1 := filter (fun w => ho (ci_id w)) B) in *. set (F2 := filter (fun w => negb (ho (ci_id w))) B) in *.
  assert (SI : StronglySorted le (map ci_id B)).
  { apply (proj1 (StronglySorted_map ci_id le B)). clear - SB. induction SB as [|w B SB IH F]; constructor; auto.
    rewrite Forall_forall in *. intros v Hv. specialize (F v Hv). unfold le_is in F. lia. }
  assert (SI1 : StronglySorted le (map ci_id (map (mark ho) F1))).
  { rewrite map_map. cbn. apply (proj1 (StronglySorted_map ci_id le F1)). apply StronglySorted_filter, StronglySorted_map, SI. }
  assert (SI2 : StronglySorted le (map ci_id (map (mark ho) F2))).
  { rewrite map_map. cbn. apply (proj1 (StronglySorted_map ci_id le F2)). apply StronglySorted_filter, StronglySorted_map, SI. }
  assert (IDM : forall l, map ci_id (map (mark ho) l) = map ci_id l) by (intros; rewrite map_map; reflexivity).
  rewrite IDM in SI1, SI2.
  set (id0 := match B1 with w :: _ => ci_id w | [] => 0 end).
  destruct (number_ok true (map (mark ho) F1)) with (sid := id0) (bi := 0) as (D1 & ND1 & D1a & D1b & N1); [rewrite IDM; auto| |].
  { left. subst id0. rewrite SS1. destruct F1 as [|w F1']; [intros ? []|]. cbn [map app]. inversion SI1 as [|? ? _ FF]; subst. rewrite Forall_forall in FF.
    cbn. intros v [<-|Hv]; [cbn; lia|]. apply in_map_iff in Hv as (v' & <- & Hv'). cbn. apply FF, in_map; auto. }
  rewrite IDM in D1a, D1b.
  set (sid := last D1 id0) in *.
  destruct (number_ok false (map (mark ho) F2)) with (sid := sid) (bi := length D1) as (D2 & ND2 & D2a & D2b & N2); [rewrite IDM; auto| |].
  { rewrite IDM. subst sid. destruct F1 as [|w F1'] eqn:EF1.
    - left. assert (D1 = []) as -> by (destruct D1 as [|d D1']; auto; destruct (D1a d (or_introl eq_refl))). cbn [last].
      subst id0. rewrite SS1. cbn [map app]. destruct F2 as [|w F2']; [intros ? []|]. cbn [map]. inversion SI2 as [|? ? _ FF]; subst. rewrite Forall_forall in FF.
      cbn. intros v [<-|Hv]; [cbn; lia|]. apply in_map_iff in Hv as (v' & <- & Hv'). cbn. apply FF, in_map; auto.
    - right. rewrite <- EF1 in *. intros Hin.
      assert (X : In (last D1 id0) (map ci_id F1)).
      { assert (Y : D1 = [] \/ In (last D1 id0) D1).
        { destruct D1 as [|d D1'] eqn:ED; auto. right. rewrite <- ED in *. clear - ED. assert (D1 <> []) by congruence. clear ED. rewrite (app_removelast_last id0 H) at 2.
          apply in_or_app. right. left. auto. }
        destruct Y as [->|Y]; [|auto]. cbn [last]. subst id0. rewrite SS1, EF1. cbn. auto. }
      apply in_map_iff in X as (a & Ea & Ha), Hin as (b & Eb & Hb). apply filter_In in Ha as [_ Ha], Hb as [_ Hb]. rewrite Ea in Ha. rewrite Eb in Hb.
      rewrite Ha in Hb. discriminate. }
  rewrite IDM in D2a, D2b.
  set (FULL := id0 :: D1 ++ D2). set (beta := fun x => index_of x FULL).
  assert (Sid : In sid (id0 :: D1)).
  { subst sid. destruct D1 as [|d D1'] eqn:ED; [left; auto|]. right. rewrite <- ED. assert (X : D1 <> []) by congruence. rewrite (app_removelast_last id0 X) at 2.
    apply in_or_app. right. left. auto. }
  assert (Disj : forall x, In x D2 -> ~ In x (id0 :: D1)).
  { intros x Hx2 Hx1. pose proof (D2a x Hx2) as Hb. apply in_map_iff in Hb as (b & Eb & Hb). apply filter_In in Hb as [_ Hb]. rewrite Eb in Hb.
    assert (NE : x <> sid) by (intros ->; inversion ND2; auto).
    assert (X : In x (map ci_id F1)).
    { destruct F1 as [|w F1'] eqn:EF1.
      - exfalso. assert (ED : D1 = []) by (destruct D1 as [|d D1']; auto; destruct (D1a d (or_introl eq_refl))). subst D1. subst sid. cbn [last] in NE.
        destruct Hx1 as [<-|[]]. congruence.
      - rewrite <- EF1 in *. destruct Hx1 as [<-|Hx1]; [|auto]. unfold id0. rewrite SS1, EF1. cbn. auto. }
    apply in_map_iff in X as (a & Ea & Ha). apply filter_In in Ha as [_ Ha]. rewrite Ea in Ha. rewrite Ha in Hb. discriminate. }
  assert (ND : NoDup FULL).
  { unfold FULL. change (id0 :: D1 ++ D2) with ((id0 :: D1) ++ D2). apply NoDup_app_intro; auto; [inversion ND2; auto|]. intros x H1 H2. exact (Disj x H2 H1). }
  assert (B1eq : forall x, In x (map ci_id F1) -> 0 + index_of x (id0 :: D1) = beta x).
  { intros x Hx. unfold beta, FULL. change (id0 :: D1 ++ D2) with ((id0 :: D1) ++ D2). rewrite index_of_app_l; auto. }
  assert (B2eq : forall x, In x (map ci_id F2) -> length D1 + index_of x (sid :: D2) = beta x).
  { intros x Hx. specialize (D2b x Hx). unfold beta, FULL. change (id0 :: D1 ++ D2) with ((id0 :: D1) ++ D2). destruct D2b as [<-|Hd].
    - cbn [index_of]. rewrite Nat.eqb_refl, index_of_app_l by auto. subst sid.
      assert (XX : nth_error (id0 :: D1) (length D1) = Some (last D1 id0)).
      { apply nth_last. }
      rewrite (index_of_nth _ ND1 _ _ XX). lia.
    - rewrite index_of_app_r by (apply Disj; auto). cbn [index_of length]. destruct (Nat.eqb_spec sid x) as [Ex|Nx]; [subst x; inversion ND2; contradiction|]. lia. }
  assert (OUT1 : map (fun w => CI (ci_id w) (ci_p w) (ci_ri w) (ci_si w) (0 + index_of (ci_id w) (id0 :: D1))
        (if true then if ci_bi w =? 1 then ci_send w else 1 else 0)) (map (mark ho) F1) = map (labelled beta) F1).
  { rewrite map_map. apply map_ext_in. intros w Hw. unfold mark, labelled. cbn [ci_id ci_p ci_ri ci_si ci_bi ci_send].
    rewrite B1eq by (apply in_map; auto). f_equal. apply filter_In in Hw as [_ Hw]. rewrite Hw. destruct (outgoing w); auto. }
  assert (OUT2 : map (fun w => CI (ci_id w) (ci_p w) (ci_ri w) (ci_si w) (length D1 + index_of (ci_id w) (sid :: D2)) 0) (map (mark ho) F2) = map (labelled beta) F2).
  { rewrite map_map. apply map_ext_in. intros w Hw. unfold mark, labelled. cbn [ci_id ci_p ci_ri ci_si ci_bi ci_send].
    rewrite B2eq by (apply in_map; auto). f_equal. apply filter_In in Hw as [Hw Hn]. destruct (outgoing w) eqn:Eo; auto. rewrite HOW in Hn; auto. discriminate. }
  rewrite OUT1 in N1. rewrite OUT2 in N2.
  assert (PP : Permutation (map (labelled beta) F1 ++ map (labelled beta) F2) (map (labelled beta) cw)).
  { rewrite <- map_app. etransitivity; [symmetry; exact (Permutation_map (labelled beta) (filter_negb_perm (fun w => ho (ci_id w)) B))|].
    rewrite <- (Permutation_map _ P). unfold cw0. rewrite map_map. reflexivity. }
  assert (InF : forall x, In x (map ci_id cw) -> In x FULL).
  { intros x Hx. assert (X : In x (map ci_id B)).
    { rewrite <- (Permutation_map _ P). unfold cw0. rewrite map_map. exact Hx. }
    apply in_map_iff in X as (w & <- & Hw). unfold FULL. change (id0 :: D1 ++ D2) with ((id0 :: D1) ++ D2). apply in_or_app.
    destruct (ho (ci_id w)) eqn:Eh.
    - left. apply D1b. apply in_map, filter_In. auto.
    - assert (X : In (ci_id w) (sid :: D2)) by (apply D2b; apply in_map, filter_In; rewrite Eh; auto). destruct X as [<-|X]; auto. }
  assert (NEin : cw <> [] -> incl FULL (map ci_id cw)).
  { intros NE x Hx. assert (X : In x (map ci_id B)).
    { unfold FULL in Hx. destruct Hx as [<-|Hx].
      - subst id0. assert (PB : Permutation B1 (map (mark ho) B)).
        { rewrite SS1, <- map_app. apply Permutation_map. symmetry. exact (filter_negb_perm (fun w => ho (ci_id w)) B). }
        destruct B1 as [|w B1'].
        + exfalso. apply NE. apply length_zero_iff_nil. rewrite <- L0, <- (map_length (mark ho) B), <- (Permutation_length PB). auto.
        + rewrite <- IDM. apply in_map. eapply Permutation_in; [exact PB|]. left; auto.
      - apply in_app_or in Hx as [Hx|Hx]; [apply D1a in Hx|apply D2a in Hx]; apply in_map_iff in Hx as (w & <- & Hw); apply filter_In in Hw as [Hw _]; apply in_map; auto. }
    rewrite <- (Permutation_map _ P) in X. unfold cw0 in X. rewrite map_map in X. exact X. }
  assert (LF : cw <> [] -> length FULL <= length LB).
  { intros NE. apply NoDup_incl_length; auto. intros x Hx. apply HL, NEin; auto. }
  assert (InCW : forall w, In w cw -> cw <> []) by (intros w Hw E0; subst; destruct Hw).
  assert (Blt : forall w, In w cw -> beta (ci_id w) < length FULL) by (intros w Hw; apply index_of_lt, InF, in_map; auto).
  destruct (crl_maps_ok usize lsize (map (labelled beta) F1 ++ map (labelled beta) F2)) as (gs & cw' & EM & PM & G1 & G2 & G3).
  { intros w Hw. apply (Permutation_in _ PP) in Hw. apply in_map_iff in Hw as (v & <- & Hv). split; [|exact (proj2 (Hk v Hv))].
    specialize (LF (InCW v Hv)). apply (Nat.lt_le_trans _ _ _ (Blt v Hv)). lia. }
  exists beta, gs, (if n_s + length (filter (fun w => negb (outgoing w) && ho (ci_id w)) B) =? 0 then 0 else length D1 + 1),
    (if length cw =? 0 then 0 else length D1 + length D2 + 1), cw'.
  split.
  - unfold crl_work_label. fold cw0. rewrite E. cbn [bind]. rewrite MK. rewrite map_length.
    rewrite ES. rewrite E1. cbn [bind]. fold id0. rewrite EK.
    rewrite SS1 at 1. rewrite <- (map_length (mark ho) F1), firstn_app, Nat.sub_diag, firstn_all. cbn [firstn]. rewrite app_nil_r.
    rewrite N1. rewrite SS1 at 1. rewrite skipn_app, Nat.sub_diag, skipn_all. cbn [skipn app Nat.add]. fold sid. rewrite N2.
    rewrite EM. cbn [bind]. rewrite map_length.
    assert (LB1 : length B1 = length cw).
    { rewrite SS1, app_length, !map_length, <- L0. rewrite <- app_length. symmetry. exact (Permutation_length (filter_negb_perm (fun w => ho (ci_id w)) B)). }
    rewrite LB1. reflexivity.
  - assert (LFe : length FULL = length D1 + length D2 + 1) by (unfold FULL; cbn [length]; rewrite app_length; lia).
    constructor.
    + rewrite <- PP. symmetry. auto.
    + rewrite EK. destruct cw as [|w0 cwt] eqn:Ecw.
      * subst F1. assert (B = []) as -> by (apply length_zero_iff_nil; auto). cbn. lia.
      * cbn [length Nat.eqb]. rewrite <- LFe. split; [|apply LF; congruence]. destruct (length F1 =? 0); lia.
    + intros w Hw. pose proof (Blt w Hw). destruct cw; [destruct Hw|]. cbn [length Nat.eqb]. lia.
    + intros w Hw Ho. assert (X : In (ci_id w) (map ci_id F1)).
      { change (ci_id w) with (ci_id (crl_set_send cutoff hi w)). apply in_map, filter_In. split; [eapply Permutation_in; [exact P|]; apply in_map; auto|].
        cbn. unfold ho, has_out. apply existsb_exists. exists w. rewrite Nat.eqb_refl. auto. }
      rewrite <- (B1eq _ X). pose proof (index_of_lt _ _ (D1b _ X)) as LT. cbn [length] in LT. rewrite EK.
      destruct (Nat.eqb_spec (length F1) 0) as [Z|NZ]; [|lia]. apply length_zero_iff_nil in Z. rewrite Z in X. destruct X.
    + intros v w Hv Hw Eb. apply (index_of_inj FULL); auto; apply InF, in_map; auto.
    + auto.
    + intros b s os Hin. destruct (G2 b s os Hin) as [N0 M0]. split; auto. intros s'. rewrite M0. split.
      * intros (w & Hw & Hb & Hs). apply (Permutation_in _ PP) in Hw. apply in_map_iff in Hw as (v & <- & Hv). exists v. auto.
      * intros (w & Hw & Hb & Hs). exists (labelled beta w). split; auto. eapply Permutation_in; [symmetry; exact PP|]. apply in_map; auto.
    + intros w Hw. apply (G3 (labelled beta w)). eapply Permutation_in; [symmetry; exact PP|]. apply in_map; auto.
Qed.
End Label.
