(** make_topology_unique: the assignment of owners. *)
From Verif Require Import Base BaseLemmas SortSpec SortLemmas Transfer GsTop GsSpec ListLemmas GsSortProof GsTopProof1 GsTopProof2 GsTopProof4
  GsCrProof4 GsPwProof1 GsPwProof2 GsPwProof3 GsRunProof GsSetupProof GsUniqueProof1.
From Coq Require Import Permutation Sorting.Sorted.

Lemma advance_ok i mark pre r rest : (forall s, In s pre -> z_i s <> i) -> z_i r = i ->
  advance i mark (pre ++ r :: rest) = Ok (pre, (if mark then NZ (z_id r) (z_i r) true (z_primary r) else r) :: rest).
Proof.
  induction pre as [|s pre IH]; intros Hp Hr; cbn [app advance].
  - rewrite Hr, Nat.eqb_refl. auto.
  - destruct (Nat.eqb_spec (z_i s) i) as [E|N]; [exfalso; apply (Hp s); [left|]; auto|]. rewrite IH; auto. intros t Ht. apply Hp. right; auto.
Qed.

Lemma count_lt_eq me run : StronglySorted (fun a b => s_p a < s_p b) run ->
  count_lt me run = length (filter (fun s => (s_p s <? me) && negb (s_remote s)) run).
Proof.
  induction 1 as [|s run HS IH HF]; cbn [count_lt filter]; auto. destruct (Nat.ltb_spec (s_p s) me) as [L|L]; cbn [andb].
  - rewrite IH. destruct (s_remote s); auto.
  - rewrite (proj2 (length_zero_iff_nil _)); auto. rewrite Forall_forall in HF. clear IH HS. induction run as [|t run IH]; cbn [filter]; auto.
    pose proof (HF t (or_introl eq_refl)). destruct (Nat.ltb_spec (s_p t) me); [lia|]. apply IH. intros x Hx. apply HF. right; auto.
Qed.

Section Unique.
Variable usize lsize INT_MAX np : nat.
Variable ids : nat -> list Z.
Hypothesis fits : setup_fits usize lsize INT_MAX np ids.
Variable p : nat.
Hypothesis Hp : p < np.
Notation l := (ids p).
Notation holders := (holders np ids).
Notation owns := (owns np ids).
Notation parts x := (partners np ids x p).
Notation shares := (sharing np ids p).

Lemma in_holders x q : In q (holders x) <-> q < np /\ only_flagged (ids q) x = false.
Proof. clear Hp p. unfold GsSpec.holders. rewrite filter_In, in_seq, negb_true_iff. intuition lia. Qed.
Lemma unflagged_has q x : only_flagged (ids q) x = false -> has (ids q) x = true.
Proof.
  clear Hp p. unfold only_flagged. intros E. apply Nat.eqb_neq in E. destruct (unflagged_at (ids q) x) as [|i r] eqn:Eu; [cbn in E; lia|].
  apply has_iff. exists i. assert (Hi : In i (unflagged_at (ids q) x)) by (rewrite Eu; left; auto). apply in_unflagged_at in Hi. tauto.
Qed.
Lemma owns_unique x q r : owns x q = true -> owns x r = true -> q = r.
Proof. unfold GsSpec.owns. destruct (nth_error _ _); [|discriminate]. intros E F. apply Nat.eqb_eq in E, F. congruence. Qed.
Lemma owns_holder x q : owns x q = true -> q < np /\ only_flagged (ids q) x = false.
Proof.
  unfold GsSpec.owns. destruct (nth_error _ _) as [r|] eqn:E; [|discriminate]. intros F. apply Nat.eqb_eq in F. subst r. apply nth_error_In in E. apply in_holders; auto.
Qed.
Lemma owner_exists x q : q < np -> only_flagged (ids q) x = false -> exists r, owns x r = true.
Proof.
  clear Hp p. intros Hq F. assert (Hin : In q (holders x)) by (apply in_holders; auto). unfold GsSpec.owns.
  assert (NZ : length (holders x) <> 0) by (destruct (holders x); [destruct Hin|cbn; lia]).
  pose proof (Nat.mod_upper_bound x _ NZ) as B. destruct (nth_error (holders x) (x mod length (holders x))) as [r|] eqn:E.
  - exists r. apply Nat.eqb_refl.
  - apply nth_error_None in E. lia.
Qed.

Lemma in_parts x q : In q (parts x) <-> q < np /\ exchange ids x p q = true.
Proof. apply in_partners. Qed.
Lemma shares_iff x : shares x = true <-> exists q, q < np /\ exchange ids x p q = true.
Proof.
  unfold sharing. rewrite negb_true_iff, Nat.eqb_neq. split.
  - intros H. destruct (parts x) as [|q r] eqn:E; [cbn in H; lia|]. exists q. apply in_parts. rewrite E. left; auto.
  - intros (q & H). apply in_parts in H. destruct (parts x); [destruct H|cbn; lia].
Qed.
Lemma parts_nil x : shares x = false -> parts x = [].
Proof. unfold sharing. intros E. apply negb_false_iff, Nat.eqb_eq in E. apply length_zero_iff_nil; auto. Qed.

(** A label that is not exchanged is owned by its only holder. *)
Lemma alone x : has l x = true -> shares x = false -> owns x p = negb (only_flagged l x).
Proof.
  intros Hh Hs. destruct (only_flagged l x) eqn:F; cbn [negb].
  - destruct (owns x p) eqn:E; auto. apply owns_holder in E as [_ E]. congruence.
  - destruct (owner_exists x p Hp F) as [r Hr]. destruct (Nat.eq_dec p r) as [->|N]; auto. exfalso.
    apply owns_holder in Hr as [Hr Fr]. assert (E : shares x = true); [|congruence]. apply shares_iff. exists r. split; auto.
    apply exchange_iff. repeat split; auto; [apply unflagged_has; auto|]. rewrite F. auto.
Qed.

(** ** Runs *)
Definition row (x q : nat) : shared_id := SH x (prim l x) q (prim (ids q) x) 0 (only_flagged l x) (only_flagged (ids q) x).
Definition run (x : nat) : list shared_id := map (row x) (parts x).
Definition newrow (x q : nat) : shared_id := SH x (prim l x) q (prim (ids q) x) 0 (negb (owns x p)) (negb (owns x q)).
Definition newrun (x : nat) : list shared_id := map (newrow x) (filter (fun q => owns x p || owns x q) (parts x)).

Lemma parts_sorted x : StronglySorted lt (parts x).
Proof. apply StronglySorted_filter, StronglySorted_seq. Qed.
Lemma run_sorted x : StronglySorted (fun a b => s_p a < s_p b) (run x).
Proof. apply (proj2 (StronglySorted_map s_p lt _)). unfold run. rewrite map_map. cbn [s_p row]. rewrite map_id. apply parts_sorted. Qed.
Lemma filter_run (f : shared_id -> bool) x : filter f (run x) = map (row x) (filter (fun q => f (row x q)) (parts x)).
Proof. apply filter_map. Qed.

(** The unflagged partners are the other holders. *)
Lemma unflagged_parts x : has l x = true -> filter (fun q => negb (only_flagged (ids q) x)) (parts x) = filter (fun q => negb (q =? p)) (holders x).
Proof.
  intros Hh. unfold partners, GsSpec.holders. rewrite !filter_andb. apply filter_ext_in. intros q Hq. apply in_seq in Hq.
  destruct (only_flagged (ids q) x) eqn:F; cbn [negb]; [rewrite andb_false_r; auto|]. rewrite andb_true_r. cbn [andb].
  unfold exchange. rewrite Hh, (unflagged_has q x F), F, andb_false_r. cbn [andb negb]. rewrite andb_true_r, (Nat.eqb_sym p q). auto.
Qed.
Lemma filter_ne_app a b : NoDup (a ++ p :: b) -> filter (fun q => negb (q =? p)) (a ++ p :: b) = a ++ b.
Proof.
  intros ND. apply NoDup_remove_2 in ND.
  assert (F : forall c, ~ In p c -> filter (fun q => negb (q =? p)) c = c).
  { intros c Hc. apply filter_true_all. intros q Hq. apply negb_true_iff, Nat.eqb_neq. intros ->. auto. }
  rewrite filter_app. cbn [filter]. rewrite Nat.eqb_refl. cbn [negb]. rewrite !F; auto; intros Hin; apply ND, in_or_app; auto.
Qed.
Lemma holders_split x : only_flagged l x = false ->
  exists b, holders x = filter (fun q => negb (only_flagged (ids q) x)) (seq 0 p) ++ p :: b /\ forall q, In q b -> p < q.
Proof.
  intros F. exists (filter (fun q => negb (only_flagged (ids q) x)) (seq (p + 1) (np - p - 1))). split.
  - unfold GsSpec.holders. replace np with (p + (1 + (np - p - 1))) at 1 by lia. rewrite !seq_app, !filter_app. cbn [seq filter Nat.add]. rewrite F. cbn [negb app].
    auto.
  - intros q Hq. apply filter_In in Hq as [Hq _]. apply in_seq in Hq. lia.
Qed.
Lemma holders_NoDup x : NoDup (holders x).
Proof. apply NoDup_filter, seq_NoDup. Qed.

(** The owner picked. *)
Definition picks (x : nat) (r : res (option nat)) : Prop :=
  owns x p = true /\ r = Ok None \/
  owns x p = false /\ exists k q, r = Ok (Some k) /\ nth_error (filter (fun s => negb (s_remote s)) (run x)) k = Some (row x q) /\ owns x q = true /\ q < np /\ q <> p.

Lemma pick_ok x pb : has l x = true -> shares x = true -> s_id pb = x -> s_local pb = only_flagged l x -> picks x (pick_owner p pb (run x)).
Proof.
  intros Hh Hs Ei El. unfold pick_owner. rewrite count_lt_eq by apply run_sorted. unfold count_unflagged. rewrite !filter_run, !map_length, Ei, El.
  cbn [s_p s_remote row]. unfold picks. rewrite filter_run. cbn [s_remote row].
  assert (E1 : filter (fun q => (q <? p) && negb (only_flagged (ids q) x)) (parts x) = filter (fun q => q <? p) (filter (fun q => negb (q =? p)) (holders x))).
  { rewrite <- unflagged_parts by auto. rewrite filter_andb. apply filter_ext. intros q. apply andb_comm. }
  rewrite E1, !unflagged_parts by auto.
  destruct (only_flagged l x) eqn:F; cbn [negb].
  - assert (NP : ~ In p (holders x)) by (intros Hin; apply in_holders in Hin as [_ Hin]; congruence).
    rewrite (filter_true_all _ (holders x)).
    2:{ intros q Hq. apply negb_true_iff, Nat.eqb_neq. intros ->. auto. }
    assert (NZ : length (holders x) <> 0).
    { apply shares_iff in Hs as (q & Hq & He). apply exchange_iff in He as (_ & _ & _ & He). rewrite F in He. cbn [andb] in He.
      assert (In q (holders x)) by (apply in_holders; auto). destruct (holders x); [auto|cbn; lia]. }
    destruct (Nat.eqb_spec (length (holders x)) 0) as [|_]; [lia|]. right. pose proof (Nat.mod_upper_bound x _ NZ) as B.
    destruct (nth_error (holders x) (x mod length (holders x))) as [q|] eqn:E; [|apply nth_error_None in E; lia].
    pose proof (nth_error_In _ _ E) as Hin. apply in_holders in Hin as [Hq Fq].
    assert (N : q <> p) by congruence. split.
    + unfold GsSpec.owns. rewrite E. apply Nat.eqb_neq; auto.
    + exists (x mod length (holders x)), q. split; auto. split; [rewrite nth_error_map, E; auto|]. split; auto. unfold GsSpec.owns. rewrite E. apply Nat.eqb_refl.
  - destruct (holders_split x F) as (b & EH & Hb). set (a := filter (fun q => negb (only_flagged (ids q) x)) (seq 0 p)) in *.
    pose proof (holders_NoDup x) as ND. rewrite EH in ND.
    assert (Ha : forall q, In q a -> q < p) by (intros q Hq; apply filter_In in Hq as [Hq _]; apply in_seq in Hq; lia).
    rewrite EH. rewrite (filter_ne_app a b ND), filter_app, (filter_true_all _ a), (filter_nil_all _ b), app_nil_r.
    2:{ intros q Hq. apply Nat.ltb_ge. apply Hb in Hq. lia. }
    2:{ intros q Hq. apply Nat.ltb_lt. auto. }
    rewrite app_length. unfold GsSpec.owns. rewrite EH, app_length. cbn [length].
    replace (length a + S (length b)) with (length a + length b + 1) by lia. set (o := x mod (length a + length b + 1)).
    assert (B : o < length a + length b + 1) by (apply Nat.mod_upper_bound; lia).
    destruct (Nat.eqb_spec o (length a)) as [E|N].
    + left. split; auto. rewrite E, nth_error_app2, Nat.sub_diag by lia. cbn. apply Nat.eqb_refl.
    + right. assert (Q : exists q, nth_error (a ++ p :: b) o = Some q /\ nth_error (a ++ b) (if length a <? o then o - 1 else o) = Some q).
      { destruct (Nat.ltb_spec (length a) o) as [L|L].
        - destruct (nth_error (a ++ b) (o - 1)) as [q|] eqn:E; [|apply nth_error_None in E; rewrite app_length in E; lia]. exists q. split; auto.
          rewrite nth_error_app2 in E by lia. rewrite nth_error_app2 by lia. replace (o - length a) with (S (o - 1 - length a)) by lia. auto.
        - destruct (nth_error (a ++ b) o) as [q|] eqn:E; [|apply nth_error_None in E; rewrite app_length in E; lia]. exists q. split; auto.
          rewrite nth_error_app1 in E by lia. rewrite nth_error_app1 by lia. auto. }
      destruct Q as (q & Q1 & Q2). rewrite Q1.
      assert (Np : q <> p).
      { intros ->. apply nth_error_In in Q2. apply NoDup_remove_2 in ND. auto. }
      split; [apply Nat.eqb_neq; auto|]. exists (if length a <? o then o - 1 else o), q. split; auto. rewrite nth_error_map, Q2. split; auto.
      split; [apply Nat.eqb_refl|]. split; auto. apply nth_error_In in Q1. rewrite <- EH in Q1. apply in_holders in Q1. tauto.
Qed.

(** ** The rows of nz *)
Definition row2 (i : nat) : nonzero_id := NZ (label_at l i) i (negb (owns (label_at l i) p && (prim l (label_at l i) =? i))) (prim l (label_at l i)).
Definition grp2 (x : nat) : list nonzero_id := map row2 (all_at l x).

Lemma row12 i : i < length l -> i <> prim l (label_at l i) -> row1 l i = row2 i.
Proof.
  intros Hi N. unfold row1, flag1, row2. cbn [row0 z_i z_primary z_id]. destruct (Nat.eqb_spec i (prim l (label_at l i))); [congruence|].
  destruct (Nat.eqb_spec (prim l (label_at l i)) i); [congruence|]. rewrite andb_false_r. auto.
Qed.
Lemma row1_prim x : has l x = true -> row1 l (prim l x) = NZ x (prim l x) (only_flagged l x) (prim l x).
Proof.
  intros Hh. unfold row1, flag1, row0. rewrite (prim_label _ _ Hh). cbn [z_i z_primary]. rewrite Nat.eqb_refl, (prim_flag _ _ Hh). auto.
Qed.
Lemma row2_prim x : has l x = true -> row2 (prim l x) = NZ x (prim l x) (negb (owns x p)) (prim l x).
Proof. intros Hh. unfold row2. rewrite (prim_label _ _ Hh), Nat.eqb_refl, andb_true_r. auto. Qed.
Lemma all_at_split x : has l x = true -> exists a b, all_at l x = a ++ prim l x :: b /\
  forall i, In i a \/ In i b -> i < length l /\ label_at l i = x /\ i <> prim l x.
Proof.
  intros Hh. pose proof (prim_in _ _ Hh) as Hin. apply in_split in Hin as (a & b & E). exists a, b. split; auto.
  intros i Hi. assert (Ha : In i (all_at l x)) by (rewrite E; apply in_or_app; cbn; tauto). apply in_all_at in Ha as [A B]. split; auto. split; auto.
  intros ->. pose proof (indices_NoDup (length l) (fun i => label_at l i =? x)) as ND. fold (all_at l x) in ND. rewrite E in ND. apply NoDup_remove_2 in ND.
  apply ND, in_or_app; auto.
Qed.
Lemma row1_z_i i : z_i (row1 l i) = i.
Proof. unfold row1, flag1. destruct (_ =? _); auto. Qed.
Lemma map_row12 x a : (forall i, In i a -> i < length l /\ label_at l i = x /\ i <> prim l x) -> map (row1 l) a = map row2 a.
Proof. intros Ha. apply map_ext_in. intros i Hi. destruct (Ha i Hi) as (A & B & C). apply row12; auto. congruence. Qed.

Lemma grp_alone x : has l x = true -> shares x = false -> grp1 l x = grp2 x.
Proof.
  intros Hh Hs. destruct (all_at_split x Hh) as (a & b & E & Hab). unfold grp1, grp2. rewrite E, !map_app. cbn [map].
  rewrite (map_row12 x a), (map_row12 x b) by (intros; apply Hab; auto). rewrite row1_prim, row2_prim, (alone x Hh Hs), negb_involutive by auto. auto.
Qed.

(** ** The loop over the runs *)
Definition losers (ys : list nat) : list nat := map (prim l) (filter (fun x => shares x && negb (owns x p)) ys).

Lemma nth_filter_owner x q : owns x p = false -> owns x q = true -> q < np -> exchange ids x p q = true -> newrun x = [newrow x q].
Proof.
  intros Op Oq Hq He. unfold newrun. rewrite Op. cbn [orb].
  replace (filter (fun r => owns x r) (parts x)) with [q]; auto.
  apply sorted_same_elements; [repeat constructor|apply StronglySorted_filter, parts_sorted|].
  intros r. cbn [In]. rewrite filter_In, in_parts. split.
  - intros [<-|[]]. auto.
  - intros [_ Or]. left. apply (owns_unique x); auto.
Qed.

Lemma assign_all ys : NoDup ys -> (forall y, In y ys -> y <> 0 /\ has l y = true) -> forall passed R id out,
  (forall r, In r R -> ~ In (z_i r) (map (prim l) ys)) -> (forall a, id = Some a -> length a = length l) ->
  exists passed' pnz',
  foldM (assign_owner p) (map run (filter shares ys)) (passed, R ++ flat_map (grp1 l) ys, id, out) =
    Ok (passed', pnz', option_map (negs l (losers ys)) id, out ++ flat_map newrun (filter shares ys)) /\
  passed' ++ pnz' = passed ++ R ++ flat_map grp2 ys.
Proof.
  induction ys as [|x ys IH]; intros ND Hys passed R id out HR Hid.
  - cbn. exists passed, R. rewrite !app_nil_r. split; auto. destruct id; auto.
  - inversion ND as [|? ? NI ND']; subst. destruct (Hys x (or_introl eq_refl)) as [Hx Hh].
    assert (Hys' : forall y, In y ys -> y <> 0 /\ has l y = true) by (intros; apply Hys; right; auto).
    assert (HG : forall r, In r (grp1 l x) -> ~ In (z_i r) (map (prim l) ys)).
    { intros r Hr Hin. apply in_map_iff in Hr as (i & <- & Hi). rewrite row1_z_i in Hin. apply in_all_at in Hi as [Hi El].
      apply in_map_iff in Hin as (y & Ey & Hy). destruct (Hys' y Hy) as [_ Hhy]. apply NI. replace x with y; auto.
      rewrite <- (prim_label _ _ Hhy), Ey, El. auto. }
    assert (HR' : forall r, In r R -> ~ In (z_i r) (map (prim l) ys)) by (intros r Hr Hin; apply (HR r Hr); right; auto).
    cbn [filter flat_map]. destruct (shares x) eqn:Es.
    + destruct (all_at_split x Hh) as (a & b & E & Hab).
      pose proof Es as Es'. apply shares_iff in Es' as (q0 & Hq0 & He0).
      assert (RN : run x <> []).
      { unfold run. assert (Hin : In q0 (parts x)) by (apply in_parts; auto). destruct (parts x); [destruct Hin|discriminate]. }
      cbn [map foldM]. destruct (run x) as [|pb run'] eqn:Er; [congruence|].
      assert (Hpb : exists q, pb = row x q).
      { assert (Hin : In pb (run x)) by (rewrite Er; left; auto). unfold run in Hin. apply in_map_iff in Hin as (q & <- & _). eauto. }
      destruct Hpb as [qb ->]. set (pb := row x qb) in *.
      assert (PK : picks x (pick_owner p pb (run x))) by (apply pick_ok; auto). rewrite Er in PK.
      unfold assign_owner at 1. change (s_i pb) with (prim l x). change (s_id pb) with x.
      assert (AD : forall mark, advance (prim l x) mark (R ++ grp1 l x ++ flat_map (grp1 l) ys) = Ok (R ++ map (row1 l) a,
         (if mark then NZ x (prim l x) true (prim l x) else row1 l (prim l x)) :: map (row1 l) b ++ flat_map (grp1 l) ys)).
      { intros mark. unfold grp1 at 1. rewrite E, map_app. cbn [map]. rewrite <- app_assoc. cbn [app]. rewrite app_assoc.
        rewrite advance_ok; [|..].
        - rewrite row1_prim by auto. auto.
        - intros s Hs. apply in_app_or in Hs as [Hs|Hs]; [intros Ez; apply (HR s Hs); left; auto|].
          apply in_map_iff in Hs as (i & <- & Hi). rewrite row1_z_i. apply Hab; auto.
        - apply row1_z_i. }
      destruct PK as [[Op ->]|[Op (k & q & -> & Nk & Oq & Hq & Nq)]]; cbn [bind]; rewrite AD; cbn [bind].
      * destruct (IH ND' Hys' (passed ++ R ++ map (row1 l) a) (row1 l (prim l x) :: map (row1 l) b) id
          (out ++ map (fun x0 => SH (s_id x0) (s_i x0) (s_p x0) (s_ri x0) (s_bi x0) false true) (pb :: run'))) as (P' & Q' & E1 & E2).
        { intros r Hr. apply HG. unfold grp1. rewrite E, map_app. apply in_or_app. right. exact Hr. }
        { auto. }
        exists P', Q'. cbn [app] in E1. rewrite E1. split.
        -- unfold losers. cbn [filter]. rewrite Es, Op. cbn [andb negb]. f_equal. f_equal. rewrite <- app_assoc. f_equal. cbn [flat_map]. f_equal.
           rewrite <- Er. unfold run, newrun. rewrite map_map, Op. cbn [orb].
           rewrite (filter_true_all (fun _ => true)) by auto. apply map_ext_in. intros q Hq. apply in_parts in Hq as [Hq He]. cbn [row s_id s_i s_p s_ri s_bi]. unfold newrow.
           rewrite Op. cbn [negb]. f_equal. symmetry. apply negb_true_iff. destruct (owns x q) eqn:Oq; auto.
           apply (owns_unique x p q Op) in Oq. subst q. apply exchange_iff in He. tauto.
        -- rewrite E2. unfold grp2 at 2. rewrite E, map_app. cbn [map]. rewrite <- (map_row12 x a), <- (map_row12 x b) by (intros; apply Hab; auto).
           rewrite row2_prim, row1_prim, Op by auto. apply owns_holder in Op as [_ ->]. cbn [negb]. repeat (rewrite <- ?app_assoc; cbn [app]). auto.
      * assert (HW : match id with Some l0 => l1 <- wr l0 (prim l x) (- Z.of_nat x)%Z ;; Ok (Some l1) | None => Ok None end = Ok (option_map (fun c => neg l c (prim l x)) id)).
        { destruct id as [c|]; auto. rewrite wr_ok by (rewrite (Hid c) by auto; apply prim_lt; auto). unfold neg. cbn. rewrite (prim_label _ _ Hh). auto. }
        rewrite HW. cbn [bind]. rewrite <- Er, Nk.
        destruct (IH ND' Hys' (passed ++ R ++ map (row1 l) a) (NZ x (prim l x) true (prim l x) :: map (row1 l) b) (option_map (fun c => neg l c (prim l x)) id)
          (out ++ [newrow x q])) as (P' & Q' & E1 & E2).
        { intros r Hr. destruct Hr as [<-|Hr].
          - cbn [z_i]. rewrite <- (row1_z_i (prim l x)). apply HG. unfold grp1. apply in_map. apply prim_in; auto.
          - apply HG. unfold grp1. rewrite E, map_app. apply in_or_app. right. right. exact Hr. }
        { intros c Ec. destruct id as [c0|]; [|discriminate]. injection Ec as <-. unfold neg. rewrite upd_length. auto. }
        exists P', Q'. cbn [row s_id s_i s_p s_ri s_bi]. cbn [app] in E1.
        replace [SH x (prim l x) q (prim (ids q) x) 0 true false] with [newrow x q] by (unfold newrow; rewrite Op, Oq; auto). rewrite E1. split.
        -- unfold losers. cbn [filter]. rewrite Es, Op. cbn [andb negb map]. f_equal. f_equal; [f_equal; destruct id; auto|]. rewrite <- app_assoc. f_equal. cbn [flat_map]. change ([newrow x q] ++ flat_map newrun (filter shares ys) = newrun x ++ flat_map newrun (filter shares ys)). f_equal.
           symmetry. apply nth_filter_owner; auto. apply exchange_iff. apply owns_holder in Oq as [_ Fq]. repeat split; auto; [apply unflagged_has; auto|].
           rewrite Fq. apply andb_false_r.
        -- rewrite E2. unfold grp2 at 2. rewrite E, map_app. cbn [map]. rewrite <- (map_row12 x a), <- (map_row12 x b) by (intros; apply Hab; auto).
           rewrite row2_prim, Op by auto. cbn [negb]. repeat (rewrite <- ?app_assoc; cbn [app]). auto.
    + destruct (IH ND' Hys' passed (R ++ grp1 l x) id out) as (P' & Q' & E1 & E2); auto.
      { intros r Hr. apply in_app_or in Hr as [Hr|Hr]; auto. }
      exists P', Q'. rewrite <- app_assoc in E1. rewrite E1. unfold losers. cbn [filter]. rewrite Es. cbn [andb]. split; auto.
      rewrite E2, <- app_assoc, grp_alone by auto. auto.
Qed.
End Unique.
