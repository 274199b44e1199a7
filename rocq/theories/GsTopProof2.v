(** The lists built by shared_ids on a work process. *)
From Verif Require Import Base BaseLemmas SortSpec SortLemmas Transfer GsTop GsSpec ListLemmas GsSortProof GsTopProof1.
From Coq Require Import Sorting.Sorted.

Lemma NoDup_flat_map {A B} (f : A -> list B) l : NoDup l -> (forall a, In a l -> NoDup (f a)) ->
  (forall a b x, In a l -> In b l -> In x (f a) -> In x (f b) -> a = b) -> NoDup (flat_map f l).
Proof.
  intros ND. induction ND as [|a l Ha ND IH]; intros H1 H2; simpl; [constructor|].
  apply NoDup_app_intro || idtac.
  assert (G : forall m1 m2 : list B, NoDup m1 -> NoDup m2 -> (forall x, In x m1 -> ~ In x m2) -> NoDup (m1 ++ m2)).
  { clear. induction m1 as [|x m1 IH]; intros m2 N1 N2 D; simpl; auto. apply NoDup_cons_iff in N1. destruct N1 as [Hx N1].
    constructor; [|apply IH; auto; intros y Hy; apply D; right; auto].
    intros Hin. apply in_app_or in Hin. destruct Hin; [auto|]. apply (D x); [left|]; auto. }
  apply G.
  - apply H1; left; auto.
  - apply IH; intros; [apply H1; right; auto|]. eapply H2; eauto; right; auto.
  - intros x Hx Hx2. apply in_flat_map in Hx2. destruct Hx2 as (b & Hb & Hx2).
    assert (a = b) by (apply (H2 a b x); auto; [left; auto|right; auto]). subst. auto.
Qed.

Lemma NoDup_app_intro {A} (m1 m2 : list A) : NoDup m1 -> NoDup m2 -> (forall x, In x m1 -> ~ In x m2) -> NoDup (m1 ++ m2).
Proof.
  induction m1 as [|x m1 IH]; intros N1 N2 D; simpl; auto. apply NoDup_cons_iff in N1. destruct N1 as [Hx N1].
  constructor; [|apply IH; auto; intros y Hy; apply D; right; auto].
  intros Hin. apply in_app_or in Hin. destruct Hin; [auto|]. apply (D x); [left|]; auto.
Qed.

Section Work.
Variable usize lsize : nat.
Notation flagged := (flagged usize).

(** The list of shared ids seen by the counting loop. *)
Fixpoint shared_list (last : nat) (un : list unique_id) : list nat :=
  match un with
  | [] => []
  | r :: rest =>
      if flagged (u_src r) then shared_list last rest
      else if u_id r =? last then shared_list last rest
      else match rest with
           | o :: _ => if u_id o =? u_id r then u_id r :: shared_list (u_id r) rest
                       else shared_list last rest
           | [] => shared_list last rest
           end
  end.

Lemma count_shared_eq un : forall last n, count_shared usize last n un = n + length (shared_list last un).
Proof.
  induction un as [|r rest IH]; intros last n; cbn [count_shared shared_list]; [simpl; lia|].
  destruct (flagged (u_src r)); auto. destruct (u_id r =? last); auto.
  destruct rest as [|o rest']; auto. destruct (u_id o =? u_id r); auto.
  rewrite IH. cbn [length]. lia.
Qed.

Fixpoint while_id (x : nat) (l : list unique_id) : list unique_id :=
  match l with
  | [] => []
  | o :: l' => if u_id o =? x then o :: while_id x l' else []
  end.

Definition two_works (ord : nat) (r o : unique_id) : list shared_id_work :=
  [WK (u_id r) ord (u_proc r) (u_proc o) (u_src r) (u_src o);
   WK (u_id r) ord (u_proc o) (u_proc r) (u_src o) (u_src r)].

Lemma pair_inner_eq r others : forall last d,
  pair_inner r last d others =
  match while_id (u_id r) others with
  | [] => (last, d, [])
  | os => let d' := if u_id r =? last then d else S d in
          (u_id r, d', flat_map (two_works (d' - 1) r) os)
  end.
Proof.
  induction others as [|o others IH]; intros last d; cbn [pair_inner while_id]; auto.
  destruct (u_id o =? u_id r) eqn:E; auto. rewrite IH. rewrite Nat.eqb_refl.
  destruct (while_id (u_id r) others) as [|o2 os] eqn:Eo; cbn [flat_map app]; auto.
Qed.

(** Ordered by id, flagged entries after unflagged ones of the same id. *)
Definition row_le (a b : unique_id) : Prop :=
  u_id a < u_id b \/ (u_id a = u_id b /\ (flagged (u_src a) = true -> flagged (u_src b) = true)).
Notation ordered := (StronglySorted row_le).

Lemma while_id_filter r rest : ordered (r :: rest) ->
  while_id (u_id r) rest = filter (fun o => u_id o =? u_id r) rest.
Proof.
  intros H. inversion H as [|? ? HS HF]; subst. clear H. rewrite Forall_forall in HF.
  induction HS as [|o rest HS IH HF2]; cbn [while_id filter]; auto.
  destruct (Nat.eqb_spec (u_id o) (u_id r)) as [E|Hne].
  - f_equal. apply IH. intros x Hx. apply HF; right; auto.
  - symmetry. apply filter_nil_all. intros x Hx. rewrite Forall_forall in HF2.
    apply Nat.eqb_neq. destruct (HF o (or_introl eq_refl)) as [|[? _]]; [|lia].
    destruct (HF2 x Hx) as [|[? _]]; lia.
Qed.

(** The pairs (sharing process, other sharing process). *)
Fixpoint pairs_of (un : list unique_id) : list (unique_id * unique_id) :=
  match un with
  | [] => []
  | r :: rest =>
      (if flagged (u_src r) then []
       else flat_map (fun o => [(r, o); (o, r)]) (filter (fun o => u_id o =? u_id r) rest)) ++ pairs_of rest
  end.

Definition work_of_pair (ordf : nat -> nat) (ab : unique_id * unique_id) : shared_id_work :=
  let (a, b) := ab in WK (u_id a) (ordf (u_id a)) (u_proc a) (u_proc b) (u_src a) (u_src b).

Lemma pair_loop_eq ordf un : ordered un -> forall last d,
  (In last (map u_id un) -> ordf last = d - 1) ->
  (forall i x, nth_error (shared_list last un) i = Some x -> ordf x = d + i) ->
  pair_loop usize last d un = map (work_of_pair ordf) (pairs_of un).
Proof.
  induction 1 as [|r rest HS IH HF]; intros last d H1 H2; cbn [pair_loop pairs_of map]; auto.
  cbn [shared_list] in H2. destruct (flagged (u_src r)) eqn:Ef.
  - cbn [app]. apply IH; auto. intros Hin. apply H1. right. auto.
  - rewrite pair_inner_eq, (while_id_filter r rest) by (constructor; auto). rewrite map_app.
    assert (W : forall d', ordf (u_id r) = d' -> forall os, (forall o, In o os -> u_id o = u_id r) ->
       flat_map (two_works d' r) os = map (work_of_pair ordf) (flat_map (fun o => [(r, o); (o, r)]) os)).
    { intros d' Ed os Hos. rewrite map_flat_map. apply flat_map_ext_in. intros o Ho. cbn [map work_of_pair two_works].
      unfold two_works. rewrite (Hos o Ho), Ed. auto. }
    assert (Hf : forall o, In o (filter (fun o => u_id o =? u_id r) rest) -> u_id o = u_id r).
    { intros o Ho. apply filter_In in Ho. apply Nat.eqb_eq. tauto. }
    destruct rest as [|o rest'] eqn:Er.
    + cbn [filter flat_map map app pair_loop pairs_of]. auto.
    + rewrite <- Er in *. assert (Ew : while_id (u_id r) rest = filter (fun o => u_id o =? u_id r) rest)
        by (apply while_id_filter; constructor; auto).
      destruct (Nat.eqb_spec (u_id o) (u_id r)) as [Eo|Hno].
      * assert (Hne : exists o2 os, filter (fun o => u_id o =? u_id r) rest = o2 :: os).
        { rewrite Er. cbn [filter]. rewrite Eo, Nat.eqb_refl. eauto. }
        destruct Hne as (o2 & os & Eos).
        rewrite Eos in *. cbv zeta.
        destruct (Nat.eqb_spec (u_id r) last) as [El|Hnl].
        -- rewrite (W (d - 1)); auto. 2:{ rewrite El. apply H1. left. auto. }
           f_equal. rewrite El. apply IH; auto. intros Hin; apply H1; right; auto.
        -- assert (Eu : ordf (u_id r) = d).
           { rewrite (H2 0 (u_id r)); [lia|]. auto. }
           rewrite (W (S d - 1)); auto; [|lia]. f_equal. apply IH.
           ++ intros _. lia.
           ++ intros i x Hi. rewrite (H2 (S i) x); [lia|]. auto.
      * assert (Hnil : filter (fun o => u_id o =? u_id r) rest = []).
        { rewrite <- Ew, Er. cbn [while_id]. destruct (Nat.eqb_spec (u_id o) (u_id r)); [congruence|]. auto. }
        rewrite Hnil. cbn [flat_map map app]. apply IH; auto.
        -- intros Hin; apply H1; right; auto.
        -- destruct (u_id r =? last); auto.
Qed.

Lemma in_pairs_of un : ordered un -> NoDup un -> forall a b,
  In (a, b) (pairs_of un) <->
  In a un /\ In b un /\ a <> b /\ u_id a = u_id b /\ flagged (u_src a) && flagged (u_src b) = false.
Proof.
  induction 1 as [|r rest HS IH HF]; intros ND a b; cbn [pairs_of]; [simpl; tauto|].
  apply NoDup_cons_iff in ND. destruct ND as [Hr ND]. rewrite Forall_forall in HF.
  rewrite in_app_iff, (IH ND). split.
  - intros [H|H].
    + destruct (flagged (u_src r)) eqn:Ef; [destruct H|].
      apply in_flat_map in H. destruct H as (o & Ho & H). apply filter_In in Ho. destruct Ho as [Ho Eo]. apply Nat.eqb_eq in Eo.
      destruct H as [H|[H|[]]]; injection H as <- <-; rewrite Ef; cbn [andb].
      * repeat split; auto; [left; auto|right; auto|]. intros ->; auto.
      * rewrite andb_false_r. repeat split; auto; [right; auto|left; auto|]. intros ->; auto.
    + intuition (try (right; assumption)).
  - intros (Ha & Hb & Hne & Ei & Ef).
    assert (Key : forall o, In o rest -> u_id o = u_id r -> flagged (u_src r) && flagged (u_src o) = false ->
              flagged (u_src r) = false).
    { intros o Ho Eo Efo. destruct (flagged (u_src r)) eqn:E; auto. destruct (HF o Ho) as [|[_ X]]; [lia|].
      rewrite (X E) in Efo. discriminate. }
    destruct Ha as [<-|Ha], Hb as [<-|Hb]; try congruence.
    + left. rewrite (Key b Hb) by auto. apply in_flat_map. exists b. split; [|left; auto]. apply filter_In. rewrite Nat.eqb_eq. auto.
    + left. rewrite (Key a Ha); auto; [|rewrite andb_comm; auto]. apply in_flat_map. exists a. split; [|right; left; auto].
      apply filter_In. rewrite Nat.eqb_eq. auto.
    + right. auto.
Qed.

Lemma pairs_of_NoDup un : NoDup un -> NoDup (pairs_of un).
Proof.
  induction 1 as [|r rest Hr ND IH]; cbn [pairs_of]; [constructor|].
  assert (Sub : forall un a b, In (a, b) (pairs_of un) -> In a un /\ In b un).
  { clear. induction un as [|r rest IH]; cbn [pairs_of]; intros a b H; [destruct H|].
    apply in_app_or in H. destruct H as [H|H].
    - destruct (flagged (u_src r)); [destruct H|]. apply in_flat_map in H. destruct H as (o & Ho & H). apply filter_In in Ho.
      destruct H as [H|[H|[]]]; injection H as <- <-; simpl; tauto.
    - apply IH in H. simpl. tauto. }
  apply NoDup_app_intro; auto.
  - destruct (flagged (u_src r)); [constructor|]. apply NoDup_flat_map.
    + apply NoDup_filter; auto.
    + intros o Ho. apply filter_In in Ho. constructor; [|constructor; [intros []|constructor]].
      intros [H|[]]. injection H as <- _. tauto.
    + intros o o2 x Ho Ho2 Hx Hx2. apply filter_In in Ho, Ho2. destruct Ho as [Ho _], Ho2 as [Ho2 _].
      destruct Hx as [<-|[<-|[]]], Hx2 as [H|[H|[]]]; injection H; intros; subst; auto; tauto.
  - intros [a b] H1 H2. apply Sub in H2. destruct (flagged (u_src r)); [destruct H1|].
    apply in_flat_map in H1. destruct H1 as (o & Ho & H1). apply filter_In in Ho.
    destruct H1 as [H|[H|[]]]; injection H as <- <-; tauto.
Qed.

(** The shared ids, in increasing order. *)
Lemma shared_list_props un : ordered un -> forall last,
  (forall r, In r un -> u_id r <> last -> last < u_id r) \/ ~ In last (map u_id un) ->
  StronglySorted lt (shared_list last un) /\
  forall x, In x (shared_list last un) <-> x <> last /\ exists a b, In (a, b) (pairs_of un) /\ u_id a = x.
Proof.
  induction 1 as [|r rest HS IH HF]; intros last Hl; cbn [shared_list pairs_of].
  { split; [constructor|]. intros x. simpl. split; [tauto|]. intros (_ & a & b & H & _). auto. }
  rewrite Forall_forall in HF.
  assert (Hl' : (forall q, In q rest -> u_id q <> last -> last < u_id q) \/ ~ In last (map u_id rest)).
  { destruct Hl as [Hl|Hl]; [left; intros; apply Hl; auto; right; auto|right; intros H; apply Hl; right; auto]. }
  destruct (flagged (u_src r)) eqn:Ef; [cbn [app]; apply IH; auto|].
  assert (Hord : ordered (r :: rest)) by (constructor; auto; rewrite Forall_forall; auto).
  pose proof (while_id_filter r rest Hord) as Ew.
  assert (Cases : (exists o, In o rest /\ u_id o = u_id r) /\ 
                  match rest with o :: _ => u_id o =? u_id r | [] => false end = true
               \/ filter (fun o => u_id o =? u_id r) rest = [] /\
                  match rest with o :: _ => u_id o =? u_id r | [] => false end = false).
  { destruct rest as [|o rest']; [right; auto|].
    destruct (Nat.eqb_spec (u_id o) (u_id r)) as [E|Hne]; [left; split; auto; exists o; split; auto; left; auto|right; split; auto].
    rewrite <- Ew. cbn [while_id]. destruct (Nat.eqb_spec (u_id o) (u_id r)); [congruence|auto]. }
  assert (EqE : (if u_id r =? last then shared_list last rest
     else match rest with
          | [] => shared_list last rest
          | o :: _ => if u_id o =? u_id r then u_id r :: shared_list (u_id r) rest else shared_list last rest
          end) = if negb (u_id r =? last) && match rest with o :: _ => u_id o =? u_id r | [] => false end
                 then u_id r :: shared_list (u_id r) rest else shared_list last rest).
  { destruct (u_id r =? last); cbn [negb andb]; auto. destruct rest; auto. }
  rewrite EqE. clear EqE. destruct Cases as [[(o & Ho & Eo) Eh]|[Hnil Eh]]; rewrite Eh.
  - rewrite andb_true_r.
    assert (Hin : In (r, o) (flat_map (fun o => [(r, o); (o, r)]) (filter (fun o => u_id o =? u_id r) rest))).
    { apply in_flat_map. exists o. split; [apply filter_In; rewrite Nat.eqb_eq; auto|left; auto]. }
    assert (Hids : forall a b, In (a, b) (flat_map (fun o => [(r, o); (o, r)]) (filter (fun o => u_id o =? u_id r) rest)) -> u_id a = u_id r).
    { intros a b H. apply in_flat_map in H. destruct H as (o' & Ho' & H). apply filter_In in Ho'. rewrite Nat.eqb_eq in Ho'.
      destruct H as [H|[H|[]]]; injection H as <- <-; tauto. }
    destruct (Nat.eqb_spec (u_id r) last) as [El|Hnl]; cbn [negb].
    + destruct (IH last Hl') as [IH1 IH2]. split; auto. intros x. rewrite IH2. split.
      * intros (H1 & a & b & H2 & H3). split; auto. exists a, b. split; auto. apply in_or_app; auto.
      * intros (H1 & a & b & H2 & H3). split; auto. exists a, b. split; auto. apply in_app_or in H2. destruct H2 as [H2|]; auto.
        apply Hids in H2. congruence.
    + destruct (IH (u_id r)) as [IH1 IH2].
      { left. intros q Hq Hne. destruct (HF q Hq) as [|[? _]]; [lia|congruence]. }
      split.
      * constructor; auto. rewrite Forall_forall. intros x Hx. apply IH2 in Hx. destruct Hx as (Hne & a & b & Hab & <-).
        assert (Ha : In a rest).
        { clear -Hab. revert Hab. induction rest as [|q rest IH]; cbn [pairs_of]; intros H; [destruct H|].
          apply in_app_or in H. destruct H as [H|H]; [|right; auto].
          destruct (flagged (u_src q)); [destruct H|]. apply in_flat_map in H. destruct H as (o & Ho & H). apply filter_In in Ho.
          destruct H as [H|[H|[]]]; injection H as <- <-; simpl; tauto. }
        destruct (HF a Ha) as [|[? _]]; [lia|congruence].
      * intros x. cbn [In]. rewrite IH2. split.
        -- intros [<-|(H1 & a & b & H2 & H3)].
           ++ split; auto. exists r, o. split; auto. apply in_or_app; auto.
           ++ split.
              ** intros ->. 
                 assert (Ha : In a rest).
                 { clear -H2. revert H2. induction rest as [|q rest IH]; cbn [pairs_of]; intros H; [destruct H|].
                   apply in_app_or in H. destruct H as [H|H]; [|right; auto].
                   destruct (flagged (u_src q)); [destruct H|]. apply in_flat_map in H. destruct H as (o & Ho & H). apply filter_In in Ho.
                   destruct H as [H|[H|[]]]; injection H as <- <-; simpl; tauto. }
                 destruct Hl as [Hl|Hl].
                 --- specialize (Hl r (or_introl eq_refl) Hnl). destruct (HF a Ha) as [|[? _]]; lia.
                 --- apply Hl. rewrite <- H3. right. apply in_map. auto.
              ** exists a, b. split; auto. apply in_or_app; auto.
        -- intros (H1 & a & b & H2 & H3). destruct (Nat.eq_dec x (u_id r)) as [->|Hx]; [left; auto|right].
           split; auto. exists a, b. split; auto. apply in_app_or in H2. destruct H2 as [H2|]; auto. apply Hids in H2. congruence.
  - rewrite andb_false_r, Hnil. cbn [flat_map app]. apply IH; auto.
Qed.
End Work.
