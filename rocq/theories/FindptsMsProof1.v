(** findptsms with several sessions: the merge loop for one point. *)
From Verif Require Import Base BaseLemmas Findpts FindptsGlobal FindptsMs FindptsSpec FindptsProof1 FindptsProof5.
From Coq Require Import QArith Qround Lqa Sorting.Sorted.
Open Scope nat_scope.

Section One.
Variable F : doubles.
Notation result := (result F).
Notation val := (val F).
Notation step := (ms_step F).
Notation "'ioriginator'" := (ioriginator F).
Notation "'oldindex'" := (oldindex F).
Notation "'oldelsid'" := (oldelsid F).
Notation "'istart'" := (istart F).

(** The entries of one point; what is stored in the end. *)
Fixpoint ms_one (first : bool) (i : nat) (o : result) (l : list result) (s : ms_state F) : ms_state F * option result :=
  match l with
  | [] => (s, None)
  | opt :: l' =>
      let '(s', w) := step first i opt (match l' with x :: _ => Some (i, x) | [] => None end) o s in
      match l' with [] => (s', w) | _ => ms_one false i o l' s' end
  end.

Lemma step_mid first i opt x o s : snd (step first i opt (Some (i, x)) o s) = None.
Proof. unfold ms_step. rewrite Nat.eqb_refl. cbn [negb orb]. rewrite orb_false_r. destruct (negb _); reflexivity. Qed.
Lemma step_end first i opt j x o s : j <> i -> step first i opt (Some (j, x)) o s = step first i opt None o s.
Proof.
  intros H. unfold ms_step. assert (E : (i =? j) = false) by (apply Nat.eqb_neq; auto). rewrite E. cbn [negb orb].
  rewrite orb_true_r. rewrite Nat.eqb_refl. reflexivity.
Qed.
Lemma step_new i opt nx o s : oldindex s <> i -> step false i opt nx o s = step true i opt nx o s.
Proof.
  intros H. unfold ms_step, ms_new_point. assert (E : (i =? oldindex s) = false) by (apply Nat.eqb_neq; auto). rewrite E. reflexivity.
Qed.
Lemma step_old first i opt nx o s : first = true \/ oldindex s = i -> oldindex (fst (step first i opt nx o s)) = i.
Proof.
  intros H.
  assert (E : oldindex (ms_new_session F opt o (ms_new_point F first i o s)) = i).
  { unfold ms_new_session. assert (E1 : oldindex (ms_new_point F first i o s) = i).
    { unfold ms_new_point. destruct (Nat.eqb_spec i (oldindex s)) as [Ei|Ei]; cbn [negb orb]; [destruct first; auto|reflexivity]. }
    destruct (_ || _); [|auto]. destruct (_ && _); auto. }
  unfold ms_step. destruct (_ || _ || _).
  - destruct (_ || _); cbn [fst oldindex]; exact E.
  - exact E.
Qed.
Lemma one_old : forall l first i o s, l <> [] -> first = true \/ oldindex s = i -> oldindex (fst (ms_one first i o l s)) = i.
Proof.
  induction l as [|opt l IH]; intros first i o s Hl Hs; [congruence|]. cbn [ms_one].
  pose proof (step_old first i opt (match l with x :: _ => Some (i, x) | [] => None end) o s Hs) as E.
  destruct (step first i opt _ o s) as [s' w]. cbn [fst] in E. destruct l as [|x l]; [exact E|]. apply IH; [discriminate|auto].
Qed.

(** The loop over the entries of one point. *)
Lemma loop_index : forall l first i o B s st, l <> [] -> nth_error st i = Some o ->
  (match B with (j, _) :: _ => j <> i | [] => True end) ->
  ms_loop F first (map (pair i) l ++ B) s st =
  ms_loop F false B (fst (ms_one first i o l s)) (match snd (ms_one first i o l s) with Some o' => upd st i o' | None => st end).
Proof.
  induction l as [|opt l IH]; intros first i o B s st Hl Ho HB; [congruence|]. cbn [map app ms_loop ms_one].
  rewrite (rd_ok _ _ _ Ho). cbn [bind]. destruct l as [|x l].
  - cbn [map app].
    assert (E : step first i opt (match B with x :: _ => Some x | [] => None end) o s = step first i opt None o s).
    { destruct B as [|[j y] B]; [auto|]. apply step_end. auto. }
    rewrite E. destruct (step first i opt None o s) as [s' w]. cbn [fst snd].
    destruct w as [o'|]; [|reflexivity]. rewrite wr_ok by (eapply nth_error_Some_lt; eauto). reflexivity.
  - cbn [map app]. pose proof (step_mid first i opt x o s) as E. destruct (step first i opt (Some (i, x)) o s) as [s' w]. cbn [snd] in E.
    subst w. cbn [bind]. apply (IH false i o B s' st); [discriminate|auto|auto].
Qed.

Definition stored (o : result) (w : option result) : result := match w with Some o' => o' | None => o end.
(** What is stored for a point with entries l. *)
Definition final (i : nat) (o : result) (l : list result) (o' : result) : Prop :=
  (l = [] /\ o' = o) \/ (l <> [] /\ exists s, o' = stored o (snd (ms_one true i o l s))).

Lemma one_first : forall l i o s, l <> [] -> oldindex s <> i -> ms_one false i o l s = ms_one true i o l s.
Proof. intros [|opt l] i o s Hl Hs; [congruence|]. cbn [ms_one]. rewrite step_new by auto. reflexivity. Qed.

(** The first point of a sorted list. *)
Lemma take_index i (out : list (nat * result)) : StronglySorted (fun a b => fst a <= fst b) out -> (forall x, In x out -> i <= fst x) ->
  exists l B, out = map (pair i) l ++ B /\ forall x, In x B -> i < fst x.
Proof.
  induction out as [|[j o] out IH]; intros Hs Hi; [exists [], []; split; auto; intros x []|].
  inversion Hs as [|? ? Hs' Hf]; subst. destruct (Nat.eq_dec j i) as [->|Hne].
  - destruct IH as (l & B & E & HB); [auto|intros x Hx; apply Hi; right; auto|]. exists (o :: l), B. split; [cbn; rewrite E; auto|auto].
  - exists [], ((j, o) :: out). split; [reflexivity|]. pose proof (Hi (j, o) (or_introl eq_refl)) as Hj. cbn [fst] in Hj.
    intros x [<-|Hx]; [cbn; lia|]. rewrite Forall_forall in Hf. specialize (Hf x Hx). cbn [fst] in Hf. lia.
Qed.

Lemma filter_pair i k (l : list result) : map snd (filter (fun x => fst x =? k) (map (pair i) l)) = if i =? k then l else [].
Proof. induction l as [|x l IH]; cbn [map filter fst]; [destruct (i =? k); auto|]. destruct (i =? k); cbn [map snd]; rewrite IH; auto. Qed.

Lemma loop_ok : forall N first (out : list (nat * result)) s st, length out <= N ->
  StronglySorted (fun a b => fst a <= fst b) out -> (forall x, In x out -> fst x < length st) ->
  (first = true \/ forall x, In x out -> oldindex s < fst x) ->
  exists st', ms_loop F first out s st = Ok st' /\ length st' = length st /\
    forall i o, nth_error st i = Some o -> exists o', nth_error st' i = Some o' /\ final i o (map snd (filter (fun x => fst x =? i) out)) o'.
Proof.
  induction N as [|N IH]; intros first out s st HN Hs Hl Hf.
  { destruct out; [|cbn in HN; lia]. exists st. split; [reflexivity|]. split; [auto|]. intros i o Ho. exists o. split; [auto|]. left. auto. }
  destruct out as [|[i opt] out'].
  { exists st. split; [reflexivity|]. split; [auto|]. intros i o Ho. exists o. split; [auto|]. left. auto. }
  destruct (take_index i ((i, opt) :: out')) as (l & B & E & HB); [auto| |].
  { inversion Hs as [|? ? _ Hf']; subst. rewrite Forall_forall in Hf'. intros x [<-|Hx]; [auto|]. apply (Hf' x Hx). }
  assert (Hne : l <> []).
  { intros ->. cbn in E. rewrite <- E in HB. specialize (HB (i, opt) (or_introl eq_refl)). cbn in HB. lia. }
  rewrite E in *. clear E opt out'.
  assert (Hi : exists o, nth_error st i = Some o).
  { apply nth_error_lt_Some. destruct l as [|x l]; [congruence|]. apply (Hl (i, x)). left. auto. }
  destruct Hi as [o Ho].
  rewrite (loop_index l first i o B s st Hne Ho).
  2:{ destruct B as [|[j y] B]; [exact I|]. specialize (HB (j, y) (or_introl eq_refl)). cbn in HB. lia. }
  assert (E1 : ms_one first i o l s = ms_one true i o l s).
  { destruct first; [auto|]. apply one_first; [auto|]. destruct Hf as [Hf|Hf]; [discriminate|]. destruct l as [|x l]; [congruence|].
    specialize (Hf (i, x) (or_introl eq_refl)). cbn in Hf. lia. }
  rewrite E1. set (w := snd (ms_one true i o l s)). set (st1 := match w with Some o' => upd st i o' | None => st end).
  assert (L1 : length st1 = length st) by (unfold st1; destruct w; [apply upd_length|auto]).
  assert (N1 : nth_error st1 i = Some (stored o w)).
  { unfold st1. destruct w; cbn [stored]; [|auto]. apply nth_error_upd_eq. eapply nth_error_Some_lt; eauto. }
  assert (N2 : forall k, k <> i -> nth_error st1 k = nth_error st k).
  { intros k Hk. unfold st1. destruct w; [|auto]. apply nth_error_upd_ne. auto. }
  destruct (IH false B (fst (ms_one true i o l s)) st1) as (st' & Es & Ls & Ns).
  - rewrite app_length, map_length in HN. destruct l; [congruence|]. cbn in HN. lia.
  - clear -Hs. induction (map (pair i) l) as [|x m IH]; [auto|]. inversion Hs; auto.
  - intros x Hx. rewrite L1. apply Hl. apply in_or_app. auto.
  - right. rewrite one_old by auto. auto.
  - exists st'. split; [exact Es|]. split; [congruence|]. intros k ok Hk. rewrite filter_app, map_app, filter_pair.
    destruct (Nat.eqb_spec i k) as [<-|Hik].
    + rewrite Ho in Hk. injection Hk as <-. destruct (Ns i _ N1) as (o' & E' & Hfin).
      assert (Eb : filter (fun x => fst x =? i) B = []).
      { clear -HB. induction B as [|x B IH]; [auto|]. cbn [filter]. pose proof (HB x (or_introl eq_refl)).
        destruct (Nat.eqb_spec (fst x) i); [lia|]. apply IH. intros; apply HB; right; auto. }
      rewrite Eb in *. cbn [map] in *. rewrite app_nil_r. destruct Hfin as [[_ ->]|[Hn _]]; [|congruence].
      exists (stored o w). split; [auto|]. right. split; [auto|]. exists s. reflexivity.
    + cbn [app]. apply Ns. rewrite N2 by auto. auto.
Qed.
End One.
