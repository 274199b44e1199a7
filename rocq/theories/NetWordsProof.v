(** Running a program over encoded words gives the same results. *)
From Verif Require Import Base BaseLemmas Net NetProof NetWords.

Section Lift.
Context {A B X : Type}.
Variable f : A -> B.
Variable g : B -> A.
Hypothesis gf : forall a, g (f a) = a.

Definition unsend (x : @send B) : @send A := let '(q, t, m) := x in (q, t, map g m).
Definition ungroup (x : @group B) : @group A := (map unsend (fst x), snd x).

Lemma unsend_word s : map unsend (map (word_send f) s) = s.
Proof.
  rewrite map_map. rewrite <- (map_id s) at 2. apply map_ext. intros [[q t] m]. simpl.
  rewrite map_map. f_equal. rewrite <- (map_id m) at 2. apply map_ext. auto.
Qed.

Lemma all_sends_un (L : list (@group B)) : all_sends (map ungroup L) = map unsend (all_sends L).
Proof. unfold all_sends. rewrite concat_map, !map_map. auto. Qed.
Lemma all_recvs_un (L : list (@group B)) : all_recvs (map ungroup L) = all_recvs L.
Proof. unfold all_recvs. rewrite map_map. auto. Qed.
Lemma sent_on_un c ss : sent_on c (map unsend ss) = map (map g) (sent_on c ss).
Proof.
  unfold sent_on. induction ss as [|[[q t] m] ss IH]; simpl; auto.
  destruct (key_eqb (q, t) c); simpl; rewrite IH; auto.
Qed.

(** The state over words w simulates the state over values v. *)
Record sim (w : list (pstate B X)) (v : list (pstate A X)) : Prop := {
  sim_len : length w = length v;
  sim_at : forall p ws vs, nth_error w p = Some ws -> nth_error v p = Some vs ->
    cur ws = as_words f g (cur vs) /\ log vs = map ungroup (log ws) }.

Lemma sim_some w v p vs : sim w v -> nth_error v p = Some vs -> exists ws, nth_error w p = Some ws /\
  cur ws = as_words f g (cur vs) /\ log vs = map ungroup (log ws).
Proof.
  intros [H1 H2] Hp. destruct (nth_error_lt_Some w p) as [ws Hw].
  { rewrite H1. eapply nth_error_Some_lt; eauto. }
  exists ws. split; auto. apply (H2 p); auto.
Qed.
Lemma sim_none w v p : sim w v -> nth_error v p = None -> nth_error w p = None.
Proof. intros [H1 _] H. apply nth_error_None in H. apply nth_error_None. lia. Qed.

Lemma recv_all_sim w v q : sim w v -> forall r before,
  recv_all v q before r = match recv_all w q before r with Some ms => Some (map (map g) ms) | None => None end.
Proof.
  intros Hs. induction r as [|[[p t] cap] r IH]; intros before; cbn [recv_all]; auto.
  destruct (nth_error v p) as [vs|] eqn:Ev.
  - destruct (sim_some _ _ _ _ Hs Ev) as (ws & Ew & _ & El). rewrite Ew.
    rewrite El, all_sends_un, sent_on_un, nth_error_map.
    destruct (nth_error (sent_on (q, t) (all_sends (log ws))) _) as [m|]; auto. simpl. rewrite map_length.
    destruct (length m <=? cap); auto. rewrite IH. destruct (recv_all w q _ r); auto.
  - rewrite (sim_none _ _ _ Hs Ev). auto.
Qed.

Lemma sends_matched_sim w v p : sim w v -> forall s before,
  sends_matched v p (map unsend before) (map unsend s) = sends_matched w p before s.
Proof.
  intros Hs. induction s as [|[[q t] m] s IH]; intros before; cbn [sends_matched map unsend]; auto.
  destruct (nth_error v q) as [vs|] eqn:Ev.
  - destruct (sim_some _ _ _ _ Hs Ev) as (ws & Ew & _ & El). rewrite Ew, El, all_recvs_un.
    rewrite sent_on_un, map_length.
    change [(q, t, map g m)] with (map unsend [(q, t, m)]). rewrite <- map_app, IH. auto.
  - rewrite (sim_none _ _ _ Hs Ev). auto.
Qed.

Lemma sim_upd w v p ws vs : sim w v -> cur ws = as_words f g (cur vs) -> log vs = map ungroup (log ws) ->
  sim (upd w p ws) (upd v p vs).
Proof.
  intros [H1 H2] E1 E2. constructor; [rewrite !upd_length; auto|].
  intros q ws0 vs0. rewrite !nth_error_upd, H1. destruct ((p =? q) && (q <? length v)).
  - intros Ha Hb. injection Ha as <-. injection Hb as <-. auto.
  - apply H2.
Qed.

Lemma pstep_sim b w v p v' : sim w v -> pstep b v p = Some v' -> exists w', pstep b w p = Some w' /\ sim w' v'.
Proof.
  intros Hs. unfold pstep. destruct (nth_error v p) as [vs|] eqn:Ev; [|discriminate].
  destruct (sim_some _ _ _ _ Hs Ev) as (ws & Ew & Ec & El). rewrite Ew, Ec.
  destruct (cur vs) as [a| |s r k|h k] eqn:Ecv; try discriminate; cbn [as_words].
  - intros H. injection H as <-. eexists. split; [reflexivity|].
    apply sim_upd; auto; cbn [cur log].
    + rewrite El, map_length. auto.
    + rewrite El, map_app. cbn [map]. unfold ungroup at 3. cbn [fst snd]. rewrite unsend_word. auto.
  - rewrite El, nth_error_map. destruct (nth_error (log ws) h) as [[s r]|] eqn:Eg; [|discriminate]. cbn [option_map ungroup fst snd].
    rewrite firstn_map, all_recvs_un, all_sends_un, (recv_all_sim w v p Hs).
    destruct (recv_all w p _ r) as [ms|]; [|discriminate].
    rewrite (sends_matched_sim w v p Hs). destruct (b || _); [|discriminate].
    intros H. injection H as <-. eexists. split; [reflexivity|].
    apply sim_upd; auto.
Qed.

Lemma exec_sim sched : forall w v v', sim w v -> exec v sched = Some v' -> exists w', exec w sched = Some w' /\ sim w' v'.
Proof.
  induction sched as [|[p b] sched IH]; intros w v v' Hs E; cbn [exec] in *.
  - injection E as <-. eauto.
  - destruct (pstep b v p) as [v1|] eqn:E1; [|discriminate].
    destruct (pstep_sim _ _ _ _ _ Hs E1) as (w1 & -> & Hs1). eauto.
Qed.

Variable np : nat.

Lemma goes_words (P Q : nat -> prog A X) : goes np P Q ->
  goes np (fun p => as_words f g (P p)) (fun p => as_words f g (Q p)).
Proof.
  intros H bs w [H1 H2 H3].
  set (v := map (fun x => PS (P (fst x)) (map ungroup (log (snd x)))) (combine (seq 0 (length w)) w)).
  assert (Hv : forall p, nth_error v p = match nth_error w p with
             Some ws => Some (PS (P p) (map ungroup (log ws))) | None => None end).
  { intros p. unfold v. rewrite nth_error_map, (nth_error_combine_seq (W:=unit) (A:=unit) (C:=unit) (fun _ _ => Stop)). destruct (nth_error w p); auto. }
  assert (Lv : length v = length w) by (unfold v; rewrite map_length, combine_length, seq_length; lia).
  assert (Hs : sim w v).
  { constructor; auto. intros p ws vs Ew Ev. rewrite Hv, Ew in Ev. injection Ev as <-. cbn [cur log]. split; auto.
    destruct (H3 p) as (L & E & _). { rewrite <- H1. eapply nth_error_Some_lt; eauto. }
    rewrite Ew in E. injection E as ->. auto. }
  destruct (H (fun p => map (map (map g)) (bs p)) v) as (B' & sched & v' & E & [R1 R2 R3]).
  { constructor; [lia| |].
    - intros p q t ps qs Hp Hq. rewrite Hv in Hp, Hq.
      destruct (nth_error w p) as [ws|] eqn:Ep; [|discriminate]. destruct (nth_error w q) as [qs0|] eqn:Eq; [|discriminate].
      injection Hp as <-. injection Hq as <-. cbn [log].
      rewrite all_sends_un, all_recvs_un, sent_on_un, map_length. eapply H2; eauto.
    - intros p Hp. destruct (H3 p Hp) as (L & EL & HL & Hd & Hr). exists (map ungroup L).
      rewrite Hv, EL. cbn [log]. split; [auto|]. split; [rewrite !map_length; auto|]. split.
      + intros q t m Hin. rewrite all_sends_un in Hin. apply in_map_iff in Hin. destruct Hin as ([[q' t'] m'] & Ex & Hin).
        injection Ex as <- <- <-. eapply Hd; eauto.
      + intros h s r Hg. rewrite nth_error_map in Hg. destruct (nth_error L h) as [[s0 r0]|] eqn:Eh; [|discriminate].
        injection Hg as <- <-. rewrite firstn_map, all_recvs_un, (recv_all_sim w v p Hs).
        cbn [snd]. rewrite (Hr _ _ _ Eh), nth_error_map. auto. }
  destruct (exec_sim _ _ _ _ Hs E) as (w' & Ew' & Hs').
  exists (fun p => match nth_error w' p with
           | Some ws => map (fun h => match nth_error (log ws) h with
                | Some (s, r) => match recv_all w' p (all_recvs (firstn h (log ws))) r with Some ms => ms | None => [] end
                | None => [] end) (seq 0 (length (log ws)))
           | None => [] end), sched, w'.
  split; auto. destruct Hs' as [S1 S2]. constructor; [lia| |].
  - intros p q t ps qs Hp Hq.
    destruct (nth_error_lt_Some v' p) as [vp Evp]; [rewrite <- S1; eapply nth_error_Some_lt; eauto|].
    destruct (nth_error_lt_Some v' q) as [vq Evq]; [rewrite <- S1; eapply nth_error_Some_lt; eauto|].
    pose proof (R2 p q t _ _ Evp Evq) as Hb.
    destruct (S2 _ _ _ Hp Evp) as [_ EE1]. destruct (S2 _ _ _ Hq Evq) as [_ EE2].
    rewrite EE1, EE2, all_sends_un, all_recvs_un, sent_on_un, map_length in Hb. auto.
  - intros p Hp. destruct (R3 p Hp) as (L & EL & HL & Hd & Hr).
    destruct (nth_error_lt_Some w' p) as [[c Lw] Ew]; [lia|].
    destruct (S2 _ _ _ Ew EL) as [E1 E2]. cbn [cur log] in E1, E2. subst c.
    exists Lw. rewrite Ew. cbn [log]. split; [auto|]. split; [rewrite map_length, seq_length; auto|]. split.
    + intros q t m Hin. apply (Hd q t (map g m)). rewrite E2, all_sends_un. apply (in_map unsend) in Hin. exact Hin.
    + intros h s r Hg.
      assert (Hh : h < length Lw) by (eapply nth_error_Some_lt; eauto).
      rewrite nth_error_map, seq_nth_error by auto. cbn [option_map plus]. rewrite Hg.
      destruct (recv_all w' p (all_recvs (firstn h Lw)) r) as [ms|] eqn:Er; auto. exfalso.
      specialize (Hr h (map unsend s) r). rewrite E2, nth_error_map, Hg in Hr. specialize (Hr eq_refl).
      rewrite firstn_map, all_recvs_un, (recv_all_sim w' v' p (Build_sim _ _ S1 S2)), Er in Hr.
      symmetry in Hr. apply nth_error_None in Hr. rewrite <- HL, E2, map_length in Hr. lia.
Qed.
End Lift.
