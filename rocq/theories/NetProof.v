(** Confluence of the message-passing semantics, and a rule to run matched rounds. *)
From Verif Require Import Base BaseLemmas Net.
From Coq Require Import ZifyBool ZifyNat.
Ltac Zify.zify_post_hook ::= idtac.

Section NetProof.
Context {W A : Type}.
Notation state := (list (pstate W A)).

(** ** Monotonicity *)
Definition grows (st st' : state) : Prop :=
  length st' = length st /\
  forall p ps, nth_error st p = Some ps ->
    exists ps' l, nth_error st' p = Some ps' /\ log ps' = log ps ++ l.

Lemma all_sends_app (l1 l2 : list (@group W)) : all_sends (l1 ++ l2) = all_sends l1 ++ all_sends l2.
Proof. unfold all_sends. rewrite map_app, concat_app. auto. Qed.
Lemma all_recvs_app (l1 l2 : list (@group W)) : all_recvs (l1 ++ l2) = all_recvs l1 ++ all_recvs l2.
Proof. unfold all_recvs. rewrite map_app, concat_app. auto. Qed.
Lemma sent_on_app c (l1 l2 : list (@send W)) : sent_on c (l1 ++ l2) = sent_on c l1 ++ sent_on c l2.
Proof. unfold sent_on. rewrite filter_app, map_app. auto. Qed.
Lemma reqs_on_app c l1 l2 : reqs_on c (l1 ++ l2) = reqs_on c l1 + reqs_on c l2.
Proof. unfold reqs_on. rewrite filter_app, app_length. auto. Qed.

Lemma recv_all_mono st st' q : grows st st' -> forall r before ms,
  recv_all st q before r = Some ms -> recv_all st' q before r = Some ms.
Proof.
  intros [_ G]. induction r as [|[[p t] cap] r IH]; intros before ms H; cbn [recv_all] in *; auto.
  destruct (nth_error st p) as [ps|] eqn:Ep; [|discriminate].
  destruct (G p ps Ep) as (ps' & l & -> & ->).
  rewrite all_sends_app, sent_on_app.
  destruct (nth_error (sent_on (q, t) (all_sends (log ps))) (reqs_on (p, t) before)) as [m|] eqn:Em; [|discriminate].
  rewrite nth_error_app1 by (eapply nth_error_Some_lt; eauto). rewrite Em.
  destruct (length m <=? cap); [|discriminate].
  destruct (recv_all st q (before ++ [(p, t, cap)]) r) as [ms'|] eqn:E; [|discriminate].
  rewrite (IH _ _ E). auto.
Qed.

Lemma sends_matched_mono st st' p : grows st st' -> forall s before,
  sends_matched st p before s = true -> sends_matched st' p before s = true.
Proof.
  intros [_ G]. induction s as [|[[q t] m] s IH]; intros before H; cbn [sends_matched] in *; auto.
  destruct (nth_error st q) as [qs|] eqn:Eq; [|discriminate].
  destruct (G q qs Eq) as (qs' & l & -> & ->).
  rewrite all_recvs_app, reqs_on_app.
  apply andb_true_iff in H as [H1 H2]. rewrite (IH _ H2). lia.
Qed.

Lemma pstep_inv b (st : state) p st' : pstep b st p = Some st' ->
  exists ps ps' l, nth_error st p = Some ps /\ st' = upd st p ps' /\ log ps' = log ps ++ l.
Proof.
  unfold pstep. destruct (nth_error st p) as [ps|] eqn:Ep; [|discriminate].
  destruct (cur ps) as [a| |s r k|h k] eqn:Ec; try discriminate.
  - intros H; injection H as <-. exists ps; eexists; exists [(s, r)]. split; [|split]; auto.
  - destruct (nth_error (log ps) h) as [[s r]|]; [|discriminate].
    destruct (recv_all st p (all_recvs (firstn h (log ps))) r) as [ms|]; [|discriminate].
    destruct (b || sends_matched st p (all_sends (firstn h (log ps))) s); [|discriminate].
    intros H; injection H as <-. exists ps; eexists; exists []. split; [|split]; auto. rewrite app_nil_r; auto.
Qed.

Lemma pstep_grows b (st : state) p st' : pstep b st p = Some st' -> grows st st'.
Proof.
  intros H. destruct (pstep_inv _ _ _ _ H) as (ps & ps' & l & Hp & -> & Hl).
  split; [apply upd_length|]. intros q qs Hq.
  destruct (Nat.eq_dec p q) as [<-|Hne].
  - exists ps', l. rewrite nth_error_upd_eq by (eapply nth_error_Some_lt; eauto). split; auto. congruence.
  - exists qs, []. rewrite nth_error_upd_ne by auto. rewrite app_nil_r. auto.
Qed.

(** The next local state of a process depends on the others only monotonically. *)
Lemma pstep_other b (st : state) p st' st2 : pstep b st p = Some st' ->
  grows st st2 -> nth_error st2 p = nth_error st p ->
  exists ps', st' = upd st p ps' /\ pstep b st2 p = Some (upd st2 p ps').
Proof.
  intros H G E. unfold pstep in *. rewrite E.
  destruct (nth_error st p) as [ps|] eqn:Ep; [|discriminate].
  destruct (cur ps) as [a| |s r k|h k] eqn:Ec; try discriminate.
  - injection H as <-. eexists; split; reflexivity.
  - destruct (nth_error (log ps) h) as [[s r]|]; [|discriminate].
    destruct (recv_all st p (all_recvs (firstn h (log ps))) r) as [ms|] eqn:Er; [|discriminate].
    rewrite (recv_all_mono st st2 p G _ _ _ Er).
    destruct (b || sends_matched st p (all_sends (firstn h (log ps))) s) eqn:Es; [|discriminate].
    injection H as <-.
    assert (b || sends_matched st2 p (all_sends (firstn h (log ps))) s = true) as ->.
    { apply orb_true_iff in Es as [->|Es]; auto. rewrite (sends_matched_mono st st2 p G _ _ Es). apply orb_true_r. }
    eexists; split; reflexivity.
Qed.

Lemma pstep_det b1 b2 (st : state) p s1 s2 : pstep b1 st p = Some s1 -> pstep b2 st p = Some s2 -> s1 = s2.
Proof.
  unfold pstep. destruct (nth_error st p) as [ps|]; [|discriminate].
  destruct (cur ps) as [a| |s r k|h k]; try discriminate; [congruence|].
  destruct (nth_error (log ps) h) as [[s r]|]; [|discriminate].
  destruct (recv_all _ _ _ _); [|discriminate].
  destruct (b1 || _); [|discriminate]. destruct (b2 || _); [|discriminate]. congruence.
Qed.

Lemma pstep_diamond b1 b2 (st : state) p q s1 s2 : p <> q ->
  pstep b1 st p = Some s1 -> pstep b2 st q = Some s2 ->
  exists s3, pstep b2 s1 q = Some s3 /\ pstep b1 s2 p = Some s3.
Proof.
  intros Hne H1 H2.
  destruct (pstep_inv _ _ _ _ H1) as (ps & ps' & lp & Hp & E1 & _).
  destruct (pstep_inv _ _ _ _ H2) as (qs & qs' & lq & Hq & E2 & _).
  destruct (pstep_other b1 st p s1 s2 H1) as (x & Ex & Hx).
  { eapply pstep_grows; eauto. } { rewrite E2, nth_error_upd_ne; auto. }
  destruct (pstep_other b2 st q s2 s1 H2) as (y & Ey & Hy).
  { eapply pstep_grows; eauto. } { rewrite E1, nth_error_upd_ne; auto. }
  exists (upd s1 q y). split; auto. rewrite Hx. f_equal. rewrite Ex, Ey. apply upd_comm; auto.
Qed.

Definition done (st : state) : Prop := forall b p, pstep b st p = None.

Lemma finished_done (st : state) rs : finished st rs -> done st.
Proof.
  intros H b p. unfold pstep. destruct (nth_error st p) as [ps|] eqn:Ep; auto.
  unfold finished in H. apply (f_equal (fun l => nth_error l p)) in H.
  rewrite !nth_error_map, Ep in H. simpl in H. destruct (nth_error rs p); [|discriminate].
  simpl in H. injection H as ->. auto.
Qed.

Lemma step_absorb : forall sync (st fin : state), exec st (unbuffered sync) = Some fin -> done fin ->
  forall b p st1, pstep b st p = Some st1 ->
  exists sync', exec st1 (unbuffered sync') = Some fin /\ length sync = S (length sync').
Proof.
  induction sync as [|q sync IH]; intros st fin H D b p st1 Hs; cbn [unbuffered map exec] in H.
  - injection H as ->. rewrite D in Hs. discriminate.
  - destruct (pstep false st q) as [s2|] eqn:E2; [|discriminate].
    destruct (Nat.eq_dec p q) as [->|Hne].
    + exists sync. split; auto. rewrite (pstep_det _ _ _ _ _ _ Hs E2). auto.
    + destruct (pstep_diamond b false st p q st1 s2 Hne Hs E2) as (s3 & H3 & H3').
      destruct (IH s2 fin H D b p s3 H3') as (sync' & Hx & Hl).
      exists (q :: sync'). split; [|simpl; lia]. cbn [unbuffered map exec]. rewrite H3. auto.
Qed.

Lemma exec_absorb : forall sched (st st' : state) sync fin, exec st sched = Some st' ->
  exec st (unbuffered sync) = Some fin -> done fin ->
  exists rest, exec st' (unbuffered rest) = Some fin /\ length sched + length rest = length sync.
Proof.
  induction sched as [|[p b] sched IH]; intros st st' sync fin H Hs D; cbn [exec] in H.
  - injection H as <-. exists sync. auto.
  - destruct (pstep b st p) as [s1|] eqn:E1; [|discriminate].
    destruct (step_absorb sync st fin Hs D b p s1 E1) as (sync' & Hx & Hl).
    destruct (IH s1 st' sync' fin H Hx D) as (rest & Hr & Hlen).
    exists rest. split; auto. simpl. lia.
Qed.

Theorem one_schedule_decides (ps : list (prog W A)) sync fin rs :
  exec (start ps) (unbuffered sync) = Some fin -> finished fin rs -> always_returns ps rs.
Proof.
  intros H F. exists (length sync). intros sched st Hs.
  destruct (exec_absorb sched _ st sync fin Hs H) as (rest & Hr & Hl); [eapply finished_done; eauto|].
  exists rest, fin. auto.
Qed.

(** From any one complete schedule, with any buffering: every schedule is a prefix of a
    complete one of the same length with the same result -- provided the unbuffered
    completion exists.  Consequences of [always_returns]: *)
Lemma always_returns_unique (ps : list (prog W A)) rs : always_returns ps rs ->
  forall sched st rs', exec (start ps) sched = Some st -> finished st rs' -> rs' = rs.
Proof.
  intros [n H] sched st rs' E F. destruct (H sched st E) as (rest & fin & Hr & Hf & _).
  destruct rest as [|p rest].
  - simpl in Hr. injection Hr as ->. unfold finished in *. rewrite F in Hf.
    clear -Hf. revert rs Hf; induction rs' as [|x l IH]; intros [|y rs] H; try discriminate; auto.
    simpl in H. injection H as -> H. f_equal; auto.
  - simpl in Hr. rewrite (finished_done st rs' F) in Hr. discriminate.
Qed.

Lemma always_returns_no_deadlock (ps : list (prog W A)) rs : always_returns ps rs ->
  forall sched st, exec (start ps) sched = Some st ->
  (forall p, pstep false st p = None) -> finished st rs.
Proof.
  intros [n H] sched st E D. destruct (H sched st E) as (rest & fin & Hr & Hf & _).
  destruct rest as [|p rest].
  - simpl in Hr. injection Hr as ->. auto.
  - simpl in Hr. rewrite D in Hr. discriminate.
Qed.
End NetProof.

(** ** Running matched rounds *)
Section Rounds.
Context {W : Type}.
Variable np : nat.

(** The members of S exchange exactly the messages they expect from each other. *)
Record matched (S : nat -> bool) (s : nat -> list (@send W)) (r : nat -> list recv)
  (ms : nat -> list (list W)) : Prop := {
  m_nds : forall p, p < np -> S p = true -> NoDup (map fst (s p));
  m_ndr : forall p, p < np -> S p = true -> NoDup (map fst (r p));
  m_send : forall p q t m, p < np -> S p = true -> In (q, t, m) (s p) ->
    q < np /\ S q = true /\ exists cap, In (p, t, cap) (r q);
  m_recv : forall q, q < np -> S q = true ->
    Forall2 (fun x m => fst (fst x) < np /\ S (fst (fst x)) = true /\
                        In (q, snd (fst x), m) (s (fst (fst x))) /\ length m <= snd x) (r q) (ms q) }.

Definition balanced {A} (st : list (pstate W A)) : Prop :=
  forall p q t ps qs, nth_error st p = Some ps -> nth_error st q = Some qs ->
    length (sent_on (q, t) (all_sends (log ps))) = reqs_on (p, t) (all_recvs (log qs)).

Record repr {A} (st : list (pstate W A)) (P : nat -> prog W A) (B : nat -> list (list (list W)))
  : Prop := {
  r_len : length st = np;
  r_bal : balanced st;
  r_proc : forall p, p < np -> exists L, nth_error st p = Some (PS (P p) L) /\
     length L = length (B p) /\
     (forall q t m, In (q, t, m) (all_sends L) -> q < np) /\
     (forall h s r, nth_error L h = Some (s, r) ->
        recv_all st p (all_recvs (firstn h L)) r = nth_error (B p) h) }.

Definition goesB {A} (P : nat -> prog W A) B (Q : nat -> prog W A) B' : Prop :=
  forall st, repr st P B -> exists sched st', exec st (unbuffered sched) = Some st' /\ repr st' Q B'.

Definition goes {A} (P Q : nat -> prog W A) : Prop :=
  forall B st, repr st P B -> exists B' sched st', exec st (unbuffered sched) = Some st' /\ repr st' Q B'.

Lemma goesB_goes {A} (P Q : nat -> prog W A) : (forall B, exists B', goesB P B Q B') -> goes P Q.
Proof.
  intros H B st Hr. destruct (H B) as [B' G]. destruct (G st Hr) as (sched & st' & E & R). eauto.
Qed.

Lemma exec_app {A} (st : list (pstate W A)) l1 l2 :
  exec st (l1 ++ l2) = match exec st l1 with Some st' => exec st' l2 | None => None end.
Proof.
  revert st; induction l1 as [|[p b] l1 IH]; intros st; cbn [exec app]; auto.
  destruct (pstep b st p); auto.
Qed.

Lemma unbuffered_app l1 l2 : unbuffered (l1 ++ l2) = unbuffered l1 ++ unbuffered l2.
Proof. apply map_app. Qed.

Lemma goesB_trans {A} (P Q R : nat -> prog W A) B B' B'' :
  goesB P B Q B' -> goesB Q B' R B'' -> goesB P B R B''.
Proof.
  intros H1 H2 st Hr. destruct (H1 st Hr) as (s1 & st1 & E1 & R1).
  destruct (H2 st1 R1) as (s2 & st2 & E2 & R2).
  exists (s1 ++ s2), st2. rewrite unbuffered_app, exec_app, E1. auto.
Qed.

Lemma goes_trans {A} (P Q R : nat -> prog W A) : goes P Q -> goes Q R -> goes P R.
Proof.
  intros H1 H2 B st Hr. destruct (H1 B st Hr) as (B1 & s1 & st1 & E1 & R1).
  destruct (H2 B1 st1 R1) as (B2 & s2 & st2 & E2 & R2).
  exists B2, (s1 ++ s2), st2. rewrite unbuffered_app, exec_app, E1. auto.
Qed.

Lemma repr_ext {A} (P Q : nat -> prog W A) B B' st :
  (forall p, p < np -> Q p = P p) -> (forall p, p < np -> B' p = B p) -> repr st P B -> repr st Q B'.
Proof.
  intros E1 E2 [H1 H2 H3]. constructor; auto. intros p Hp. rewrite E1, E2 by auto. apply H3; auto.
Qed.

Lemma goes_ext {A} (P Q : nat -> prog W A) : (forall p, p < np -> Q p = P p) -> goes P Q.
Proof.
  intros E B st Hr. exists B, [], st. split; auto. eapply repr_ext; eauto.
Qed.

Lemma goes_refl {A} (P : nat -> prog W A) : goes P P.
Proof. apply goes_ext; auto. Qed.

(** Move all members of S, each by one step that does not depend on the others. *)
Lemma exec_each {A} (S : nat -> bool) (f : nat -> pstate W A -> pstate W A) (st : list (pstate W A)) :
  (forall p st1 ps, S p = true -> length st1 = length st ->
     nth_error st1 p = Some ps -> nth_error st p = Some ps ->
     (forall q qs, nth_error st1 q = Some qs ->
        nth_error st q = Some qs \/ exists qs0, nth_error st q = Some qs0 /\ qs = f q qs0) ->
     pstep false st1 p = Some (upd st1 p (f p ps))) ->
  forall n, n <= length st -> exists st1, exec st (unbuffered (filter S (seq 0 n))) = Some st1 /\
    length st1 = length st /\
    forall p ps, nth_error st p = Some ps ->
      nth_error st1 p = Some (if (p <? n) && S p then f p ps else ps).
Proof.
  intros Hstep. induction n as [|n IH]; intros Hn.
  - exists st. split; auto.
  - destruct IH as (st1 & E & L & H); [lia|].
    rewrite seq_S, filter_app, unbuffered_app, exec_app, E. cbn [filter Nat.add].
    destruct (nth_error_lt_Some st n) as [ps Hps]; [lia|].
    destruct (S n) eqn:ES.
    + cbn [unbuffered map exec].
      assert (Hn1 : nth_error st1 n = Some ps).
      { rewrite (H n ps Hps). destruct (Nat.ltb_spec n n); [lia|]. auto. }
      rewrite (Hstep n st1 ps); auto.
      * eexists. split; [reflexivity|]. rewrite upd_length. split; auto.
        intros p qs Hq. rewrite nth_error_upd, L.
        destruct (Nat.eqb_spec n p) as [<-|Hne].
        -- destruct (Nat.ltb_spec n (length st)); [|lia]. cbn [andb].
           destruct (Nat.ltb_spec n (Datatypes.S n)); [|lia]. rewrite ES. cbn [andb]. congruence.
        -- cbn [andb]. rewrite (H p qs Hq).
           destruct (Nat.ltb_spec p n), (Nat.ltb_spec p (Datatypes.S n)); auto; lia.
      * intros q qs Hq. destruct (nth_error_lt_Some st q) as [qs0 Hq0].
        { rewrite <- L. eapply nth_error_Some_lt; eauto. }
        rewrite (H q qs0 Hq0) in Hq. injection Hq as <-.
        destruct ((q <? n) && S q); eauto.
    + cbn [unbuffered map exec]. exists st1. split; auto. split; auto.
      intros p qs Hq. rewrite (H p qs Hq).
      destruct (Nat.eqb_spec p n) as [->|Hne].
      * rewrite ES, !andb_false_r. auto.
      * destruct (Nat.ltb_spec p n), (Nat.ltb_spec p (Datatypes.S n)); auto; lia.
Qed.

Lemma key_eqb_eq a b : key_eqb a b = true <-> a = b.
Proof. destruct a as [a1 a2], b as [b1 b2]. unfold key_eqb. simpl. split; [|intros H; injection H as -> ->]; try lia.
  intros H. f_equal; lia. Qed.

Lemma sent_on_none c (s : list (@send W)) : ~ In c (map fst s) -> sent_on c s = [].
Proof.
  intros H. unfold sent_on. induction s as [|x s IH]; simpl; auto. simpl in H.
  destruct (key_eqb (fst x) c) eqn:E; [apply key_eqb_eq in E; exfalso; auto|]. apply IH; auto.
Qed.

Lemma sent_on_one (s : list (@send W)) c m : NoDup (map fst s) -> In (c, m) s -> sent_on c s = [m].
Proof.
  induction s as [|x s IH]; intros ND Hin; [easy|]. simpl in ND. apply NoDup_cons_iff in ND as [N1 N2].
  unfold sent_on. simpl. destruct Hin as [->|Hin]; cbn [fst].
  - assert (E : key_eqb c c = true) by (apply key_eqb_eq; auto). rewrite E. simpl.
    f_equal. apply (sent_on_none c s); auto.
  - destruct (key_eqb (fst x) c) eqn:E.
    + apply key_eqb_eq in E. subst c. exfalso. apply N1. apply (in_map fst) in Hin. auto.
    + apply IH; auto.
Qed.

Lemma reqs_on_none c r : ~ In c (map fst r) -> reqs_on c r = 0.
Proof.
  intros H. unfold reqs_on. induction r as [|x r IH]; simpl; auto. simpl in H.
  destruct (key_eqb (fst x) c) eqn:E; [apply key_eqb_eq in E; exfalso; auto|]. apply IH; auto.
Qed.

Lemma reqs_on_one r c cap : NoDup (map fst r) -> In (c, cap) r -> reqs_on c r = 1.
Proof.
  induction r as [|x r IH]; intros ND Hin; [easy|]. simpl in ND. apply NoDup_cons_iff in ND as [N1 N2].
  unfold reqs_on. simpl. destruct Hin as [->|Hin]; cbn [fst].
  - assert (E : key_eqb c c = true) by (apply key_eqb_eq; auto). rewrite E. simpl.
    f_equal. apply (reqs_on_none c r); auto.
  - destruct (key_eqb (fst x) c) eqn:E.
    + apply key_eqb_eq in E. subst c. exfalso. apply N1. apply (in_map fst) in Hin. auto.
    + apply IH; auto.
Qed.

Lemma all_sends_one (s : list (@send W)) r : all_sends [(s, r)] = s.
Proof. unfold all_sends. simpl. apply app_nil_r. Qed.
Lemma all_recvs_one (s : list (@send W)) r : all_recvs [(s, r)] = r.
Proof. unfold all_recvs. simpl. apply app_nil_r. Qed.

(** In a balanced state every posted send has its receive posted. *)
Lemma balanced_matched {A} (st : list (pstate W A)) p ps : balanced st -> nth_error st p = Some ps ->
  (forall q t m, In (q, t, m) (all_sends (log ps)) -> q < length st) ->
  forall s before after, all_sends (log ps) = before ++ s ++ after -> sends_matched st p before s = true.
Proof.
  intros Bal Hp Hd. induction s as [|[[q t] m] s IH]; intros before after E; cbn [sends_matched]; auto.
  assert (Hq : q < length st).
  { apply (Hd q t m). rewrite E. apply in_or_app. right. left. auto. }
  destruct (nth_error_lt_Some st q Hq) as [qs Hqs]. rewrite Hqs.
  rewrite <- (Bal p q t ps qs Hp Hqs), E, !sent_on_app, !app_length.
  assert (E1 : length (sent_on (q, t) (((q, t), m) :: s)) = Datatypes.S (length (sent_on (q, t) s))).
  { unfold sent_on. simpl. assert (X : key_eqb (q, t) (q, t) = true) by (apply key_eqb_eq; auto).
    rewrite X. auto. }
  change ((q, t, m) :: s) with (((q, t), m) :: s). cbn [app] in E1 |- *.
  rewrite E1. rewrite (IH (before ++ [(q, t, m)]) after); [lia|].
  rewrite E, <- app_assoc. auto.
Qed.

Lemma firstn_split_sends (L : list (@group W)) h s r : nth_error L h = Some (s, r) ->
  all_sends L = all_sends (firstn h L) ++ s ++ all_sends (skipn (S h) L).
Proof.
  intros H. rewrite <- (firstn_skipn h L) at 1. rewrite all_sends_app. f_equal.
  rewrite (skipn_cons _ _ _ H). unfold all_sends. simpl. auto.
Qed.

Lemma goesB_wait {A} (S : nat -> bool) (P Q : nat -> prog W A) B h k ms :
  (forall p, p < np -> S p = false -> Q p = P p) ->
  (forall p, p < np -> S p = true -> P p = Wait (h p) (k p) /\ nth_error (B p) (h p) = Some (ms p) /\
                                    Q p = k p (ms p)) ->
  goesB P B Q B.
Proof.
  intros Hno Hyes st [Hlen Hbal Hproc].
  destruct (exec_each S (fun p ps => PS (Q p) (log ps)) st) with (n := length st)
    as (st1 & E & L1 & H1); auto.
  - intros p st1 ps HS HL Hp1 Hp Hold.
    assert (Hpn : p < np) by (rewrite <- Hlen; eapply nth_error_Some_lt; eauto).
    destruct (Hproc p Hpn) as (L & Hst & HLB & Hdst & Hrecv).
    rewrite Hp in Hst. injection Hst as ->.
    destruct (Hyes p Hpn HS) as (EP & EB & EQ).
    unfold pstep. rewrite Hp1. cbn [cur log]. rewrite EP.
    destruct (nth_error_lt_Some L (h p)) as [[s r] Hg].
    { rewrite HLB. eapply nth_error_Some_lt; eauto. }
    rewrite Hg.
    assert (G : grows st st1).
    { split; auto. intros q qs Hq. destruct (nth_error_lt_Some st1 q) as [qs1 Hq1].
      { rewrite HL. eapply nth_error_Some_lt; eauto. }
      exists qs1, []. split; auto. rewrite app_nil_r.
      destruct (Hold q qs1 Hq1) as [X|(qs0 & X & ->)]; [congruence|]. simpl. congruence. }
    rewrite (recv_all_mono st st1 p G _ _ (ms p)) by (rewrite (Hrecv _ _ _ Hg); auto).
    assert (Bal1 : balanced st1).
    { intros a b t as1 bs1 Ha Hb.
      destruct (Hold a as1 Ha) as [Xa|(as0 & Xa & ->)], (Hold b bs1 Hb) as [Xb|(bs0 & Xb & ->)];
        cbn [log]; eapply Hbal; eauto. }
    rewrite (balanced_matched st1 p (PS (P p) L)) with (after := all_sends (skipn (Datatypes.S (h p)) L));
      auto.
    + cbn [orb]. rewrite EQ. auto.
    + intros q t m Hin. rewrite HL, Hlen. eapply Hdst; eauto.
    + cbn [log]. eapply firstn_split_sends; eauto.
  - exists (filter S (seq 0 (length st))), st1. split; auto.
    assert (H2 : forall p ps, nth_error st p = Some ps -> nth_error st1 p =
              Some (if S p then PS (Q p) (log ps) else ps)).
    { intros p ps Hp. rewrite (H1 p ps Hp). apply nth_error_Some_lt in Hp.
      destruct (Nat.ltb_spec p (length st)); [|lia]. auto. }
    assert (HB : forall p, p < np -> exists ps1, nth_error st1 p = Some ps1).
    { intros p Hp. apply nth_error_lt_Some. lia. }
    assert (G : grows st st1).
    { split; auto. intros q qs Hq. eexists _, []. split; [apply H2; eauto|].
      destruct (S q); simpl; rewrite app_nil_r; auto. }
    constructor; [lia| |].
    + intros a b t as1 bs1 Ha Hb.
      destruct (nth_error_lt_Some st a) as [as0 Ha0]; [rewrite <- L1; eapply nth_error_Some_lt; eauto|].
      destruct (nth_error_lt_Some st b) as [bs0 Hb0]; [rewrite <- L1; eapply nth_error_Some_lt; eauto|].
      rewrite (H2 _ _ Ha0) in Ha. rewrite (H2 _ _ Hb0) in Hb. injection Ha as <-. injection Hb as <-.
      destruct (S a), (S b); cbn [log]; eapply Hbal; eauto.
    + intros p Hp. destruct (Hproc p Hp) as (L & Hst & HLB & Hdst & Hrecv).
      exists L. rewrite (H2 _ _ Hst). cbn [log]. split; [|split; [|split]]; auto.
      * destruct (S p) eqn:ES; auto. rewrite Hno; auto.
      * intros h0 s r Hg. specialize (Hrecv h0 s r Hg).
        destruct (nth_error (B p) h0) as [m0|] eqn:EB.
        -- eapply recv_all_mono; eauto.
        -- exfalso. apply nth_error_None in EB. apply nth_error_Some_lt in Hg. lia.
Qed.

Lemma goesB_post {A} (S : nat -> bool) (P Q : nat -> prog W A) B B' s r k ms :
  matched S s r ms ->
  (forall p, p < np -> S p = false -> Q p = P p /\ B' p = B p) ->
  (forall p, p < np -> S p = true -> P p = Post (s p) (r p) (k p) /\ B' p = B p ++ [ms p] /\
                                    Q p = k p (length (B p))) ->
  goesB P B Q B'.
Proof.
  intros [NDs NDr Msend Mrecv] Hno Hyes st [Hlen Hbal Hproc].
  destruct (exec_each S (fun p ps => PS (Q p) (log ps ++ [(s p, r p)])) st) with (n := length st)
    as (st1 & E & L1 & H1); auto.
  - intros p st1 ps HS HL Hp1 Hp Hold.
    assert (Hpn : p < np) by (rewrite <- Hlen; eapply nth_error_Some_lt; eauto).
    destruct (Hproc p Hpn) as (L & Hst & HLB & Hdst & Hrecv).
    rewrite Hp in Hst. injection Hst as ->.
    destruct (Hyes p Hpn HS) as (EP & EB & EQ).
    unfold pstep. rewrite Hp1. cbn [cur log]. rewrite EP. rewrite HLB, EQ. auto.
  - exists (filter S (seq 0 (length st))), st1. split; auto.
    assert (H2 : forall p L, p < np -> nth_error st p = Some (PS (P p) L) -> nth_error st1 p =
              Some (PS (Q p) (if S p then L ++ [(s p, r p)] else L))).
    { intros p L Hpn Hp. rewrite (H1 p _ Hp).
      destruct (Nat.ltb_spec p (length st)); [|lia]. cbn [andb log]. destruct (S p) eqn:ES; auto.
      destruct (Hno p Hpn ES) as [-> _]. auto. }
    assert (G : grows st st1).
    { split; auto. intros q qs Hq. rewrite (H1 q qs Hq).
      destruct ((q <? length st) && S q); eexists; eexists; (split; [reflexivity|]); cbn [log]; [reflexivity|].
      rewrite app_nil_r; auto. }
    assert (Enew_s : forall p q t, p < np -> S p = true -> (q < np -> S q = true -> False) -> sent_on (q, t) (s p) = []).
    { intros p q t Hp HS Hq. apply sent_on_none. intros Hin. apply in_map_iff in Hin as ([[q' t'] m] & Eq & Hin).
      simpl in Eq. injection Eq as -> ->. destruct (Msend p q t m Hp HS Hin) as (X1 & X2 & _). auto. }
    assert (Enew_r : forall q p t, q < np -> S q = true -> (p < np -> S p = true -> False) -> reqs_on (p, t) (r q) = 0).
    { intros q p t Hq HS Hp. apply reqs_on_none. intros Hin. apply in_map_iff in Hin as ([[p' t'] cap] & Eq & Hin).
      simpl in Eq. injection Eq as -> ->.
      specialize (Mrecv q Hq HS). clear -Mrecv Hin Hp.
      induction Mrecv as [|x m l l' Hx _ IH]; [easy|]. destruct Hin as [->|Hin]; auto.
      simpl in Hx. destruct Hx as (X1 & X2 & _). auto. }
    assert (Ein_r : forall q p t cap, q < np -> S q = true -> In (p, t, cap) (r q) ->
       exists m, p < np /\ S p = true /\ In (q, t, m) (s p)).
    { intros q p t cap Hq HS Hin. specialize (Mrecv q Hq HS). clear -Mrecv Hin.
      induction Mrecv as [|x m l l' Hx _ IH]; [easy|]. destruct Hin as [->|Hin]; auto.
      simpl in Hx. destruct Hx as (X1 & X2 & X3 & _). eauto. }
    assert (Enew : forall p q t, p < np -> q < np -> S p = true -> S q = true ->
       length (sent_on (q, t) (s p)) = reqs_on (p, t) (r q)).
    { intros p q t Hp Hq HSp HSq.
      destruct (in_dec (fun a b : nat * nat => ltac:(decide equality; apply Nat.eq_dec)) (q, t) (map fst (s p))) as [Hin|Hnin].
      - apply in_map_iff in Hin as ([c m] & Ec & Hin). simpl in Ec. subst c.
        destruct (Msend p q t m Hp HSp Hin) as (_ & _ & cap & Hr).
        rewrite (sent_on_one _ _ m); auto. rewrite (reqs_on_one _ (p, t) cap); auto.
      - rewrite sent_on_none by auto. symmetry. apply reqs_on_none. intros Hin.
        apply in_map_iff in Hin as ([c cap] & Ec & Hin). simpl in Ec. subst c.
        destruct (Ein_r q p t cap Hq HSq Hin) as (m & _ & _ & Hs). apply Hnin. apply (in_map fst) in Hs. auto. }
    constructor; [lia| |].
    + intros a b t as1 bs1 Ha Hb.
      assert (Han : a < np) by (rewrite <- Hlen, <- L1; eapply nth_error_Some_lt; eauto).
      assert (Hbn : b < np) by (rewrite <- Hlen, <- L1; eapply nth_error_Some_lt; eauto).
      destruct (Hproc a Han) as (La & Hsta & _). destruct (Hproc b Hbn) as (Lb & Hstb & _).
      rewrite (H2 a La Han Hsta) in Ha. rewrite (H2 b Lb Hbn Hstb) in Hb.
      injection Ha as <-. injection Hb as <-. cbn [log].
      pose proof (Hbal a b t _ _ Hsta Hstb) as E0. cbn [log] in E0.
      destruct (S a) eqn:Sa, (S b) eqn:Sb; rewrite ?all_sends_app, ?all_recvs_app, ?sent_on_app, ?reqs_on_app,
        ?all_sends_one, ?all_recvs_one, ?app_length.
      * rewrite Enew by auto. lia.
      * rewrite Enew_s by (auto; congruence). simpl. lia.
      * rewrite Enew_r by (auto; congruence). lia.
      * auto.
    + intros p Hp. destruct (Hproc p Hp) as (L & Hst & HLB & Hdst & Hrecv).
      exists (if S p then L ++ [(s p, r p)] else L). split; [|split; [|split]].
      * apply H2; auto.
      * destruct (S p) eqn:ES; [destruct (Hyes p Hp ES) as (_ & -> & _)|destruct (Hno p Hp ES) as (_ & ->)]; auto.
        rewrite !app_length. simpl. lia.
      * intros q t m Hin. destruct (S p) eqn:ES; [|eapply Hdst; eauto].
        rewrite all_sends_app, all_sends_one in Hin. apply in_app_or in Hin as [Hin|Hin]; [eapply Hdst; eauto|].
        eapply Msend; eauto.
      * intros h0 s0 r0 Hg.
        assert (Old : nth_error L h0 = Some (s0, r0) ->
                      recv_all st1 p (all_recvs (firstn h0 L)) r0 = nth_error (B p) h0).
        { intros Hg'. specialize (Hrecv _ _ _ Hg'). destruct (nth_error (B p) h0) as [m0|] eqn:EB.
          - eapply recv_all_mono; eauto.
          - exfalso. apply nth_error_None in EB. apply nth_error_Some_lt in Hg'. lia. }
        destruct (S p) eqn:ES; [destruct (Hyes p Hp ES) as (_ & -> & _)|destruct (Hno p Hp ES) as (_ & ->)]; auto.
        destruct (lt_dec h0 (length L)) as [Hh|Hh].
        -- rewrite nth_error_app1 in Hg by auto. rewrite nth_error_app1 by lia.
           rewrite firstn_app. replace (h0 - length L) with 0 by lia. rewrite firstn_O, app_nil_r. auto.
        -- assert (h0 = length L).
           { apply nth_error_Some_lt in Hg. rewrite app_length in Hg. simpl in Hg. lia. }
           subst h0. rewrite nth_error_app2, Nat.sub_diag in Hg by lia. injection Hg as <- <-.
           rewrite nth_error_app2, HLB, Nat.sub_diag by lia. rewrite <- HLB. simpl.
           rewrite firstn_app, Nat.sub_diag, firstn_all. simpl. rewrite app_nil_r.
           specialize (Mrecv p Hp ES).
           assert (Gen : forall r0 ms0 pre, Forall2 (fun x m => fst (fst x) < np /\ S (fst (fst x)) = true /\
                        In (p, snd (fst x), m) (s (fst (fst x))) /\ length m <= snd x) r0 ms0 ->
                      NoDup (map fst (pre ++ r0)) -> recv_all st1 p (all_recvs L ++ pre) r0 = Some ms0).
           { clear Mrecv. intros r0 ms0 pre HF. revert pre.
             induction HF as [|[[q t] cap] m r0 ms0 Hx HF IH]; intros pre ND; cbn [recv_all]; auto.
             cbn [fst snd] in Hx. destruct Hx as (X1 & X2 & X3 & X4).
             destruct (Hproc q X1) as (Lq & Hstq & _).
             rewrite (H2 q Lq X1 Hstq), X2. cbn [log].
             rewrite all_sends_app, all_sends_one, sent_on_app, reqs_on_app.
             pose proof (Hbal q p t _ _ Hstq Hst) as E0. cbn [log] in E0.
             rewrite <- E0. rewrite (reqs_on_none (q, t) pre).
             2:{ rewrite map_app in ND. cbn [map fst] in ND. apply NoDup_remove_2 in ND.
                 intros Hin; apply ND; apply in_or_app; auto. }
             rewrite Nat.add_0_r, nth_error_app2, Nat.sub_diag by lia.
             rewrite (sent_on_one _ (p, t) m) by auto. cbn [nth_error].
             destruct (Nat.leb_spec (length m) cap); [|lia].
             rewrite <- app_assoc, IH; auto. rewrite <- app_assoc. auto. }
           rewrite <- (app_nil_r (all_recvs L)). apply (Gen (r p) (ms p) []); auto. simpl. auto.
Qed.

(** A matched round of post-and-wait. *)
Lemma goes_comm {A} (S : nat -> bool) (P Q : nat -> prog W A) s r k ms :
  matched S s r ms ->
  (forall p, p < np -> S p = false -> Q p = P p) ->
  (forall p, p < np -> S p = true -> P p = comm (s p) (r p) (k p) /\ Q p = k p (ms p)) ->
  goes P Q.
Proof.
  intros HM Hno Hyes. apply goesB_goes. intros B.
  set (B' := fun p => if S p then B p ++ [ms p] else B p).
  set (P1 := fun p => if S p then Wait (length (B p)) (k p) else P p).
  exists B'. apply goesB_trans with P1 B'.
  - eapply (goesB_post S P P1 B B' s r (fun p h => Wait h (k p)) ms); auto.
    + intros p Hp HS. unfold P1, B'. rewrite HS. auto.
    + intros p Hp HS. unfold P1, B'. rewrite HS. destruct (Hyes p Hp HS) as [-> _]. auto.
  - apply (goesB_wait S P1 Q B' (fun p => length (B p)) k ms).
    + intros p Hp HS. unfold P1. rewrite HS. auto.
    + intros p Hp HS. unfold P1, B'. rewrite HS. destruct (Hyes p Hp HS) as [_ ->].
      split; auto. split; auto. rewrite nth_error_app2, Nat.sub_diag by lia. auto.
Qed.
End Rounds.

(** ** From rounds to [always_returns] *)
Lemma goes_always {W A} (P : nat -> prog W A) np (rs : list A) :
  length rs = np ->
  goes np P (fun p => match nth_error rs p with Some x => Ret x | None => Stop end) ->
  always_returns (map P (seq 0 np)) rs.
Proof.
  intros HL H.
  destruct (H (fun _ => []) (start (map P (seq 0 np)))) as (B' & sched & fin & E & [Hlen Hbal Hproc]).
  - constructor.
    + unfold start. rewrite !map_length, seq_length. auto.
    + intros p q t ps qs Hp Hq. unfold start in *. rewrite nth_error_map in Hp, Hq.
      destruct (nth_error (map P (seq 0 np)) p); [|discriminate]. destruct (nth_error (map P (seq 0 np)) q); [|discriminate].
      simpl in *. injection Hp as <-. injection Hq as <-. auto.
    + intros p Hp. exists []. split; [|split; [|split]]; auto.
      * unfold start. rewrite nth_error_map, nth_error_map, seq_nth_error by auto. auto.
      * intros q t m [].
      * intros [|h] s r; discriminate.
  - eapply one_schedule_decides; eauto. unfold finished. apply nth_error_ext. intros p.
    rewrite !nth_error_map. destruct (lt_dec p np) as [Hp|Hp].
    + destruct (Hproc p Hp) as (L & -> & _). simpl. destruct (nth_error_lt_Some rs p) as [x ->]; [lia|]. auto.
    + rewrite !(proj2 (nth_error_None _ _)) by lia. auto.
Qed.

(** ** Sequential composition *)
Section Bind.
Context {W A C : Type}.
Variable np : nat.
Variable K : nat -> A -> prog W C.

Definition stbind (st : list (pstate W A)) : list (pstate W C) :=
  map (fun x => PS (pbind (cur (snd x)) (K (fst x))) (log (snd x))) (combine (seq 0 (length st)) st).

Lemma nth_error_combine_seq {X} (l : list X) : forall s p,
  nth_error (combine (seq s (length l)) l) p =
  match nth_error l p with Some x => Some (s + p, x) | None => None end.
Proof.
  induction l as [|x l IH]; intros s p; destruct p; simpl; auto.
  - rewrite Nat.add_0_r; auto.
  - rewrite IH. replace (S s + p) with (s + S p) by lia. auto.
Qed.

Lemma nth_error_stbind st p : nth_error (stbind st) p =
  match nth_error st p with Some ps => Some (PS (pbind (cur ps) (K p)) (log ps)) | None => None end.
Proof.
  unfold stbind. rewrite nth_error_map, nth_error_combine_seq.
  destruct (nth_error st p); auto.
Qed.

Lemma stbind_upd st p ps : stbind (upd st p ps) = upd (stbind st) p (PS (pbind (cur ps) (K p)) (log ps)).
Proof.
  apply nth_error_ext. intros q. rewrite nth_error_stbind, !nth_error_upd, nth_error_stbind.
  assert (L : length (stbind st) = length st)
    by (unfold stbind; rewrite map_length, combine_length, seq_length; lia).
  rewrite L. destruct (Nat.eqb_spec p q) as [<-|Hne]; simpl; auto.
  destruct (p <? length st); auto.
Qed.

Lemma stbind_length st : length (stbind st) = length st.
Proof. unfold stbind; rewrite map_length, combine_length, seq_length; lia. Qed.

Lemma recv_all_stbind st q r : forall before, recv_all (stbind st) q before r = recv_all st q before r.
Proof.
  induction r as [|[[p t] cap] r IH]; intros before; cbn [recv_all]; auto.
  rewrite nth_error_stbind. destruct (nth_error st p); auto. cbn [log].
  destruct (nth_error _ _); auto. rewrite IH. auto.
Qed.

Lemma sends_matched_stbind st p s : forall before, sends_matched (stbind st) p before s = sends_matched st p before s.
Proof.
  induction s as [|[[q t] m] s IH]; intros before; cbn [sends_matched]; auto.
  rewrite nth_error_stbind. destruct (nth_error st q); auto. cbn [log]. rewrite IH. auto.
Qed.

Lemma pstep_stbind b st p st' : pstep b st p = Some st' -> pstep b (stbind st) p = Some (stbind st').
Proof.
  unfold pstep. rewrite nth_error_stbind. destruct (nth_error st p) as [ps|] eqn:Ep; [|discriminate].
  cbn [cur log]. destruct (cur ps) as [a| |s r k|h k] eqn:Ec; try discriminate; cbn [pbind].
  - intros H; injection H as <-. rewrite stbind_upd. auto.
  - destruct (nth_error (log ps) h) as [[s r]|]; [|discriminate].
    rewrite recv_all_stbind. destruct (recv_all st p _ r) as [ms|]; [|discriminate].
    rewrite sends_matched_stbind. destruct (b || _); [|discriminate].
    intros H; injection H as <-. rewrite stbind_upd. auto.
Qed.

Lemma exec_stbind sched : forall st st', exec st sched = Some st' -> exec (stbind st) sched = Some (stbind st').
Proof.
  induction sched as [|[p b] sched IH]; intros st st' H; cbn [exec] in *.
  - injection H as ->; auto.
  - destruct (pstep b st p) as [s1|] eqn:E; [|discriminate]. rewrite (pstep_stbind _ _ _ _ E). auto.
Qed.

Lemma repr_stbind st P B : repr np st P B -> repr np (stbind st) (fun p => pbind (P p) (K p)) B.
Proof.
  intros [H1 H2 H3]. constructor.
  - rewrite stbind_length; auto.
  - intros p q t ps qs Hp Hq. rewrite nth_error_stbind in Hp, Hq.
    destruct (nth_error st p) as [ps0|] eqn:Ep; [|discriminate]. injection Hp as <-.
    destruct (nth_error st q) as [qs0|] eqn:Eq; [|discriminate]. injection Hq as <-. cbn [log]. eapply H2; eauto.
  - intros p Hp. destruct (H3 p Hp) as (L & E & HL & Hd & Hr). exists L.
    rewrite nth_error_stbind, E. cbn [cur log]. split; [|split; [|split]]; auto.
    intros h s r Hg. rewrite recv_all_stbind. eauto.
Qed.

(** Undo: a state whose programs are known, with the same logs. *)
Definition relabel (P : nat -> prog W A) (st : list (pstate W C)) : list (pstate W A) :=
  map (fun x => PS (P (fst x)) (log (snd x))) (combine (seq 0 (length st)) st).

Lemma nth_error_relabel P st p : nth_error (relabel P st) p =
  match nth_error st p with Some ps => Some (PS (P p) (log ps)) | None => None end.
Proof.
  unfold relabel. rewrite nth_error_map, nth_error_combine_seq. destruct (nth_error st p); auto.
Qed.

Lemma recv_all_relabel P st q r : forall before, recv_all (relabel P st) q before r = recv_all st q before r.
Proof.
  induction r as [|[[p t] cap] r IH]; intros before; cbn [recv_all]; auto.
  rewrite nth_error_relabel. destruct (nth_error st p); auto. cbn [log].
  destruct (nth_error _ _); auto. rewrite IH. auto.
Qed.

Lemma goes_bind' P Q : goes np P Q ->
  goes np (fun p => pbind (P p) (K p)) (fun p => pbind (Q p) (K p)).
Proof.
  intros H B st [H1 H2 H3].
  assert (Hr : repr np (relabel P st) P B).
  { constructor.
    - unfold relabel. rewrite map_length, combine_length, seq_length. lia.
    - intros p q t ps qs Hp Hq. rewrite nth_error_relabel in Hp, Hq.
      destruct (nth_error st p) as [ps0|] eqn:Ep; [|discriminate]. injection Hp as <-.
      destruct (nth_error st q) as [qs0|] eqn:Eq; [|discriminate]. injection Hq as <-. cbn [log]. eapply H2; eauto.
    - intros p Hp. destruct (H3 p Hp) as (L & E & HL & Hd & Hrr). exists L.
      rewrite nth_error_relabel, E. cbn [log]. split; [|split; [|split]]; auto.
      intros h s r Hg. rewrite recv_all_relabel. eauto. }
  destruct (H _ _ Hr) as (B' & sched & st' & E & R').
  exists B', sched, (stbind st'). split; [|apply repr_stbind; auto].
  apply exec_stbind in E. replace (stbind (relabel P st)) with st in E; auto.
  apply nth_error_ext. intros p. rewrite nth_error_stbind, nth_error_relabel.
  destruct (nth_error st p) as [ps|] eqn:Ep; auto. cbn [cur log].
  destruct (H3 p) as (L & E2 & _); [rewrite <- H1; eapply nth_error_Some_lt; eauto|].
  rewrite Ep in E2. injection E2 as ->. auto.
Qed.

Lemma goes_bind P r : goes np P (fun p => Ret (r p)) ->
  goes np (fun p => pbind (P p) (K p)) (fun p => K p (r p)).
Proof.
  exact (goes_bind' P (fun p => Ret (r p))).
Qed.
End Bind.

Lemma goes_always_fun {W A} (P : nat -> prog W A) np (r : nat -> A) :
  goes np P (fun p => Ret (r p)) -> always_returns (map P (seq 0 np)) (map r (seq 0 np)).
Proof.
  intros H. apply goes_always; [rewrite map_length, seq_length; auto|].
  eapply goes_trans; [exact H|]. apply goes_ext. intros p Hp.
  rewrite nth_error_map, seq_nth_error by auto. auto.
Qed.
