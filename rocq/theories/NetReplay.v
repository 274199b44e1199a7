(** One exchange between all processes: if it is known to return when started, it can be run after any others. *)
From Verif Require Import Base BaseLemmas ListLemmas Net NetProof.

Section Replay.
Context {W A : Type}.
Notation state := (list (pstate W A)).

Lemma recv_all_counts (st : state) q r : forall before ms, recv_all st q before r = Some ms ->
  forall p t, reqs_on (p, t) r <> 0 -> exists ps, nth_error st p = Some ps /\
    reqs_on (p, t) (before ++ r) <= length (sent_on (q, t) (all_sends (log ps))).
Proof.
  induction r as [|[[p' t'] cap] r IH]; intros before ms H p t N; [destruct N; auto|]. cbn [recv_all] in H.
  destruct (nth_error st p') as [ps|] eqn:Ep; [|discriminate].
  destruct (nth_error (sent_on (q, t') (all_sends (log ps))) (reqs_on (p', t') before)) as [m|] eqn:Em; [|discriminate].
  destruct (length m <=? cap); [|discriminate].
  destruct (recv_all st q (before ++ [(p', t', cap)]) r) as [ms'|] eqn:E; [|discriminate].
  destruct (Nat.eq_dec (reqs_on (p, t) r) 0) as [Z|Z].
  - assert (X : reqs_on (p, t) [(p', t', cap)] <> 0) by (change ((p', t', cap) :: r) with ([(p', t', cap)] ++ r) in N; rewrite reqs_on_app in N; lia).
    unfold reqs_on in X. cbn [filter fst] in X. destruct (key_eqb (p', t') (p, t)) eqn:K; [|destruct X; auto]. apply key_eqb_eq in K. injection K as -> ->.
    exists ps. split; auto. change ((p, t, cap) :: r) with ([(p, t, cap)] ++ r). rewrite !reqs_on_app, Z.
    assert (X1 : reqs_on (p, t) [(p, t, cap)] = 1). { unfold reqs_on. cbn [filter fst]. rewrite (proj2 (key_eqb_eq (p, t) (p, t)) eq_refl). auto. }
    apply nth_error_Some_lt in Em. lia.
  - destruct (IH _ _ E p t Z) as (ps' & E' & L). exists ps'. split; auto. rewrite <- app_assoc in L. exact L.
Qed.
Lemma sends_matched_counts (st : state) p s : forall before, sends_matched st p before s = true ->
  forall q t, sent_on (q, t) s <> [] -> exists qs, nth_error st q = Some qs /\
    length (sent_on (q, t) (before ++ s)) <= reqs_on (p, t) (all_recvs (log qs)).
Proof.
  induction s as [|[[q' t'] m] s IH]; intros before H q t N; [destruct N; auto|]. cbn [sends_matched] in H.
  destruct (nth_error st q') as [qs|] eqn:Eq; [|discriminate]. apply andb_true_iff in H as [H1 H2].
  destruct (sent_on (q, t) s) as [|m0 l] eqn:Es.
  - pose proof (sent_on_app (q, t) [(q', t', m)] s) as SA. cbn [app] in SA. rewrite SA, Es, app_nil_r in N.
    unfold sent_on in N. cbn [filter fst] in N. destruct (key_eqb (q', t') (q, t)) eqn:K; [|destruct N; auto]. apply key_eqb_eq in K. injection K as -> ->.
    exists qs. split; auto. rewrite sent_on_app, SA, Es, app_nil_r, app_length.
    assert (X1 : @sent_on W (q, t) [(q, t, m)] = [m]). { unfold sent_on. cbn [filter fst]. rewrite (proj2 (key_eqb_eq (q, t) (q, t)) eq_refl). auto. }
    rewrite X1. cbn [length]. lia.
  - destruct (IH _ H2 q t) as (qs' & E' & L); [rewrite Es; discriminate|]. exists qs'. split; auto. rewrite <- app_assoc in L. exact L.
Qed.
Lemma sends_matched_dst (st : state) p s : forall before, sends_matched st p before s = true ->
  forall q t m, In (q, t, m) s -> q < length st.
Proof.
  induction s as [|[[q' t'] m'] s IH]; intros before H q t m I; [easy|]. cbn [sends_matched] in H.
  destruct (nth_error st q') as [qs|] eqn:Eq; [|discriminate]. apply andb_true_iff in H as [_ H2].
  destruct I as [I|I]; [injection I as -> -> ->; eapply nth_error_Some_lt; eauto|eapply IH; eauto].
Qed.

Variable np : nat.
Variable s : nat -> list (@send W).
Variable r : nat -> list recv.
Variable ms : nat -> list (list W).
(** The state in which exactly these groups are posted. *)
Variable st0 : state.
Hypothesis len0 : length st0 = np.
Hypothesis log0 : forall p, p < np -> exists c, nth_error st0 p = Some (PS c [(s p, r p)]).
Hypothesis recvs : forall p, p < np -> recv_all st0 p [] (r p) = Some (ms p).
Hypothesis sends : forall p, p < np -> sends_matched st0 p [] (s p) = true.

Lemma counts p q t : p < np -> q < np -> length (sent_on (q, t) (s p)) = reqs_on (p, t) (r q).
Proof.
  intros Hp Hq. destruct (log0 p Hp) as (c & Ep). destruct (log0 q Hq) as (d & Eq).
  assert (L1 : length (sent_on (q, t) (s p)) <= reqs_on (p, t) (r q)).
  { destruct (sent_on (q, t) (s p)) as [|m l] eqn:E; [cbn; lia|]. rewrite <- E.
    destruct (sends_matched_counts _ _ _ _ (sends p Hp) q t) as (qs & Q & L); [rewrite E; discriminate|].
    rewrite Eq in Q. injection Q as <-. cbn [app log] in L. rewrite all_recvs_one in L. exact L. }
  assert (L2 : reqs_on (p, t) (r q) <= length (sent_on (q, t) (s p))).
  { destruct (Nat.eq_dec (reqs_on (p, t) (r q)) 0) as [Z|Z]; [lia|].
    destruct (recv_all_counts _ _ _ _ _ (recvs q Hq) p t Z) as (ps & P & L).
    rewrite Ep in P. injection P as <-. cbn [app log] in L. rewrite all_sends_one in L. exact L. }
  lia.
Qed.
Lemma dst p q t m : p < np -> In (q, t, m) (s p) -> q < np.
Proof. intros Hp I. rewrite <- len0. eapply sends_matched_dst; eauto. Qed.

Context {C : Type}.
Lemma goesB_post_all (P Q : nat -> prog W C) B k :
  (forall p, p < np -> P p = Post (s p) (r p) (k p) /\ Q p = k p (length (B p))) ->
  goesB np P B Q (fun p => B p ++ [ms p]).
Proof.
  intros Hyes st [Hlen Hbal Hproc].
  destruct (exec_each (fun _ => true) (fun p ps => PS (Q p) (log ps ++ [(s p, r p)])) st) with (n := length st)
    as (st1 & E & L1 & H1); auto.
  - intros p st1 ps _ HL Hp1 Hp Hold.
    assert (Hpn : p < np) by (rewrite <- Hlen; eapply nth_error_Some_lt; eauto).
    destruct (Hproc p Hpn) as (L & Hst & HLB & Hdst & Hrecv).
    rewrite Hp in Hst. injection Hst as ->. destruct (Hyes p Hpn) as (EP & EQ).
    unfold pstep. rewrite Hp1. cbn [cur log]. rewrite EP. rewrite HLB, EQ. auto.
  - eexists _, st1. split; [exact E|].
    assert (H2 : forall p L, p < np -> nth_error st p = Some (PS (P p) L) -> nth_error st1 p = Some (PS (Q p) (L ++ [(s p, r p)]))).
    { intros p L Hpn Hp. rewrite (H1 p _ Hp). destruct (Nat.ltb_spec p (length st)); [|lia]. auto. }
    assert (G : grows st st1).
    { split; auto. intros q qs Hq. rewrite (H1 q qs Hq).
      destruct ((q <? length st) && true); eexists; eexists; (split; [reflexivity|]); cbn [log]; [reflexivity|].
      rewrite app_nil_r; auto. }
    constructor; [lia| |].
    + intros a b t as1 bs1 Ha Hb. assert (A1 : a < np) by (rewrite <- Hlen, <- L1; eapply nth_error_Some_lt; eauto).
      assert (B1 : b < np) by (rewrite <- Hlen, <- L1; eapply nth_error_Some_lt; eauto).
      destruct (Hproc a A1) as (La & Sa & _). destruct (Hproc b B1) as (Lb & Sb & _).
      rewrite (H2 _ _ A1 Sa) in Ha. rewrite (H2 _ _ B1 Sb) in Hb. injection Ha as <-. injection Hb as <-. cbn [log].
      rewrite all_sends_app, all_recvs_app, all_sends_one, all_recvs_one, sent_on_app, reqs_on_app, app_length.
      pose proof (Hbal a b t _ _ Sa Sb) as X. cbn [log] in X. rewrite X, (counts a b t A1 B1). auto.
    + intros p Hp. destruct (Hproc p Hp) as (L & Hst & HLB & Hdst & Hrecv). exists (L ++ [(s p, r p)]). rewrite (H2 _ _ Hp Hst). split; [auto|]. split; [|split].
      * rewrite !app_length, HLB. auto.
      * intros q t m I. rewrite all_sends_app, all_sends_one in I. apply in_app_or in I as [I|I]; [eauto|eapply dst; eauto].
      * intros h0 s0 r0 Hg. destruct (lt_dec h0 (length L)) as [Hh|Hh].
        -- rewrite nth_error_app1 in Hg by auto. rewrite nth_error_app1 by lia. specialize (Hrecv _ _ _ Hg).
           rewrite firstn_app. replace (h0 - length L) with 0 by lia. rewrite firstn_O, app_nil_r.
           destruct (nth_error (B p) h0) as [m0|] eqn:EB; [eapply recv_all_mono; eauto|].
           exfalso. apply nth_error_None in EB. lia.
        -- assert (h0 = length L) by (apply nth_error_Some_lt in Hg; rewrite app_length in Hg; simpl in Hg; lia).
           subst h0. rewrite nth_error_app2, Nat.sub_diag in Hg by lia. injection Hg as <- <-.
           rewrite nth_error_app2, HLB, Nat.sub_diag by lia. rewrite <- HLB. simpl.
           rewrite firstn_app, Nat.sub_diag, firstn_all. simpl. rewrite app_nil_r.
           assert (Gen : forall r0 pre ms0, recv_all st0 p pre r0 = Some ms0 -> recv_all st1 p (all_recvs L ++ pre) r0 = Some ms0).
           { induction r0 as [|[[q t] cap] r0 IH]; intros pre ms0 H; cbn [recv_all] in *; auto.
             destruct (nth_error st0 q) as [qs|] eqn:Eq; [|discriminate].
             assert (Hq : q < np) by (rewrite <- len0; eapply nth_error_Some_lt; eauto).
             destruct (log0 q Hq) as (c & E0). rewrite Eq in E0. injection E0 as ->. cbn [log] in H.
             destruct (Hproc q Hq) as (Lq & Hstq & _). rewrite (H2 q Lq Hq Hstq). cbn [log].
             rewrite all_sends_one in H. rewrite all_sends_app, all_sends_one, sent_on_app, reqs_on_app.
             pose proof (Hbal q p t _ _ Hstq Hst) as E1. cbn [log] in E1.
             rewrite <- E1, nth_error_app2 by lia.
             replace (length (sent_on (p, t) (all_sends Lq)) + reqs_on (q, t) pre - length (sent_on (p, t) (all_sends Lq))) with (reqs_on (q, t) pre) by lia.
             destruct (nth_error (sent_on (p, t) (s q)) (reqs_on (q, t) pre)) as [m|]; [|discriminate].
             destruct (length m <=? cap); [|discriminate].
             destruct (recv_all st0 p (pre ++ [(q, t, cap)]) r0) as [ms'|] eqn:E2; [|discriminate].
             rewrite <- app_assoc, (IH _ _ E2). auto. }
           rewrite <- (app_nil_r (all_recvs L)). apply Gen, recvs, Hp.
Qed.
Lemma goes_comm_all (P Q : nat -> prog W C) k :
  (forall p, p < np -> P p = comm (s p) (r p) (k p) /\ Q p = k p (ms p)) -> goes np P Q.
Proof.
  intros Hyes. apply goesB_goes. intros B. exists (fun p => B p ++ [ms p]).
  apply goesB_trans with (fun p => Wait (length (B p)) (k p)) (fun p => B p ++ [ms p]).
  - apply (goesB_post_all P _ B (fun p h => Wait h (k p))). intros p Hp. destruct (Hyes p Hp) as [-> _]. auto.
  - apply (goesB_wait np (fun _ => true) _ Q _ (fun p => length (B p)) k ms); [discriminate|].
    intros p Hp _. destruct (Hyes p Hp) as [_ ->]. split; auto. split; auto. rewrite nth_error_app2, Nat.sub_diag by lia. auto.
Qed.
End Replay.
