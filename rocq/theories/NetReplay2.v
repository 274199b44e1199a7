(** One exchange between all processes, continued: what always_returns from the start also goes after other exchanges. *)
From Verif Require Import Base BaseLemmas ListLemmas Net NetProof NetReplay TransferProof2 GsIgsProof.

Section Replay.
Context {W A : Type}.
Variable np : nat.
Variable s : nat -> list (@send W).
Variable r : nat -> list recv.
Variable k : nat -> list (list W) -> prog W A.
Variable P : nat -> prog W A.
Hypothesis P_form : forall p, p < np -> P p = comm (s p) (r p) (k p).
Hypothesis k_form : forall p ms, p < np -> (exists a, k p ms = Ret a) \/ k p ms = Stop.

Let f : nat -> pstate W A -> pstate W A := fun p _ => PS (Wait 0 (k p)) [(s p, r p)].
Definition posted (st : list (pstate W A)) : Prop := length st = np /\ forall p, p < np -> nth_error st p = Some (PS (Wait 0 (k p)) [(s p, r p)]).
Lemma post_all : exists st, exec (start (map P (seq 0 np))) (unbuffered (seq 0 np)) = Some st /\ posted st.
Proof.
  set (st0 := start (map P (seq 0 np))). assert (L : length st0 = np) by (unfold st0, start; rewrite !map_length, seq_length; auto).
  assert (S0 : forall p, p < np -> nth_error st0 p = Some (PS (P p) [])).
  { intros p Hp. unfold st0, start. rewrite !nth_error_map, seq_nth_error by auto. auto. }
  destruct (exec_each (fun _ => true) f st0) with (n := np) as (st1 & E & L1 & H); [|lia|].
  - intros p st1 ps _ HL H1 H0 _. assert (Hp : p < np) by (rewrite <- L; eapply nth_error_Some_lt; eauto).
    rewrite (S0 p Hp) in H0. injection H0 as <-. unfold pstep. rewrite H1. cbn [cur log]. rewrite (P_form p Hp). reflexivity.
  - exists st1. split.
    + rewrite <- E. f_equal. f_equal. clear. generalize 0. induction np as [|n IH]; intros a; cbn; auto. rewrite <- IH. auto.
    + split; [lia|]. intros p Hp. rewrite (H p _ (S0 p Hp)). destruct (Nat.ltb_spec p np); [|lia]. auto.
Qed.

Variable st1 : list (pstate W A).
Hypothesis st1_ok : posted st1.
Definition good (p : nat) (ms : list (list W)) : Prop := recv_all st1 p [] (r p) = Some ms /\ sends_matched st1 p [] (s p) = true.
Definition waits (st : list (pstate W A)) : Prop := length st = np /\ forall p, p < np -> exists c, nth_error st p = Some (PS c [(s p, r p)]) /\
  (c = Wait 0 (k p) \/ exists ms, good p ms /\ c = k p ms).
Lemma waits_grows st : waits st -> grows st st1.
Proof.
  intros [L H]. destruct st1_ok as [L1 H1]. split; [lia|]. intros p ps Ep. assert (Hp : p < np) by (rewrite <- L; eapply nth_error_Some_lt; eauto).
  destruct (H p Hp) as (c & Ec & _). rewrite Ep in Ec. injection Ec as ->. eexists _, []. split; [exact (H1 p Hp)|]. rewrite app_nil_r. auto.
Qed.
Lemma waits_step st p st' : waits st -> pstep false st p = Some st' -> waits st'.
Proof.
  intros Wt E. pose proof (waits_grows st Wt) as G. destruct Wt as [L H]. unfold pstep in E.
  destruct (nth_error st p) as [ps|] eqn:Ep; [|discriminate]. assert (Hp : p < np) by (rewrite <- L; eapply nth_error_Some_lt; eauto).
  destruct (H p Hp) as (c & Ec & Fc). rewrite Ep in Ec. injection Ec as ->. cbn [cur log] in E. destruct Fc as [->|(ms & _ & ->)].
  - cbn [nth_error firstn] in E. change (all_recvs []) with (@nil recv) in E. change (all_sends []) with (@nil (@send W)) in E.
    destruct (recv_all st p [] (r p)) as [ms|] eqn:ER; [|discriminate]. cbn [orb] in E.
    destruct (sends_matched st p [] (s p)) eqn:ES; [|discriminate]. injection E as <-. split; [rewrite upd_length; auto|].
    intros q Hq. destruct (Nat.eq_dec q p) as [->|Ne].
    + rewrite nth_error_upd_eq by lia. eexists. split; [reflexivity|]. right. exists ms. split; auto. split; [eapply recv_all_mono|eapply sends_matched_mono]; eauto.
    + rewrite nth_error_upd_ne by auto. auto.
  - destruct (k_form p ms Hp) as [(a & Ek)|Ek]; rewrite Ek in E; discriminate.
Qed.
Lemma waits_exec sched : forall st st', waits st -> exec st (unbuffered sched) = Some st' -> waits st'.
Proof.
  induction sched as [|p sched IH]; intros st st' H E; cbn [unbuffered map exec] in E; [injection E as <-; auto|].
  destruct (pstep false st p) as [st2|] eqn:E2; [|discriminate]. apply (IH st2); [eapply waits_step; eauto|exact E].
Qed.
End Replay.

Theorem replay {W A} np (s : nat -> list (@send W)) r (k : nat -> list (list W) -> prog W A) P w :
  (forall p, p < np -> P p = comm (s p) (r p) (k p)) -> (forall p ms, p < np -> (exists a, k p ms = Ret a) \/ k p ms = Stop) ->
  always_returns (map P (seq 0 np)) (map w (seq 0 np)) -> goes np P (fun p => Ret (w p)).
Proof.
  intros FP Fk [n R]. destruct (post_all np s r k P FP Fk) as (st1 & E1 & O1).
  destruct (R _ _ E1) as (rest & fin & E2 & Fin & _).
  assert (W1 : waits np s r k st1 st1) by (destruct O1 as [L H]; split; auto; intros p Hp; eexists; split; [exact (H p Hp)|auto]).
  destruct (waits_exec np s r k P FP Fk st1 O1 rest _ _ W1 E2) as [Lf Hf].
  assert (G : forall p, p < np -> exists ms, good s r st1 p ms /\ k p ms = Ret (w p)).
  { intros p Hp. destruct (Hf p Hp) as (c & Ec & Fc). unfold finished in Fin. apply (f_equal (fun l => nth_error l p)) in Fin.
    rewrite !nth_error_map, Ec, seq_nth_error in Fin by auto. cbn in Fin. injection Fin as ->. destruct Fc as [Fc|(ms & Gm & Em)]; [discriminate|]. eauto. }
  destruct (finite_choice (fun p ms => good s r st1 p ms /\ k p ms = Ret (w p)) [] np G) as [ms Hms].
  destruct O1 as [L1 H1].
  apply (goes_comm_all np s r ms st1 L1) with (k := k).
  - intros p Hp. eexists. apply H1; auto.
  - intros p Hp. apply (Hms p Hp).
  - intros p Hp. apply (Hms p Hp).
  - intros p Hp. split; [auto|]. symmetry. apply (Hms p Hp).
Qed.
Lemma returns_not_never {W A} np (P : nat -> prog W A) x p : always_returns (map P (seq 0 np)) (map x (seq 0 np)) -> p < np -> ~ never (P p).
Proof.
  intros [m G] Hp HN. destruct (G [] _ eq_refl) as (rest & fin & E & F & _).
  assert (Hf : exists ps, nth_error fin p = Some ps /\ cur ps = Ret (x p)).
  { unfold finished in F. apply (f_equal (fun l => nth_error l p)) in F. rewrite !nth_error_map, seq_nth_error in F by auto. cbn in F.
    destruct (nth_error fin p) as [ps|]; [|discriminate]. exists ps. split; auto. cbn in F. congruence. }
  destruct Hf as (ps & Hps & Ec). refine (never_exec _ _ _ E p _ ps (x p) Hps Ec).
  intros qs Hq. unfold start in Hq. rewrite !nth_error_map, seq_nth_error in Hq by auto. cbn in Hq. injection Hq as <-. cbn [cur]. auto.
Qed.
