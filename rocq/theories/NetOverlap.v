(** A group posted now can be waited for later, other communication in between. *)
From Verif Require Import Base BaseLemmas Net NetProof.

Section Overlap.
Context {W : Type}.
Variable np : nat.

Lemma grows_refl {A} (st : list (pstate W A)) : grows st st.
Proof. split; auto. intros p ps H. exists ps, []. rewrite app_nil_r. auto. Qed.
Lemma grows_trans {A} (a b c : list (pstate W A)) : grows a b -> grows b c -> grows a c.
Proof.
  intros [L1 H1] [L2 H2]. split; [congruence|]. intros p ps H. destruct (H1 p ps H) as (ps1 & l1 & E1 & F1).
  destruct (H2 p ps1 E1) as (ps2 & l2 & E2 & F2). exists ps2, (l1 ++ l2). split; auto. rewrite F2, F1, app_assoc. auto.
Qed.
Lemma exec_grows {A} sched : forall (st st' : list (pstate W A)), exec st sched = Some st' -> grows st st'.
Proof.
  induction sched as [|[p b] sched IH]; intros st st' H; cbn [exec] in H; [injection H as <-; apply grows_refl|].
  destruct (pstep b st p) as [st1|] eqn:E; [|discriminate]. eapply grows_trans; [eapply pstep_grows; eauto|auto].
Qed.

(** What the groups posted so far receive does not change. *)
Lemma repr_prefix {A} (st st' : list (pstate W A)) P B Q B' : repr np st P B -> grows st st' -> repr np st' Q B' ->
  forall p h m, p < np -> nth_error (B p) h = Some m -> nth_error (B' p) h = Some m.
Proof.
  intros R G R' p h m Hp Hm. destruct (r_proc _ _ _ _ R p Hp) as (L & E & HL & _ & Hr).
  destruct (r_proc _ _ _ _ R' p Hp) as (L' & E' & HL' & _ & Hr').
  destruct (proj2 G p _ E) as (ps' & l & Ep & El). rewrite Ep in E'. injection E' as ->. cbn [log] in El. subst L'.
  pose proof (nth_error_Some_lt _ _ _ Hm) as Hh. rewrite <- HL in Hh.
  destruct (nth_error_lt_Some L h Hh) as [[s r] Hg].
  assert (Hg' : nth_error (L ++ l) h = Some (s, r)) by (rewrite nth_error_app1; auto).
  rewrite <- (Hr' _ _ _ Hg'). rewrite firstn_app. replace (h - length L) with 0 by lia. cbn [firstn]. rewrite app_nil_r.
  apply (recv_all_mono st st' p G). rewrite (Hr _ _ _ Hg). auto.
Qed.

(** A round of one group that goes through when waited for at once can be posted and left. *)
Section Split.
Context {A C : Type}.
Variable s : nat -> list (@send W).
Variable r : nat -> list recv.
Variable K : nat -> list (list W) -> prog W A.
Variable x : nat -> A.
Hypothesis term : forall p ms, p < np -> (exists a, K p ms = Ret a) \/ K p ms = Stop.
Hypothesis round : goes np (fun p => comm (s p) (r p) (K p)) (fun p => Ret (x p)).

Section Run.
Variable L : nat -> list (@group W).
Definition stage (st : list (pstate W A)) (p : nat) : Prop :=
  nth_error st p = Some (PS (comm (s p) (r p) (K p)) (L p)) \/
  nth_error st p = Some (PS (Wait (length (L p)) (K p)) (L p ++ [(s p, r p)])) \/
  exists m, nth_error st p = Some (PS (K p m) (L p ++ [(s p, r p)])) /\ recv_all st p (all_recvs (L p)) (r p) = Some m.

Lemma stage_step b st q st' : length st = np -> (forall p, p < np -> stage st p) -> pstep b st q = Some st' ->
  length st' = np /\ forall p, p < np -> stage st' p.
Proof.
  intros Hl HS E. pose proof (pstep_grows _ _ _ _ E) as G. split; [rewrite (proj1 G); auto|]. intros p Hp.
  assert (Keep : p <> q -> stage st' p).
  { intros Hne. destruct (pstep_inv _ _ _ _ E) as (ps & ps' & l & Hq & -> & _).
    unfold stage. rewrite nth_error_upd_ne by auto. destruct (HS p Hp) as [H|[H|(m & H & Hm)]]; auto.
    right; right. exists m. split; auto. apply (recv_all_mono st); auto. }
  destruct (Nat.eq_dec p q) as [->|Hne]; auto. clear Keep.
  destruct (HS q Hp) as [H|[H|(m & H & Hm)]]; unfold pstep in E; rewrite H in E; cbn [cur log] in E.
  - unfold comm in E. injection E as <-. right; left. rewrite nth_error_upd_eq by lia. auto.
  - rewrite nth_error_app2, Nat.sub_diag in E by lia. cbn [nth_error] in E.
    rewrite firstn_app, Nat.sub_diag, firstn_all in E. cbn [firstn] in E. rewrite app_nil_r in E.
    destruct (recv_all st q (all_recvs (L q)) (r q)) as [m|] eqn:Em; [|discriminate].
    destruct (b || _); [|discriminate]. injection E as <-. right; right. exists m.
    rewrite nth_error_upd_eq by lia. split; auto. apply (recv_all_mono st); auto.
  - destruct (term q m Hp) as [[a Ea]|Ea]; rewrite Ea in E; discriminate.
Qed.
Lemma stage_exec sched : forall st st', length st = np -> (forall p, p < np -> stage st p) -> exec st sched = Some st' ->
  length st' = np /\ forall p, p < np -> stage st' p.
Proof.
  induction sched as [|[q b] sched IH]; intros st st' Hl HS E; cbn [exec] in E; [injection E as <-; auto|].
  destruct (pstep b st q) as [st1|] eqn:E1; [|discriminate]. destruct (stage_step _ _ _ _ Hl HS E1). eapply IH; eauto.
Qed.
End Run.

Lemma split_post (k : nat -> nat -> prog W C) B st : repr np st (fun p => Post (s p) (r p) (k p)) B ->
  exists ms sched st', (forall p, p < np -> K p (ms p) = Ret (x p)) /\
    exec st (unbuffered sched) = Some st' /\ repr np st' (fun p => k p (length (B p))) (fun p => B p ++ [ms p]).
Proof.
  intros R. pose proof R as [H1 H2 H3]. set (K0 := (fun _ _ => Stop) : nat -> A -> prog W C).
  set (P := fun p => comm (s p) (r p) (K p)).
  assert (R0 : repr np (relabel P st) P B).
  { constructor.
    - unfold relabel. rewrite map_length, combine_length, seq_length. lia.
    - intros p q t ps qs Hp Hq. rewrite (nth_error_relabel K0) in Hp. rewrite (nth_error_relabel K0) in Hq.
      destruct (nth_error st p) as [ps0|] eqn:Ep; [|discriminate]. injection Hp as <-.
      destruct (nth_error st q) as [qs0|] eqn:Eq; [|discriminate]. injection Hq as <-. cbn [log]. eapply H2; eauto.
    - intros p Hp. destruct (H3 p Hp) as (L & E & HL & Hd & Hrr). exists L.
      rewrite (nth_error_relabel K0), E. cbn [log]. split; [|split; [|split]]; auto.
      intros h s0 r0 Hg. rewrite (recv_all_relabel K0). eauto. }
  set (L := fun p => match nth_error st p with Some ps => log ps | None => [] end).
  assert (EL : forall p, p < np -> nth_error st p = Some (PS (Post (s p) (r p) (k p)) (L p)) /\ length (L p) = length (B p) /\
     (forall q t m, In (q, t, m) (all_sends (L p)) -> q < np) /\
     forall h s0 r0, nth_error (L p) h = Some (s0, r0) -> recv_all st p (all_recvs (firstn h (L p))) r0 = nth_error (B p) h).
  { intros p Hp. destruct (H3 p Hp) as (l & E & F). unfold L. rewrite E. cbn [log]. auto. }
  destruct (round _ _ R0) as (B' & sched & st' & E & R').
  destruct (stage_exec L (unbuffered sched) (relabel P st) st') as [Hl' HS]; auto.
  { apply (r_len _ _ _ _ R0). }
  { intros p Hp. left. rewrite (nth_error_relabel K0). destruct (EL p Hp) as [-> _]. auto. }
  (* the final state: everything posted, everything received *)
  assert (Fin : forall p, p < np -> exists m, nth_error st' p = Some (PS (Ret (x p)) (L p ++ [(s p, r p)])) /\ K p m = Ret (x p) /\
     recv_all st' p (all_recvs (L p)) (r p) = Some m).
  { intros p Hp. destruct (r_proc _ _ _ _ R' p Hp) as (L' & E' & _).
    destruct (HS p Hp) as [H|[H|(m & H & Hm)]]; rewrite E' in H; injection H as HA HB; try discriminate HA.
    exists m. subst L'. rewrite E'. auto. }
  (* post everywhere *)
  destruct (exec_each (fun _ => true) (fun p ps => PS (k p (length (log ps))) (log ps ++ [(s p, r p)])) st) with (n := length st)
    as (st1 & E1 & L1 & Hst1); auto.
  { intros p st1 ps _ HL Hp1 Hp _. assert (Hpn : p < np) by (rewrite <- H1; eapply nth_error_Some_lt; eauto).
    destruct (EL p Hpn) as [Ep _]. rewrite Hp in Ep. injection Ep as ->. unfold pstep. rewrite Hp1. auto. }
  assert (N1 : forall p, p < np -> nth_error st1 p = Some (PS (k p (length (B p))) (L p ++ [(s p, r p)]))).
  { intros p Hp. destruct (EL p Hp) as (Ep & <- & _). rewrite (Hst1 p _ Ep). destruct (Nat.ltb_spec p (length st)); [|lia]. auto. }
  assert (G : grows st st1) by (eapply exec_grows; eauto).
  assert (Same : forall q rs before, recv_all st1 q before rs = recv_all st' q before rs).
  { intros q rs. induction rs as [|[[p t] cap] rs IH]; intros before; cbn [recv_all]; auto.
    destruct (Nat.lt_ge_cases p np) as [Hp|Hp].
    - rewrite (N1 p Hp). destruct (Fin p Hp) as (m & -> & _). cbn [log]. destruct (nth_error _ _); auto. rewrite IH. auto.
    - destruct (nth_error_None st1 p) as [_ ->]; [|lia]. destruct (nth_error_None st' p) as [_ ->]; [auto|lia]. }
  set (ms := fun p => match recv_all st1 p (all_recvs (L p)) (r p) with Some m => m | None => [] end).
  assert (Ems : forall p, p < np -> recv_all st1 p (all_recvs (L p)) (r p) = Some (ms p) /\ K p (ms p) = Ret (x p)).
  { intros p Hp. unfold ms. rewrite Same. destruct (Fin p Hp) as (m & _ & EK & ->). auto. }
  exists ms, (filter (fun _ => true) (seq 0 (length st))), st1. split; [|split]; auto.
  { intros p Hp. apply Ems; auto. }
  constructor; [lia| |].
  - intros p q t ps qs Hp Hq.
    assert (Hpn : p < np) by (rewrite <- H1, <- L1; eapply nth_error_Some_lt; eauto).
    assert (Hqn : q < np) by (rewrite <- H1, <- L1; eapply nth_error_Some_lt; eauto).
    rewrite (N1 p Hpn) in Hp. rewrite (N1 q Hqn) in Hq. injection Hp as <-. injection Hq as <-. cbn [log].
    destruct (Fin p Hpn) as (m1 & A1 & _), (Fin q Hqn) as (m2 & A2 & _).
    exact (r_bal _ _ _ _ R' p q t _ _ A1 A2).
  - intros p Hp. exists (L p ++ [(s p, r p)]). destruct (EL p Hp) as (Ep & Hlen & Hd & Hr).
    split; [apply N1; auto|]. split; [rewrite !app_length; cbn; lia|]. split.
    + destruct (r_proc _ _ _ _ R' p Hp) as (L' & E' & _ & Hd' & _). destruct (Fin p Hp) as (m & A1 & _).
      rewrite A1 in E'. injection E' as <-. exact Hd'.
    + intros h s0 r0 Hg. destruct (Nat.lt_ge_cases h (length (L p))) as [Hh|Hh].
      * rewrite nth_error_app1 in Hg by auto. specialize (Hr _ _ _ Hg).
        rewrite firstn_app. replace (h - length (L p)) with 0 by lia. cbn [firstn]. rewrite app_nil_r.
        rewrite nth_error_app1 by lia. destruct (nth_error (B p) h) as [m|] eqn:Em.
        -- apply (recv_all_mono st); auto.
        -- exfalso. apply nth_error_None in Em. lia.
      * rewrite nth_error_app2 in Hg by auto. assert (h = length (L p)).
        { destruct (h - length (L p)) eqn:Ed; [lia|]. cbn in Hg. destruct n; discriminate. }
        subst h. rewrite Nat.sub_diag in Hg. cbn in Hg. injection Hg as <- <-.
        rewrite firstn_app, Nat.sub_diag, firstn_all. cbn [firstn]. rewrite app_nil_r.
        rewrite (proj1 (Ems p Hp)). rewrite nth_error_app2 by lia. rewrite Hlen, Nat.sub_diag. auto.
Qed.
End Split.

(** Wait for a group posted earlier. *)
Lemma repr_wait {A} (h : nat -> nat) (k : nat -> list (list W) -> prog W A) ms B st :
  repr np st (fun p => Wait (h p) (k p)) B -> (forall p, p < np -> nth_error (B p) (h p) = Some (ms p)) ->
  exists sched st', exec st (unbuffered sched) = Some st' /\ repr np st' (fun p => k p (ms p)) B.
Proof.
  intros R Hm. refine (goesB_wait np (fun _ => true) _ (fun p => k p (ms p)) B h k ms _ _ st R); [discriminate|].
  intros p Hp _. auto.
Qed.

Definition reaches {A} (st : list (pstate W A)) (P : nat -> prog W A) (B : nat -> list (list (list W)))
  (Q : nat -> prog W A) : Prop := exists B' sched st', exec st (unbuffered sched) = Some st' /\ repr np st' Q B'.
Lemma reaches_goes {A} (P Q : nat -> prog W A) : (forall B st, repr np st P B -> reaches st P B Q) -> goes np P Q.
Proof. intros H B st R. exact (H B st R). Qed.

Section Rounds.
Context {A C D : Type}.
Variable s : nat -> list (@send W).
Variable r : nat -> list recv.
Variable K : nat -> list (list W) -> prog W A.
Variable x : nat -> A.
Hypothesis term : forall p ms, p < np -> (exists a, K p ms = Ret a) \/ K p ms = Stop.
Hypothesis round : goes np (fun p => comm (s p) (r p) (K p)) (fun p => Ret (x p)).

(** Other communication in between. *)
Theorem goes_overlap (mid : nat -> prog W D) (y : nat -> D) (F : nat -> D -> prog W A -> prog W C) (z : nat -> C) :
  goes np mid (fun p => Ret (y p)) ->
  (forall p, p < np -> F p (y p) (Ret (x p)) = Ret (z p)) ->
  goes np (fun p => Post (s p) (r p) (fun h => pbind (mid p) (fun d => Wait h (fun ms => F p d (K p ms)))))
          (fun p => Ret (z p)).
Proof.
  intros G HF B st R.
  destruct (split_post s r K x term round _ B st R) as (ms & s1 & st1 & HK & E1 & R1).
  set (h := fun p => length (B p)).
  destruct (goes_bind np (fun p d => Wait (h p) (fun ms => F p d (K p ms))) mid y G _ _ R1) as (B2 & s2 & st2 & E2 & R2).
  pose proof (repr_prefix _ _ _ _ _ _ R1 (exec_grows _ _ _ E2) R2) as Pre.
  destruct (repr_wait h (fun p ms => F p (y p) (K p ms)) ms B2 st2 R2) as (s3 & st3 & E3 & R3).
  { intros p Hp. apply Pre; auto. unfold h. rewrite nth_error_app2, Nat.sub_diag by lia. auto. }
  exists B2, (s1 ++ s2 ++ s3), st3. rewrite !unbuffered_app, !exec_app, E1, exec_app, E2. split; auto.
  eapply repr_ext; [| |exact R3]; auto. intros p Hp. cbn. rewrite HK, HF by auto. auto.
Qed.
End Rounds.

(** Two groups outstanding, waited for in either order. *)
Section Two.
Context {A1 A2 : Type}.
Variable s1 s2 : nat -> list (@send W).
Variable r1 r2 : nat -> list recv.
Variable K1 : nat -> list (list W) -> prog W A1.
Variable K2 : nat -> list (list W) -> prog W A2.
Variable x1 : nat -> A1.
Variable x2 : nat -> A2.
Hypothesis term1 : forall p ms, p < np -> (exists a, K1 p ms = Ret a) \/ K1 p ms = Stop.
Hypothesis term2 : forall p ms, p < np -> (exists a, K2 p ms = Ret a) \/ K2 p ms = Stop.
Hypothesis round1 : goes np (fun p => comm (s1 p) (r1 p) (K1 p)) (fun p => Ret (x1 p)).
Hypothesis round2 : goes np (fun p => comm (s2 p) (r2 p) (K2 p)) (fun p => Ret (x2 p)).

Theorem goes_two (swap : bool) :
  goes np (fun p => Post (s1 p) (r1 p) (fun h1 => Post (s2 p) (r2 p) (fun h2 =>
      if swap then Wait h2 (fun m2 => pbind (K2 p m2) (fun a2 => Wait h1 (fun m1 => pbind (K1 p m1) (fun a1 => Ret (a1, a2)))))
      else Wait h1 (fun m1 => pbind (K1 p m1) (fun a1 => Wait h2 (fun m2 => pbind (K2 p m2) (fun a2 => Ret (a1, a2))))))))
    (fun p => Ret (x1 p, x2 p)).
Proof.
  intros B st R.
  destruct (split_post s1 r1 K1 x1 term1 round1 _ B st R) as (ms1 & c1 & st1 & HK1 & E1 & R1).
  destruct (split_post s2 r2 K2 x2 term2 round2 _ _ st1 R1) as (ms2 & c2 & st2 & HK2 & E2 & R2).
  cbn beta in R2. set (B2 := fun p => (B p ++ [ms1 p]) ++ [ms2 p]) in R2.
  set (h1 := fun p => length (B p)). set (h2 := fun p => length (B p ++ [ms1 p])).
  assert (N1 : forall p, p < np -> nth_error (B2 p) (h1 p) = Some (ms1 p)).
  { intros p Hp. unfold B2, h1. rewrite <- app_assoc, nth_error_app2, Nat.sub_diag by lia. auto. }
  assert (N2 : forall p, p < np -> nth_error (B2 p) (h2 p) = Some (ms2 p)).
  { intros p Hp. unfold B2, h2. rewrite nth_error_app2, Nat.sub_diag by lia. auto. }
  destruct swap.
  - destruct (repr_wait h2 (fun p m2 => pbind (K2 p m2) (fun a2 => Wait (h1 p) (fun m1 => pbind (K1 p m1) (fun a1 => Ret (a1, a2))))) ms2 B2 st2 R2 N2)
      as (c3 & st3 & E3 & R3).
    destruct (repr_wait h1 (fun p m1 => pbind (K1 p m1) (fun a1 => Ret (a1, x2 p))) ms1 B2 st3) as (c4 & st4 & E4 & R4); auto.
    { eapply repr_ext; [| |exact R3]; auto. intros p Hp. cbn. rewrite HK2 by auto. auto. }
    exists B2, (c1 ++ c2 ++ c3 ++ c4), st4. rewrite !unbuffered_app, !exec_app, E1, exec_app, E2, exec_app, E3. split; auto.
    eapply repr_ext; [| |exact R4]; auto. intros p Hp. cbn. rewrite HK1 by auto. auto.
  - destruct (repr_wait h1 (fun p m1 => pbind (K1 p m1) (fun a1 => Wait (h2 p) (fun m2 => pbind (K2 p m2) (fun a2 => Ret (a1, a2))))) ms1 B2 st2 R2 N1)
      as (c3 & st3 & E3 & R3).
    destruct (repr_wait h2 (fun p m2 => pbind (K2 p m2) (fun a2 => Ret (x1 p, a2))) ms2 B2 st3) as (c4 & st4 & E4 & R4); auto.
    { eapply repr_ext; [| |exact R3]; auto. intros p Hp. cbn. rewrite HK1 by auto. auto. }
    exists B2, (c1 ++ c2 ++ c3 ++ c4), st4. rewrite !unbuffered_app, !exec_app, E1, exec_app, E2, exec_app, E3. split; auto.
    eapply repr_ext; [| |exact R4]; auto. intros p Hp. cbn. rewrite HK2 by auto. auto.
Qed.
End Two.
End Overlap.
