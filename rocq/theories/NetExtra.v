(** Confluence for arbitrary buffering, and examples. *)
From Verif Require Import Base BaseLemmas Net NetProof.

Section Any.
Context {W A : Type}.

Lemma step_absorb_any : forall evs (st fin : list (pstate W A)), exec st evs = Some fin -> done fin ->
  forall b p st1, pstep b st p = Some st1 ->
  exists evs', exec st1 evs' = Some fin /\ length evs = S (length evs').
Proof.
  induction evs as [|[q c] evs IH]; intros st fin H D b p st1 Hs; cbn [exec] in H.
  - injection H as ->. rewrite D in Hs. discriminate.
  - destruct (pstep c st q) as [s2|] eqn:E2; [|discriminate].
    destruct (Nat.eq_dec p q) as [->|Hne].
    + exists evs. split; auto. rewrite (pstep_det _ _ _ _ _ _ Hs E2). auto.
    + destruct (pstep_diamond b c st p q st1 s2 Hne Hs E2) as (s3 & H3 & H3').
      destruct (IH s2 fin H D b p s3 H3') as (evs' & Hx & Hl).
      exists ((q, c) :: evs'). split; [|simpl; lia]. cbn [exec]. rewrite H3. auto.
Qed.

Lemma exec_absorb_any : forall sched (st st' : list (pstate W A)) evs fin, exec st sched = Some st' ->
  exec st evs = Some fin -> done fin ->
  exists rest, exec st' rest = Some fin /\ length sched + length rest = length evs.
Proof.
  induction sched as [|[p b] sched IH]; intros st st' evs fin H Hs D; cbn [exec] in H.
  - injection H as <-. exists evs. auto.
  - destruct (pstep b st p) as [s1|] eqn:E1; [|discriminate].
    destruct (step_absorb_any evs st fin Hs D b p s1 E1) as (evs' & Hx & Hl).
    destruct (IH s1 st' evs' fin H Hx D) as (rest & Hr & Hlen).
    exists rest. split; auto. simpl. lia.
Qed.

Theorem complete_runs_agree (ps : list (prog W A)) s1 s2 f1 f2 r1 r2 :
  exec (start ps) s1 = Some f1 -> finished f1 r1 ->
  exec (start ps) s2 = Some f2 -> finished f2 r2 -> r1 = r2 /\ length s1 = length s2.
Proof.
  intros E1 F1 E2 F2.
  destruct (exec_absorb_any s1 _ f1 s2 f2 E1 E2) as (rest & Hr & Hl); [eapply finished_done; eauto|].
  destruct rest as [|[p b] rest].
  - simpl in *. injection Hr as ->. split; [|lia]. unfold finished in *. rewrite F1 in F2.
    clear -F2. revert r2 F2; induction r1 as [|x l IH]; intros [|y rs] H; try discriminate; auto.
    simpl in H. injection H as -> H. f_equal; auto.
  - simpl in Hr. rewrite (finished_done f1 r1 F1) in Hr. discriminate.
Qed.
End Any.

(** Two processes exchange a message by post-and-wait. *)
Definition ex_exchange (p : nat) : prog nat (list nat) :=
  comm [(1 - p, p, [p])] [(1 - p, 1 - p, 1)] (fun ms => Ret (concat ms)).
(** Two processes that both send before they receive. *)
Definition ex_send_send (p : nat) : prog nat (list nat) :=
  comm_send (1 - p) p [p] (comm_recv (1 - p) (1 - p) 1 (fun m => Ret m)).

Lemma ex_exchange_ok : exists fin, exec (start (map ex_exchange [0; 1])) (unbuffered [1; 0; 0; 1]) = Some fin /\
  finished fin [[1]; [0]].
Proof. eexists. split; vm_compute; reflexivity. Qed.

Lemma ex_send_send_buffered : exists fin,
  exec (start (map ex_send_send [0; 1])) [(0, false); (0, true); (1, false); (1, true); (0, false); (0, false); (1, false); (1, false)] = Some fin /\
  finished fin [[1]; [0]].
Proof. eexists. split; vm_compute; reflexivity. Qed.

Lemma ex_send_send_deadlock : exists st, exec (start (map ex_send_send [0; 1])) (unbuffered [0; 1]) = Some st /\
  (forall p, pstep false st p = None) /\ ~ exists rs, finished st rs.
Proof.
  eexists. split; [vm_compute; reflexivity|]. split.
  - intros [|[|p]]; try (vm_compute; reflexivity). unfold pstep. simpl. destruct p; auto.
  - intros [[|a rs] H]; vm_compute in H; discriminate.
Qed.
