(** C17: results do not depend on message timing or buffering.  Semantics: Net.v. *)
From Verif Require Import Base Net NetProof NetExtra.

(** If one schedule, without buffering, runs to completion, then under every schedule and
    buffering the processes never deadlock and complete, in the same number of moves, with
    the same results (definition of [always_returns] in Net.v). *)
Theorem C17_one_schedule_decides : forall (W A : Type) (ps : list (prog W A)) sched fin rs,
  exec (start ps) (unbuffered sched) = Some fin -> finished fin rs -> always_returns ps rs.
Proof. exact (fun W A => @one_schedule_decides W A). Qed.
Print Assumptions C17_one_schedule_decides.

(** What [always_returns] gives, spelled out. *)
Theorem C17_unique_result : forall (W A : Type) (ps : list (prog W A)) rs, always_returns ps rs ->
  forall sched st rs', exec (start ps) sched = Some st -> finished st rs' -> rs' = rs.
Proof. exact (fun W A => @always_returns_unique W A). Qed.
Print Assumptions C17_unique_result.

Theorem C17_no_deadlock : forall (W A : Type) (ps : list (prog W A)) rs, always_returns ps rs ->
  forall sched st, exec (start ps) sched = Some st ->
  (forall p, pstep false st p = None) -> finished st rs.
Proof. exact (fun W A => @always_returns_no_deadlock W A). Qed.
Print Assumptions C17_no_deadlock.

(** Any two complete runs, with whatever buffering each, have the same results. *)
Theorem C17_complete_runs_agree : forall (W A : Type) (ps : list (prog W A)) s1 s2 f1 f2 r1 r2,
  exec (start ps) s1 = Some f1 -> finished f1 r1 ->
  exec (start ps) s2 = Some f2 -> finished f2 r2 -> r1 = r2 /\ length s1 = length s2.
Proof. exact (fun W A => @complete_runs_agree W A). Qed.
Print Assumptions C17_complete_runs_agree.

(** Cases: an exchange completes; a send-send pair completes only with buffering. *)
Example C17_case : exists fin,
  exec (start (map ex_exchange [0; 1])) (unbuffered [1; 0; 0; 1]) = Some fin /\ finished fin [[1]; [0]].
Proof. exact ex_exchange_ok. Qed.
Example C17_deadlock_is_visible : exists st,
  exec (start (map ex_send_send [0; 1])) (unbuffered [0; 1]) = Some st /\
  (forall p, pstep false st p = None) /\ ~ exists rs, finished st rs.
Proof. exact ex_send_send_deadlock. Qed.
