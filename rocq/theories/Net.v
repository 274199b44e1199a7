(** Message passing: the model of comm.h's wrappers and of MPI point-to-point semantics.

    A process is a program that posts groups of non-blocking sends and receives with
    explicit partner and tag (comm_irecv, comm_isend, comm.h:242-256) and waits for such
    groups (comm_wait, comm.h:258-269).  Blocking comm_recv / comm_send (comm.h:221-240)
    are a group of one followed by a wait.  Messages are lists of words of a type W.

    MPI semantics used: messages of one (source, destination, tag) channel are matched
    with the receives of that channel in posting order; a receive completes once the
    matching message has been posted; a message longer than the receive buffer is an
    error (the step is impossible); a send completes when its receive is posted or,
    at the discretion of the MPI library, at any earlier time (buffering). *)
From Verif Require Import Base.

Section Net.
Context {W : Type}.

Definition send : Type := nat * nat * list W.     (** destination, tag, contents *)
Definition recv : Type := nat * nat * nat.        (** source, tag, capacity in words *)
Definition group : Type := list send * list recv.

(** [Post s r k]: post the group, continue with its number h (groups of one process are
    numbered in posting order).  [Wait h k]: wait for group h, continue with the
    received messages in the order of its receives.  [Stop]: the process has failed
    (fail(), MPI_Abort, undefined behaviour). *)
Inductive prog (A : Type) : Type :=
| Ret (a : A)
| Stop
| Post (s : list send) (r : list recv) (k : nat -> prog A)
| Wait (h : nat) (k : list (list W) -> prog A).
Arguments Ret {A} _.
Arguments Stop {A}.
Arguments Post {A} _ _ _.
Arguments Wait {A} _ _.

Fixpoint pbind {A B} (p : prog A) (f : A -> prog B) : prog B :=
  match p with
  | Ret a => f a
  | Stop => Stop
  | Post s r k => Post s r (fun h => pbind (k h) f)
  | Wait h k => Wait h (fun ms => pbind (k ms) f)
  end.

(** A local computation inside a process. *)
Definition plift {A} (x : res A) : prog A :=
  match x with Ok a => Ret a | _ => Stop end.

(** Post a group and wait for it at once. *)
Definition comm {A} (s : list send) (r : list recv) (k : list (list W) -> prog A) : prog A :=
  Post s r (fun h => Wait h k).

(** comm_send (comm.h:234-240). *)
Definition comm_send {A} (dst tag : nat) (m : list W) (k : prog A) : prog A :=
  comm [(dst, tag, m)] [] (fun _ => k).

(** comm_recv (comm.h:221-232). *)
Definition comm_recv {A} (src tag cap : nat) (k : list W -> prog A) : prog A :=
  comm [] [(src, tag, cap)] (fun ms => match ms with [m] => k m | _ => Stop end).

(** ** Interleaving semantics *)
Record pstate (A : Type) : Type := PS { cur : prog A; log : list group }.
Arguments PS {A} _ _.
Arguments cur {A} _.
Arguments log {A} _.

Definition key_eqb (a b : nat * nat) : bool := (fst a =? fst b) && (snd a =? snd b).

(** Contents of the sends with this destination and tag, in posting order. *)
Definition sent_on (c : nat * nat) (ss : list send) : list (list W) :=
  map snd (filter (fun x => key_eqb (fst x) c) ss).
(** Number of receives with this source and tag. *)
Definition reqs_on (c : nat * nat) (rs : list recv) : nat :=
  length (filter (fun x => key_eqb (fst x) c) rs).

Definition all_sends (l : list group) : list send := concat (map fst l).
Definition all_recvs (l : list group) : list recv := concat (map snd l).

(** Messages delivered to process q for the receives r, [before] being the receives it
    posted earlier: the i-th receive of a channel gets the i-th message sent on it. *)
Fixpoint recv_all {A} (st : list (pstate A)) (q : nat) (before r : list recv)
  : option (list (list W)) :=
  match r with
  | [] => Some []
  | (p, t, cap) :: r' =>
      match nth_error st p with
      | None => None
      | Some ps =>
          match nth_error (sent_on (q, t) (all_sends (log ps))) (reqs_on (p, t) before) with
          | None => None
          | Some m =>
              if length m <=? cap then
                match recv_all st q (before ++ [(p, t, cap)]) r' with
                | Some ms => Some (m :: ms)
                | None => None
                end
              else None
          end
      end
  end.

(** Every send of s, [before] being the sends process p posted earlier, has its matching
    receive posted. *)
Fixpoint sends_matched {A} (st : list (pstate A)) (p : nat) (before s : list send) : bool :=
  match s with
  | [] => true
  | (q, t, m) :: s' =>
      match nth_error st q with
      | None => false
      | Some qs =>
          (length (sent_on (q, t) before) <? reqs_on (p, t) (all_recvs (log qs)))
          && sends_matched st p (before ++ [(q, t, m)]) s'
      end
  end.

(** One step of process p; [buffered]: the MPI library lets the sends complete without
    waiting for the receives. *)
Definition pstep {A} (buffered : bool) (st : list (pstate A)) (p : nat)
  : option (list (pstate A)) :=
  match nth_error st p with
  | None => None
  | Some ps =>
      match cur ps with
      | Ret _ | Stop => None
      | Post s r k => Some (upd st p (PS (k (length (log ps))) (log ps ++ [(s, r)])))
      | Wait h k =>
          match nth_error (log ps) h with
          | None => None
          | Some (s, r) =>
              let before := firstn h (log ps) in
              match recv_all st p (all_recvs before) r with
              | None => None
              | Some ms =>
                  if buffered || sends_matched st p (all_sends before) s
                  then Some (upd st p (PS (k ms) (log ps))) else None
              end
          end
      end
  end.

(** A schedule: which process moves, and whether the MPI library buffers its sends if
    that move is a wait.  [exec] fails if a scheduled move is not possible. *)
Fixpoint exec {A} (st : list (pstate A)) (sched : list (nat * bool))
  : option (list (pstate A)) :=
  match sched with
  | [] => Some st
  | (p, b) :: sched' =>
      match pstep b st p with
      | Some st' => exec st' sched'
      | None => None
      end
  end.

(** Moves by these processes without any buffering. *)
Definition unbuffered (ps : list nat) : list (nat * bool) := map (fun p => (p, false)) ps.

(** Initial state of a family of programs. *)
Definition start {A} (ps : list (prog A)) : list (pstate A) := map (fun p => PS p []) ps.

(** All processes have returned, with these results. *)
Definition finished {A} (st : list (pstate A)) (rs : list A) : Prop :=
  map (@cur A) st = map Ret rs.

(** The programs, run in parallel, always produce these results: some number n of moves
    is such that, however the moves are interleaved and whatever is buffered, the
    processes have not made more than n moves, and can complete, even without buffering, in
    exactly n moves with the results rs.  Hence no deadlock, no failure, no livelock,
    and no other result. *)
Definition always_returns {A} (ps : list (prog A)) (rs : list A) : Prop :=
  exists n, forall sched st, exec (start ps) sched = Some st ->
    exists rest fin, exec st (unbuffered rest) = Some fin /\ finished fin rs /\
      length sched + length rest = n.
End Net.
Arguments Ret {W A} _.
Arguments Stop {W A}.
Arguments Post {W A} _ _ _.
Arguments Wait {W A} _ _.
Arguments prog : clear implicits.
Arguments pstate : clear implicits.
Arguments PS {W A} _ _.
Arguments cur {W A} _.
Arguments log {W A} _.
