(** C18, C19: the crystal router. *)
From Verif Require Import Base Net Crystal CrystalSpec CrystalProof.

(** C18: for any number of processes and any lists of messages with valid targets
    (and in total fewer than INT_MAX bytes), under every schedule and buffering,
    crystal_router terminates on every process; process p then holds exactly the messages
    addressed to it, each as often as it was held anywhere before, with source, length and
    contents unchanged.  W is the type of the data words, ofN / toN the storing and
    reading of numbers in them, faithful for numbers below lim (2^32 or 2^64). *)
Theorem C18_crystal_router {W} (toN : W -> nat) (ofN : nat -> W) usize INT_MAX np
    lim (m : nat -> list (msg W)) :
  (forall n, n < lim -> toN (ofN n) = n) -> 1 <= usize -> np <= lim -> INT_MAX <= lim ->
  (forall p x, p < np -> In x (m p) -> m_target x < np) ->
  length (words ofN (all_msgs np m)) * usize < INT_MAX ->
  exists out : nat -> list (msg W),
    (forall p, p < np -> Permutation (out p) (for_proc p (all_msgs np m))) /\
    always_returns
      (map (fun p => crystal_router toN ofN usize INT_MAX np p (words ofN (m p))) (seq 0 np))
      (map (fun p => words ofN (out p)) (seq 0 np)).
Proof.
  intros Hc Hu Hnp Hmax Hm Hs.
  destruct (crystal_router_goes toN ofN lim Hc usize INT_MAX np Hu Hnp Hmax m Hm Hs) as (out & Ho & G).
  exists out. split; [exact Ho|]. exact (NetProof.goes_always_fun _ np (fun p => words ofN (out p)) G).
Qed.
Print Assumptions C18_crystal_router.

(** C19: whatever the data on all processes, in every run every process sends at most two
    messages (a length and the contents) per stage in at most ceil(log2 np) stages:
    at most 2*ceil(log2 np) post operations with one send each. *)
Theorem C19_stages {W} (toN : W -> nat) (ofN : nat -> W) usize INT_MAX np
    (data : nat -> list W) sched st p ps :
  exec (start (map (fun p => crystal_router toN ofN usize INT_MAX np p (data p)) (seq 0 np))) sched = Some st ->
  nth_error st p = Some ps ->
  length (log ps) <= 2 * Nat.log2_up np /\ forall g, In g (log ps) -> length (fst g) = 1.
Proof. exact (crystal_router_log toN ofN usize INT_MAX np data sched st p ps). Qed.
Print Assumptions C19_stages.

(** Three processes, five messages, two of them with the same target and source. *)
Example C18_example :
  let m := fun p : nat => match p with
    | 0 => [Msg 2 0 [10; 11]; Msg 0 0 []; Msg 1 0 [12]]
    | 1 => []
    | _ => [Msg 0 2 [13; 14; 15]; Msg 0 2 [13; 14; 15]]
    end in
  (forall p x, p < 3 -> In x (m p) -> m_target x < 3) /\
  length (words (fun n : nat => n) (all_msgs 3 m)) * 4 < Z.to_nat 1000 /\
  exists fin, exec (start (map (fun p => crystal_router (fun n => n) (fun n => n) 4 (Z.to_nat 1000) 3 p
                                  (words (fun n => n) (m p))) (seq 0 3)))
     (unbuffered [0;1;2;0;1;2; 0;1;2;0;1;2; 0;1;0;1; 0;1;0;1]) = Some fin /\
   finished fin (map (words (fun n => n))
     [[Msg 0 0 []; Msg 0 2 [13; 14; 15]; Msg 0 2 [13; 14; 15]]; [Msg 1 0 [12]]; [Msg 2 0 [10; 11]]]).
Proof.
  split; [|split].
  - intros [|[|[|p]]] x Hp Hx; simpl in Hx; intuition (subst; simpl; try lia).
  - vm_compute. lia.
  - eexists. split; [vm_compute; reflexivity|]. reflexivity.
Qed.
