(** C14-C16: comm_scan, comm_allreduce, comm_reduce. *)
From Verif Require Import Base Ops OpsSpec Net Comm CommSpec CommProof.

(** C14: on any number of processes, under every schedule and buffering of messages,
    comm_scan on vectors of vn values terminates and gives process p the exclusive prefix
    reduction over processes 0..p-1 followed by the reduction over all processes,
    whatever the scan and buffer arrays contained. *)
Theorem C14_comm_scan {T} (op : T -> T -> T) (e : T) np vn (v scan buffer : nat -> list T) :
  cmonoid op e -> 1 <= np ->
  (forall p, p < np -> length (v p) = vn /\ length (scan p) = 2 * vn /\ length (buffer p) = 2 * vn) ->
  always_returns
    (map (fun p => comm_scan op e np p vn (v p) (scan p) (buffer p)) (seq 0 np))
    (map (fun p => vec vn (fun i => reduction op e (fun q => nth i (v q) e) 0 p) ++
                   vec vn (fun i => reduction op e (fun q => nth i (v q) e) 0 np)) (seq 0 np)).
Proof. exact (comm_scan_correct op e np vn v scan buffer). Qed.
Print Assumptions C14_comm_scan.

(** C15: comm_allreduce gives every process the reduction over all processes. *)
Theorem C15_comm_allreduce {T} (op : T -> T -> T) (e : T) np vn (v buf : nat -> list T) :
  cmonoid op e -> 1 <= np ->
  (forall p, p < np -> length (v p) = vn /\ length (buf p) = vn) ->
  always_returns
    (map (fun p => comm_allreduce op np p vn (v p) (buf p)) (seq 0 np))
    (map (fun p => vec vn (fun i => reduction op e (fun q => nth i (v q) e) 0 np)) (seq 0 np)).
Proof. exact (comm_allreduce_correct op e np vn v buf). Qed.
Print Assumptions C15_comm_allreduce.

(** C16: comm_reduce_T gives every process the reduction of all values of all processes,
    whatever the number of values on each (also none). *)
Theorem C16_comm_reduce {T} (op : T -> T -> T) (e : T) np (inp buf : nat -> list T) :
  cmonoid op e -> 1 <= np -> (forall p, p < np -> length (buf p) = 1) ->
  always_returns
    (map (fun p => comm_reduce op e np p (inp p) (length (inp p)) (buf p)) (seq 0 np))
    (map (fun p => fold_left op (concat (map inp (seq 0 np))) e) (seq 0 np)).
Proof. exact (comm_reduce_correct op e np inp buf). Qed.
Print Assumptions C16_comm_reduce.

(** Three processes, addition of natural numbers: hypotheses met, and one full run. *)
Example C14_example : cmonoid Nat.add 0 /\
  let v := fun p => [p + 1; 10 * p] in
  let w := fun _ : nat => [7; 7; 7; 7] in
  exists fin, exec (start (map (fun p => comm_scan Nat.add 0 3 p 2 (v p) (w p) (w p)) (seq 0 3)))
     (unbuffered [1;2;1;2;0;1;0;1; 0;1;0;1; 1;2;1;2]) = Some fin /\
   finished fin [[0;0;6;30]; [1;0;6;30]; [3;10;6;30]].
Proof.
  split; [constructor; intros; lia|]. eexists. split; [vm_compute; reflexivity|]. reflexivity.
Qed.
