(** Model of src/comm.c: comm_scan, comm_allreduce (by hand) and comm_reduce.
    One process has id, the communicator np processes; T is the C type of the domain, op and
    ident its operation and identity (Ops.v).  A word of a message is a value of type T.
    Simplifications: uint arithmetic is not reduced modulo 2^32 (np < 2^32 makes all values
    fit); the shift register c, which always has a leading 1, is a [positive]. *)
From Verif Require Import Base Kernels Net.
From Coq Require Import PArith.

(** The local variables n, c, odd, base (comm.c:25, 72). *)
Record tree := Tree { tn : nat; tc : positive; todd : nat; tbase : nat }.

Definition tree_root (np : nat) : tree := Tree np 1 0 0.

(** odd=(odd<<1)|(n&1); c<<=1, n>>=1; if(id>=base+n) c|=1, base+=n, n+=(odd&1);
    (comm.c:30-32, 60-62, 74-76, 95-97) *)
Definition tree_down (id : nat) (t : tree) : tree :=
  let odd := 2 * todd t + tn t mod 2 in
  let n := tn t / 2 in
  if tbase t + n <=? id
  then Tree (n + odd mod 2) (xI (tc t)) odd (tbase t + n)
  else Tree n (xO (tc t)) odd (tbase t).

(** if(c&1) n-=(odd&1), base-=n; c>>=1, n<<=1, n+=(odd&1); odd>>=1;  (comm.c:37-39, 79-81)
    given the pieces: is c odd, and c>>1. *)
Definition tree_up (c_odd : bool) (c' : positive) (t : tree) : tree :=
  let n := if c_odd then tn t - todd t mod 2 else tn t in
  let base := if c_odd then tbase t - n else tbase t in
  Tree (2 * n + todd t mod 2) c' (todd t / 2) base.

(** while(n>1) {...}  (comm.c:29-33, 73-77). *)
Fixpoint tree_descend (fuel : nat) (id : nat) (t : tree) : res tree :=
  if tn t <=? 1 then Ok t
  else match fuel with
       | O => OutOfFuel
       | S f => tree_descend f id (tree_down id t)
       end.

(** The received message m overwrites the beginning of the buffer. *)
Definition over {T} (m buf : list T) : list T := m ++ skipn (length m) buf.

Section Comm.
Context {T : Type}.
Variable op : T -> T -> T.
Variable ident : T.
Variable np : nat.
Variable id : nat.
Variable vn : nat.

(** The user's scan array is scan, red; buffer is b0, b1 (comm.c:26-28). *)
Record sbufs := SB { sscan : list T; sred : list T; sb0 : list T; sb1 : list T }.

(** The third loop of scan_imp (comm.c:52-63). *)
Fixpoint scan_down (fuel : nat) (t : tree) (s : sbufs) : prog T sbufs :=
  if tn t <=? 1 then Ret s
  else match fuel with
       | O => Stop
       | S f =>
           if tbase t =? id then
             comm_send (id + tn t / 2) id (sscan s ++ sred s)
               (scan_down f (tree_down id t) s)
           else
             comm_recv (tbase t) (tbase t) (2 * vn) (fun m =>
               let b := over m (sb0 s ++ sb1 s) in
               let b0 := firstn vn b in
               let b1 := skipn vn b in
               pbind (plift (gather_array op (sscan s) b0 vn)) (fun sc =>
               scan_down f (tree_down id t) (SB sc b1 b0 b1)))
       end.

(** The second loop of scan_imp (comm.c:36-51), by recursion on the shift register c;
    [c = 1] with n < np would mean c has been shifted out: shown not to happen. *)
Fixpoint scan_up (c : positive) (t : tree) (s : sbufs) : prog T sbufs :=
  if np <=? tn t then scan_down np t s
  else
    let step (c_odd : bool) (c' : positive) (again : tree -> sbufs -> prog T sbufs) :=
      let t' := tree_up c_odd c' t in
      if tbase t' =? id then
        comm [(id + tn t' / 2, id, sred s)] [(id + tn t' / 2, id + tn t' / 2, vn)] (fun ms =>
          match ms with
          | [m] => let b0 := over m (sb0 s) in
                   pbind (plift (gather_array op (sred s) b0 vn)) (fun r =>
                   again t' (SB (sscan s) r b0 (sb1 s)))
          | _ => Stop
          end)
      else
        comm [(tbase t', id, sred s)] [(tbase t', tbase t', vn)] (fun ms =>
          match ms with
          | [m] => scan_down np t' (SB (over m (sscan s)) (sred s) (sb0 s) (sb1 s))
          | _ => Stop
          end) in
    match c with
    | xH => Stop
    | xO c' => step false c' (scan_up c')
    | xI c' => step true c' (scan_up c')
    end.

(** scan_imp, comm_scan (comm.c:19-64, 101-105).  Result: the scan array (exclusive scan,
    then reduction), 2*vn values. *)
Definition comm_scan (v scan buffer : list T) : prog T (list T) :=
  pbind (plift (tree_descend np id (tree_root np))) (fun t =>
  pbind (plift (init_array ident (firstn vn scan) vn)) (fun sc =>
  pbind (scan_up (tc t) t (SB sc (over (firstn vn v) (skipn vn scan))
                            (firstn vn buffer) (skipn vn buffer))) (fun s =>
  Ret (sscan s ++ sred s)))).

(** allreduce_imp, third loop (comm.c:90-98). *)
Fixpoint allreduce_down (fuel : nat) (t : tree) (v : list T) : prog T (list T) :=
  if tn t <=? 1 then Ret v
  else match fuel with
       | O => Stop
       | S f =>
           if tbase t =? id then
             comm_send (id + tn t / 2) id (firstn vn v) (allreduce_down f (tree_down id t) v)
           else
             comm_recv (tbase t) (tbase t) vn (fun m =>
               allreduce_down f (tree_down id t) (over m v))
       end.

(** allreduce_imp, second loop (comm.c:78-89). *)
Fixpoint allreduce_up (c : positive) (t : tree) (v buf : list T) : prog T (list T) :=
  if np <=? tn t then allreduce_down np t v
  else
    let step (c_odd : bool) (c' : positive) (again : tree -> list T -> list T -> prog T (list T)) :=
      let t' := tree_up c_odd c' t in
      if tbase t' =? id then
        comm_recv (id + tn t' / 2) (id + tn t' / 2) vn (fun m =>
          let b := over m buf in
          pbind (plift (gather_array op v b vn)) (fun v' => again t' v' b))
      else
        comm_send (tbase t') id (firstn vn v) (allreduce_down np t' v) in
    match c with
    | xH => Stop
    | xO c' => step false c' (allreduce_up c')
    | xI c' => step true c' (allreduce_up c')
    end.

(** allreduce_imp (comm.c:67-99). *)
Definition allreduce_imp (v buf : list T) : prog T (list T) :=
  pbind (plift (tree_descend np id (tree_root np))) (fun t =>
  allreduce_up (tc t) t v buf).

(** comm_allreduce (comm.c:107-141).  Simplification: MPI_Allreduce, used for the standard
    types and operations, is not modelled further; by its contract it has the result of the
    tree implementation below on a commutative, associative operation. *)
Definition comm_allreduce (v buf : list T) : prog T (list T) :=
  if vn =? 0 then Ret v else allreduce_imp v buf.
End Comm.

(** comm_reduce__T (comm.c:195-207): accumulate the local values, then allreduce. *)
Fixpoint reduce_accum {T} (op : T -> T -> T) (acc : T) (inp : list T) (n : nat) {struct n} : res T :=
  match n with
  | O => Ok acc
  | S n' => match inp with
            | [] => UB
            | v :: inp' => reduce_accum op (op acc v) inp' n'
            end
  end.
Definition comm_reduce {T} (op : T -> T -> T) (ident : T) (np id : nat) (inp : list T) (n : nat)
    (buf : list T) : prog T T :=
  pbind (plift (reduce_accum op ident inp n)) (fun acc =>
  pbind (comm_allreduce op np id 1 [acc] buf) (fun r =>
  match r with x :: _ => Ret x | [] => Stop end)).
