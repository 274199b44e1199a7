(** Model of src/crystal.c.  The data array consists of words of a type W (uint in the
    code); toN reads a word as a number, ofN stores a number in a word.  With W = nat and
    both the identity this is the code's view; gs.c stores other data in the words.
    Simplifications: uint arithmetic is not reduced modulo 2^32; buffer_reserve always
    succeeds (mem.h fails the program otherwise). *)
From Verif Require Import Base Net.

Section Crystal.
Context {W : Type}.
Variable toN : W -> nat.
Variable ofN : nat -> W.
Variable usize : nat.      (** sizeof(uint) *)
Variable INT_MAX : nat.
Variable np : nat.         (** comm.np *)
Variable id : nat.         (** comm.id *)

(** crystal_move (crystal.c:77-98).  [src] is the part of the data array from the pointer
    src on; [keep], [send] what has been kept and put in the work array so far.
    Simplification: the kept messages are collected in a separate list; in the code they
    are moved down in the same array, keep <= src (uintcpy, crystal.c:71-75).
    Reading a message that goes past the end of the data is undefined behaviour.
    The loop bound: every message takes at least 3 words. *)
Fixpoint crystal_move_loop (fuel : nat) (cutoff : nat) (send_hi : bool)
    (src keep send : list W) : res (list W * list W) :=
  match src with
  | [] => Ok (keep, send)
  | _ =>
      match fuel with
      | O => OutOfFuel
      | S f =>
          target <- rd src 0 ;;
          m <- rd src 2 ;;
          let len := 3 + toN m in
          if length src <? len then UB
          else
            let msg := firstn len src in
            let src' := skipn len src in
            if (if send_hi then cutoff <=? toN target else toN target <? cutoff)
            then crystal_move_loop f cutoff send_hi src' keep (send ++ msg)
            else crystal_move_loop f cutoff send_hi src' (keep ++ msg) send
      end
  end.
Definition crystal_move (data : list W) (cutoff : nat) (send_hi : bool)
    : res (list W * list W) :=
  crystal_move_loop (length data) cutoff send_hi data [] [].

(** The receives posted by crystal_exchange (crystal.c:106-109, 117-120): from targ if
    recvn >= 1, also from id-1 if recvn = 2. *)
Definition exchange_recvs (recvn targ tag : nat) (cap : nat -> nat) : list recv :=
  (if 1 <=? recvn then [(targ, tag, cap 0)] else []) ++
  (if recvn =? 2 then [(id - 1, tag, cap 1)] else []).

(** crystal_exchange (crystal.c:100-124); work is the array to send.  The i-th receive
    fills count[i] words: a shorter message would leave words of the buffer uninitialised
    and is treated as a failure. *)
Definition crystal_exchange (data work : list W) (targ recvn tag : nat) : prog W (list W) :=
  comm [(targ, tag, [ofN (length work)])] (exchange_recvs recvn targ tag (fun _ => 1)) (fun cs =>
    let count i := match nth_error cs i with Some [c] => toN c | _ => 0 end in
    if forallb (fun c => length c =? 1) cs then
      comm [(targ, tag + 1, work)] (exchange_recvs recvn targ (tag + 1) count) (fun ms =>
        if forallb (fun b : bool => b) (map (fun i => length (nth i ms []) =? count i) (seq 0 (length ms)))
        then Ret (data ++ concat ms) else Stop)
    else Stop).

(** The loop of crystal_router (crystal.c:126-154). *)
Fixpoint crystal_loop (fuel : nat) (bl n tag : nat) (data : list W) : prog W (list W) :=
  if n <=? 1 then Ret data
  else
    match fuel with
    | O => Stop
    | S f =>
        let nl := (n + 1) / 2 in
        let bh := bl + nl in
        let send_hi := id <? bh in
        pbind (plift (crystal_move data bh send_hi)) (fun ks =>
        let (keep, work) := (ks : list W * list W) in
        if INT_MAX <=? length work * usize then Stop     (** MPI_Abort *)
        else
          let targ0 := n - 1 - (id - bl) + bl in
          let targ := if id =? targ0 then bh else targ0 in
          let recvn0 := if id =? targ0 then 0 else 1 in
          let recvn := if (n mod 2 =? 1) && (id =? bh) then 2 else recvn0 in
          pbind (crystal_exchange keep work targ recvn tag) (fun data' =>
          if id <? bh then crystal_loop f bl nl (tag + 2) data'
          else crystal_loop f bh (n - nl) (tag + 2) data'))
    end.

(** crystal_router (crystal.c:126-154). *)
Definition crystal_router (data : list W) : prog W (list W) := crystal_loop np 0 np 0 data.
End Crystal.
