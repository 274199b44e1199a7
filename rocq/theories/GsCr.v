(** Model of the crystal-router method of src/gs.c: its setup and execution.

    The messages of the setup consist of words of bytes, one word per uint and one word per
    struct crl_id; those of an execution of elements of type T.
    Simplifications: as in GsExec.v and GsTop.v; the arrays nsend/nrecv of two uints and the
    work array are exchanged in one group per round; mem_size is left out. *)
From Verif Require Import Base Sort Sarray Net Kernels Transfer GsTop GsExec.

(** struct cr_stage (gs.c:632-638); size_r and size_total are the sums below. *)
Record cr_stage := CS { c_scatter : list nat; c_gather : list nat; c_r1 : nat; c_r2 : nat;
                        c_sk : nat; c_s : nat; c_p1 : nat; c_p2 : nat; c_nrecvn : nat }.
Definition c_r (s : cr_stage) : nat := c_r1 s + c_r2 s.
Definition c_total (s : cr_stage) : nat := c_r s + c_sk s.
(** struct cr_data (gs.c:640-644): the nstages+1 stages of both directions. *)
Record cr_data := CR { cr_stage0 : list cr_stage; cr_stage1 : list cr_stage; cr_sbs : nat }.
Definition cr_buffer_size (d : cr_data) : nat := 2 * cr_sbs d.

Section Exec.
Context {T : Type}.
Variable op : T -> T -> T.
Variable SENT : nat.
Variable mode : gs_mode.
Variable vn : nat.
Variable np me : nat.

(** scatter_buf_to_buf, gather_buf_to_buf (gs.c:653-654, 659-660). *)
Definition scatter_bb (map : list nat) (inp out : list T) : res (list T) :=
  match mode with
  | mode_plain => scatter SENT (Some inp) map out
  | _ => scatter_vec SENT (Some inp) vn map out
  end.
Definition gather_bb (map : list nat) (inp out : list T) : res (list T) :=
  match mode with
  | mode_plain => gather op SENT (Some inp) map out
  | _ => gather_vec op SENT (Some inp) vn map out
  end.

(** The messages a stage receives: process and size (gs.c:671-676, 849-852). *)
Definition cr_msgs (nrecvn p1 p2 r1 r2 : nat) : list (nat * nat) :=
  (if nrecvn =? 0 then [] else [(p1, r1)]) ++ (if nrecvn =? 2 then [(p2, r2)] else []).

(** The loop of cr_exec (gs.c:669-687) and the final scatter and gather (gs.c:688-689). *)
Fixpoint cr_exec_loop (k : nat) (stages : list cr_stage) (u : udata T) (old new : list T)
    : prog T (udata T) :=
  match stages with
  | [] => Stop
  | st :: rest =>
      match rest with
      | [] =>
          plift (u <- scatter_from_buf SENT mode vn (c_scatter st) u old ;;
                 gather_from_buf op SENT mode vn (c_gather st) u old)
      | _ =>
          let msgs := cr_msgs (c_nrecvn st) (c_p1 st) (c_p2 st) (c_r1 st) (c_r2 st) in
          pbind (plift (
            let sendbuf := skipn (c_r st * vn) new in
            if k =? 0 then scatter_to_buf SENT mode vn (c_scatter st) u sendbuf
            else b <- scatter_bb (c_scatter st) old sendbuf ;; gather_bb (c_gather st) old b)) (fun sendbuf =>
          comm [(c_p1 st, np + k, firstn (c_s st * vn) sendbuf)]
               (map (fun m => (fst m, np + k, snd m * vn)) msgs) (fun ms =>
          cr_exec_loop (S k) rest u (pw_received vn msgs ms (firstn (c_r st * vn) new) ++ sendbuf) old))
      end
  end.

(** cr_exec (gs.c:646-690). *)
Definition cr_exec (transpose : bool) (d : cr_data) (u : udata T) (buf : list T) : prog T (udata T) :=
  cr_exec_loop 0 (if transpose then cr_stage1 d else cr_stage0 d) u
    (firstn (cr_sbs d * vn) buf) (firstn (cr_sbs d * vn) (skipn (cr_sbs d * vn) buf)).
End Exec.

(** ** Setup *)
(** struct crl_id (gs.c:726-728). *)
Record crl_id := CI { ci_id : nat; ci_p : nat; ci_ri : nat; ci_si : nat; ci_bi : nat; ci_send : nat }.

Section Setup.
Variable usize lsize : nat.
Variable np me : nat.
Notation UINT_MAX := (UINT_MAX usize).

(** The bytes of a struct crl_id. *)
Definition crl_bytes (w : crl_id) : list byte :=
  enc lsize (ci_id w) ++ enc usize (ci_p w) ++ enc usize (ci_ri w) ++
  enc usize (ci_si w) ++ enc usize (ci_bi w) ++ enc usize (ci_send w).
Definition crl_of (b : list byte) : crl_id :=
  let u k := dec (firstn usize (skipn (lsize + k * usize) b)) in
  CI (dec (firstn lsize b)) (u 0) (u 1) (u 2) (u 3) (u 4).

(** The second loop of cr_schedule (gs.c:710-722): nrecvn, p1, p2 of every stage. *)
Fixpoint cr_schedule (fuel bl n : nat) : list (nat * nat * nat) :=
  if n <=? 1 then []
  else match fuel with
       | O => []
       | S f =>
           let nl := (n + 1) / 2 in
           let bh := bl + nl in
           let targ0 := n - 1 - (me - bl) + bl in
           let targ := if me =? targ0 then bh else targ0 in
           let recvn0 := if me =? targ0 then 0 else 1 in
           let recvn := if (n mod 2 =? 1) && (me =? bh) then 2 else recvn0 in
           (recvn, targ, me - 1) ::
           (if me <? bh then cr_schedule f bl nl else cr_schedule f bh (n - nl))
       end.

(** The loop of crl_work_init (gs.c:748-757); send_mask is FLAGS_REMOTE if [m], FLAGS_LOCAL if
    not, recv_mask the other one. *)
Fixpoint crl_work_init (m : bool) (last_i : nat) (added : bool) (sh : list shared_id) : list crl_id :=
  match sh with
  | [] => []
  | s :: rest =>
      let send := negb (masked m s) in
      let recv := negb (masked (negb m) s) in
      let added := if s_i s =? last_i then added else false in
      let add := negb added && recv && negb (s_local s) in
      (if add then [CI (s_id s) me (s_i s) (s_i s) 0 0] else []) ++
      (if send then [CI (s_id s) (s_p s) (s_ri s) (s_i s) 0 0] else []) ++
      crl_work_init m (s_i s) (added || add) rest
  end.

(** The loop of crl_maps writing the maps (gs.c:778-786): scatter map and gather map; [cur] =
    (bi, si, any) inside the inner loop.  The code stores bi in the gather map at once and
    takes it back when there is no other si; here it is written with the first other si. *)
Fixpoint crl_maps_loop (cur : option (nat * nat * bool)) (ws : list crl_id) : list nat * list nat :=
  let close := match cur with Some (_, _, true) => [UINT_MAX] | _ => [] end in
  match ws with
  | [] => ([UINT_MAX], close ++ [UINT_MAX])
  | w :: rest =>
      let fresh := let (s, g) := crl_maps_loop (Some (ci_bi w, ci_si w, false)) rest in
                   (ci_si w :: ci_bi w :: UINT_MAX :: s, close ++ g) in
      match cur with
      | Some (bi, si, any) =>
          if ci_bi w =? bi then
            if ci_si w =? si then crl_maps_loop cur rest
            else let (s, g) := crl_maps_loop (Some (bi, ci_si w, true)) rest in
                 (s, (if any then [] else [bi]) ++ ci_si w :: g)
          else fresh
      | None => fresh
      end
  end.
(** crl_maps (gs.c:762-789): the maps, and the work array reordered. *)
Definition crl_maps (cw : list crl_id) : res (list nat * list nat * list crl_id) :=
  cw <- sort_by usize lsize [KU ci_bi; KU ci_si] cw ;;
  let (s, g) := crl_maps_loop None cw in Ok (s, g, cw).

(** The first loop of crl_work_label (gs.c:798-799), send with its reverse meaning. *)
Definition crl_set_send (cutoff : nat) (send_hi : bool) (w : crl_id) : crl_id :=
  CI (ci_id w) (ci_p w) (ci_ri w) (ci_si w) (ci_bi w)
     (if (if send_hi then ci_p w <? cutoff else cutoff <=? ci_p w) then 1 else 0).
(** The second loop (gs.c:801-805): [start] = id and send of the element start points to.
    Returns the entries, nkeep, nks. *)
Fixpoint crl_mark (start : option (nat * nat)) (ws : list crl_id) : list crl_id * nat * nat :=
  match ws with
  | [] => ([], 0, 0)
  | w :: rest =>
      let st := match start with
                | Some (i, s) => if ci_id w =? i then (i, s) else (ci_id w, ci_send w)
                | None => (ci_id w, ci_send w)
                end in
      let '(l, nkeep, nks) := crl_mark (Some st) rest in
      if ci_send w =? snd st
      then (CI (ci_id w) (ci_p w) (ci_ri w) (ci_si w) 0 (ci_send w) :: l, ci_send w + nkeep, nks)
      else (CI (ci_id w) (ci_p w) (ci_ri w) (ci_si w) 1 0 :: l, ci_send w + nkeep, S nks)
  end.
(** The loops assigning bi (gs.c:809-813 if [first], 815-819 if not): [sid] = start->id.
    Returns the entries, start->id and bi. *)
Fixpoint crl_number (first : bool) (sid bi : nat) (ws : list crl_id) : list crl_id * nat * nat :=
  match ws with
  | [] => ([], sid, bi)
  | w :: rest =>
      let bi := if ci_id w =? sid then bi else S bi in
      let send := if first then (if ci_bi w =? 1 then ci_send w else 1) else 0 in
      let '(l, sid', bi') := crl_number first (ci_id w) bi rest in
      (CI (ci_id w) (ci_p w) (ci_ri w) (ci_si w) bi send :: l, sid', bi')
  end.
(** crl_work_label (gs.c:791-823): scatter map, gather map, size_s, size_sk, the work array
    and the number of entries to be sent. *)
Definition crl_work_label (cw : list crl_id) (cutoff : nat) (send_hi : bool)
    : res (list nat * list nat * nat * nat * list crl_id * nat) :=
  cw <- sort_by usize lsize [KL ci_id; KU ci_send] (map (crl_set_send cutoff send_hi) cw) ;;
  let '(cw, nkeep, nks) := crl_mark None cw in
  let nsend := length cw - nkeep in
  cw <- sort_by usize lsize [KU ci_send] cw ;;
  let id0 := match cw with w :: _ => ci_id w | [] => 0 end in
  let '(l1, sid, bi1) := crl_number true id0 0 (firstn (nsend + nks) cw) in
  let '(l2, _, bi2) := crl_number false sid bi1 (skipn (nsend + nks) cw) in
  let size_s := if nsend + nks =? 0 then 0 else bi1 + 1 in
  let size_sk := if length cw =? 0 then 0 else bi2 + 1 in
  '(s, g, cw) <- crl_maps (l1 ++ l2) ;;
  Ok (s, g, size_s, size_sk, cw, nsend).

(** crl_bi_to_si, crl_ri_to_bi (gs.c:825-831). *)
Definition crl_bi_to_si (v : nat) (w : crl_id) : crl_id :=
  CI (ci_id w) (ci_p w) (ci_ri w) (ci_bi w + v) (ci_bi w) (ci_send w).
Definition crl_ri_to_bi (w : crl_id) : crl_id :=
  CI (ci_id w) (ci_p w) (ci_ri w) (ci_si w) (ci_ri w) (ci_send w).

(** The loop of cr_learn (gs.c:841-883) and its end (gs.c:884-886), along the stages of
    cr_schedule; [stages] and [size_max]: what has been stored so far. *)
Fixpoint cr_learn (sched : list (nat * nat * nat)) (bl n tag : nat) (stages : list cr_stage) (size_max : nat)
    (cw : list crl_id) : prog (list byte) (list cr_stage * nat) :=
  match sched with
  | [] =>
      pbind (plift (crl_maps (map crl_ri_to_bi cw))) (fun r =>
      let '(s, g, _) := r in Ret (stages ++ [CS s g 0 0 0 0 0 0 0], size_max))
  | (nrecvn, p1, p2) :: sched' =>
      let nl := (n + 1) / 2 in
      let bh := bl + nl in
      pbind (plift (crl_work_label cw bh (me <? bh))) (fun r =>
      let '(s, g, size_s, size_sk, cw, nsend) := r in
      let nkeep := length cw - nsend in
      comm [(p1, tag, [enc usize nsend; enc usize size_s])]
           (map (fun m => (fst m, tag, snd m)) (cr_msgs nrecvn p1 p2 2 2)) (fun cs =>
      if forallb (fun c => length c =? 2) cs then
        let count i j := dec (nth j (nth i cs []) []) in
        let r1 := count 0 1 in let r2 := count 1 1 in
        pbind (plift (sort_by usize lsize [KU ci_send; KU ci_bi] cw)) (fun cw =>
        comm [(p1, tag + 1, map crl_bytes (skipn nkeep cw))]
             (map (fun m => (fst m, tag + 1, snd m)) (cr_msgs nrecvn p1 p2 (count 0 0) (count 1 0))) (fun ms =>
        let got i := map crl_of (nth i ms []) in
        if (length (got 0) =? count 0 0) && (length (got 1) =? count 1 0) then
          let cw := map (crl_bi_to_si (r1 + r2)) (firstn nkeep cw)
                    ++ map (crl_bi_to_si 0) (got 0) ++ map (crl_bi_to_si r1) (got 1) in
          let st := CS s g r1 r2 size_sk size_s p1 p2 nrecvn in
          let stages := stages ++ [st] in
          let size_max := Nat.max size_max (c_total st) in
          if me <? bh then cr_learn sched' bl nl (tag + 2) stages size_max cw
          else cr_learn sched' bh (n - nl) (tag + 2) stages size_max cw
        else Stop))
      else Stop))
  end.

(** cr_setup_aux (gs.c:889-914), cr_setup (gs.c:934-942); also returns top->sh, reordered. *)
Definition cr_setup (sh : list shared_id) : prog (list byte) (cr_data * list shared_id) :=
  let sched := cr_schedule np 0 np in
  pbind (plift (sort_by usize lsize [KU s_i] sh)) (fun sh =>
  pbind (cr_learn sched 0 np np [] 0 (crl_work_init false UINT_MAX false sh)) (fun r0 =>
  pbind (cr_learn sched 0 np np [] 0 (crl_work_init true UINT_MAX false sh)) (fun r1 =>
  Ret (CR (fst r0) (fst r1) (Nat.max (snd r0) (snd r1)), sh)))).
End Setup.
