(** Model of src/gs.c: execution of a gather-scatter (gs, gs_vec, gs_many) and the setup of
    the pairwise and all-reduce methods.

    T is the C type of the domain, op and ident the operation and its identity, SENT the
    value UINT_MAX.  The messages of an execution consist of elements of type T.
    Simplifications: the receives and the sends of one exchange are posted together (in the
    code the local copy to the send buffer stands between them); products such as i*vn are
    not reduced modulo 2^32; the reporting part of gs_setup (verbose) and the accounting of
    mem_size are left out; mode_dry_run is used by auto_setup only and is not modelled. *)
From Verif Require Import Base Sort Sarray Net Ops Kernels Comm GsTop.

(** gs_mode (gs.c:39) and the user's data: one array, or vn arrays. *)
Inductive gs_mode := mode_plain | mode_vec | mode_many.
Inductive udata (T : Type) := UFlat (l : list T) | UMany (ls : list (list T)).
Arguments UFlat {T} _.
Arguments UMany {T} _.

(** struct pw_comm_data (gs.c:404-409): p and size of each message; total. *)
Record pw_comm_data := PC { pc_msgs : list (nat * nat); pc_total : nat }.
(** struct pw_data (gs.c:411-416). *)
Record pw_data := PW { pw_comm0 : pw_comm_data; pw_comm1 : pw_comm_data;
                       pw_map0 : list nat; pw_map1 : list nat }.
Definition pw_buffer_size (d : pw_data) : nat := pc_total (pw_comm0 d) + pc_total (pw_comm1 d).

(** struct allreduce_data (gs.c:947-951). *)
Record allreduce_data := AR { ar_to0 : list nat; ar_to1 : list nat; ar_from0 : list nat; ar_from1 : list nat;
                              ar_buffer_size : nat }.

Section Exec.
Context {T : Type}.
Variable op : T -> T -> T.
Variable ident : T.
Variable SENT : nat.
Variable mode : gs_mode.
Variable vn : nat.

(** The kernels selected by mode: the tables of function pointers in gs_aux (gs.c:1171-1176),
    pw_exec (gs.c:449-452) and allreduce_exec (gs.c:958-961). *)
Definition local_gather (map : list nat) (u : udata T) : res (udata T) :=
  match mode, u with
  | mode_plain, UFlat l => l <- gather op SENT None map l ;; Ok (UFlat l)
  | mode_vec, UFlat l => l <- gather_vec op SENT None vn map l ;; Ok (UFlat l)
  | mode_many, UMany ls => ls <- gather_many op SENT None vn map ls ;; Ok (UMany ls)
  | _, _ => UB
  end.
Definition local_scatter (map : list nat) (u : udata T) : res (udata T) :=
  match mode, u with
  | mode_plain, UFlat l => l <- scatter SENT None map l ;; Ok (UFlat l)
  | mode_vec, UFlat l => l <- scatter_vec SENT None vn map l ;; Ok (UFlat l)
  | mode_many, UMany ls => ls <- scatter_many SENT None vn map ls ;; Ok (UMany ls)
  | _, _ => UB
  end.
Definition init (map : list nat) (u : udata T) : res (udata T) :=
  match mode, u with
  | mode_plain, UFlat l => l <- init_ ident SENT map l ;; Ok (UFlat l)
  | mode_vec, UFlat l => l <- init_vec ident SENT vn map l ;; Ok (UFlat l)
  | mode_many, UMany ls => ls <- init_many ident SENT vn map ls ;; Ok (UMany ls)
  | _, _ => UB
  end.
Definition scatter_to_buf (map : list nat) (u : udata T) (buf : list T) : res (list T) :=
  match mode, u with
  | mode_plain, UFlat l => scatter SENT (Some l) map buf
  | mode_vec, UFlat l => scatter_vec SENT (Some l) vn map buf
  | mode_many, UMany ls => scatter_many_to_vec SENT ls vn map buf
  | _, _ => UB
  end.
Definition gather_from_buf (map : list nat) (u : udata T) (buf : list T) : res (udata T) :=
  match mode, u with
  | mode_plain, UFlat l => l <- gather op SENT (Some buf) map l ;; Ok (UFlat l)
  | mode_vec, UFlat l => l <- gather_vec op SENT (Some buf) vn map l ;; Ok (UFlat l)
  | mode_many, UMany ls => ls <- gather_vec_to_many op SENT buf vn map ls ;; Ok (UMany ls)
  | _, _ => UB
  end.
Definition scatter_from_buf (map : list nat) (u : udata T) (buf : list T) : res (udata T) :=
  match mode, u with
  | mode_plain, UFlat l => l <- scatter SENT (Some buf) map l ;; Ok (UFlat l)
  | mode_vec, UFlat l => l <- scatter_vec SENT (Some buf) vn map l ;; Ok (UFlat l)
  | mode_many, UMany ls => ls <- scatter_vec_to_many SENT buf vn map ls ;; Ok (UMany ls)
  | _, _ => UB
  end.

(** ** Pairwise *)

(** pw_exec_recvs (gs.c:418-429): the receives, and the offset of what follows them. *)
Definition pw_exec_recvs (c : pw_comm_data) : list recv :=
  map (fun ps => (fst ps, fst ps, snd ps * vn)) (pc_msgs c).
Definition pw_length (c : pw_comm_data) : nat := fold_right (fun ps n => snd ps * vn + n) 0 (pc_msgs c).

(** pw_exec_sends (gs.c:431-442): consecutive pieces of the send buffer. *)
Fixpoint pw_exec_sends (me : nat) (msgs : list (nat * nat)) (buf : list T) : list send :=
  match msgs with
  | [] => []
  | (p, size) :: msgs' => (p, me, firstn (size * vn) buf) :: pw_exec_sends me msgs' (skipn (size * vn) buf)
  end.

(** The receive buffer after the wait: message k fills the first elements of the k-th piece. *)
Fixpoint pw_received (msgs : list (nat * nat)) (ms : list (list T)) (buf : list T) : list T :=
  match msgs, ms with
  | (_, size) :: msgs', m :: ms' =>
      m ++ firstn (size * vn - length m) (skipn (length m) buf)
        ++ pw_received msgs' ms' (skipn (size * vn) buf)
  | _, _ => buf
  end.

Definition pw_recv (transpose : bool) (d : pw_data) := if transpose then pw_comm1 d else pw_comm0 d.
Definition pw_send (transpose : bool) (d : pw_data) := if transpose then pw_comm0 d else pw_comm1 d.
Definition pw_map_recv (transpose : bool) (d : pw_data) := if transpose then pw_map1 d else pw_map0 d.
Definition pw_map_send (transpose : bool) (d : pw_data) := if transpose then pw_map0 d else pw_map1 d.

(** pw_exec (gs.c:444-466), split at the wait: pw_exec_irecv, pw_exec_isend (gs.c:471-504) and
    pw_exec_wait (gs.c:506-521) are the two halves.  [buf] is the memory at buf. *)
Definition pw_exec_start (transpose : bool) (d : pw_data) (me : nat) (u : udata T) (buf : list T)
    {A} (k : nat -> prog T A) : prog T A :=
  let off := pw_length (pw_recv transpose d) in
  pbind (plift (scatter_to_buf (pw_map_send transpose d) u (skipn off buf))) (fun sendbuf =>
  Post (pw_exec_sends me (pc_msgs (pw_send transpose d)) sendbuf) (pw_exec_recvs (pw_recv transpose d)) k).
Definition pw_exec_wait (transpose : bool) (d : pw_data) (h : nat) (u : udata T) (buf : list T)
    : prog T (udata T) :=
  Wait h (fun ms =>
  plift (gather_from_buf (pw_map_recv transpose d) u (pw_received (pc_msgs (pw_recv transpose d)) ms buf))).
Definition pw_exec (transpose : bool) (d : pw_data) (me : nat) (u : udata T) (buf : list T) : prog T (udata T) :=
  pw_exec_start transpose d me u buf (fun h => pw_exec_wait transpose d h u buf).

(** ** All-reduce *)

(** allreduce_exec (gs.c:953-975). *)
Definition allreduce_exec (transpose : bool) (d : allreduce_data) (np me : nat) (u : udata T) (buf : list T)
    : prog T (udata T) :=
  let gvn := vn * (ar_buffer_size d / 2) in
  let ardbuf := firstn gvn (skipn gvn buf) in
  pbind (plift (
    b <- init_array ident (firstn gvn buf) gvn ;;
    scatter_to_buf (if transpose then ar_to1 d else ar_to0 d) u b)) (fun b =>
  pbind (comm_allreduce op np me gvn b ardbuf) (fun b =>
  plift (scatter_from_buf (if transpose then ar_from1 d else ar_from0 d) u b))).
End Exec.

(** ** Pairwise and all-reduce setup *)
Section Setup.
Variable usize lsize : nat.
Notation UINT_MAX := (UINT_MAX usize).

(** The mask tests s->flags&flags_mask for FLAGS_LOCAL and FLAGS_REMOTE (gs.c:151-152). *)
Definition masked (remote : bool) (s : shared_id) : bool := if remote then s_remote s else s_local s.

(** The first loop of pw_comm_setup (gs.c:534-538). *)
Fixpoint pw_assign (remote : bool) (count : nat) (sh : list shared_id) : list shared_id * nat :=
  match sh with
  | [] => ([], count)
  | s :: rest =>
      let (bi, count') := if masked remote s then (UINT_MAX, count) else (count, S count) in
      let '(l, c) := pw_assign remote count' rest in
      (SH (s_id s) (s_i s) (s_p s) (s_ri s) bi (s_local s) (s_remote s) :: l, c)
  end.

(** The second loop (gs.c:543-553): [acc] = the messages so far, the open one first. *)
Fixpoint pw_messages (remote : bool) (lp : nat) (acc : list (nat * nat)) (sh : list shared_id) : list (nat * nat) :=
  match sh with
  | [] => rev acc
  | s :: rest =>
      if masked remote s then pw_messages remote lp acc rest
      else
        let acc := if s_p s =? lp then acc else (s_p s, 0) :: acc in
        match acc with
        | (q, c) :: acc' => pw_messages remote (s_p s) ((q, S c) :: acc') rest
        | [] => pw_messages remote (s_p s) [] rest
        end
  end.

(** pw_comm_setup (gs.c:526-555). *)
Definition pw_comm_setup (remote : bool) (sh : list shared_id) : res (pw_comm_data * list shared_id) :=
  sh <- sort_by usize lsize [KU s_p; KL s_id] sh ;;
  let (sh, count) := pw_assign remote 0 sh in
  Ok (PC (pw_messages remote UINT_MAX [] sh) count, sh).

(** The loop of pw_map_setup writing the map (gs.c:575-581); [cur]: inside the inner loop for
    this index. *)
Fixpoint pw_map (cur : option nat) (sh : list shared_id) : list nat :=
  let close := match cur with Some _ => [UINT_MAX] | None => [] end in
  match sh with
  | [] => close ++ [UINT_MAX]
  | s :: rest =>
      let fresh := if s_bi s =? UINT_MAX then pw_map None rest
                   else s_i s :: s_bi s :: pw_map (Some (s_i s)) rest in
      match cur with
      | Some i => if s_i s =? i
                  then (if s_bi s =? UINT_MAX then [] else [s_bi s]) ++ pw_map cur rest
                  else UINT_MAX :: fresh
      | None => fresh
      end
  end.
(** pw_map_setup (gs.c:560-584). *)
Definition pw_map_setup (sh : list shared_id) : res (list nat * list shared_id) :=
  sh <- sort_by usize lsize [KU s_i] sh ;;
  Ok (pw_map None sh, sh).

(** pw_setup_aux (gs.c:586-604), pw_setup (gs.c:616-627); also returns top->sh, reordered. *)
Definition pw_setup (sh : list shared_id) : res (pw_data * list shared_id) :=
  '(c0, sh) <- pw_comm_setup true sh ;;
  '(m0, sh) <- pw_map_setup sh ;;
  '(c1, sh) <- pw_comm_setup false sh ;;
  '(m1, sh) <- pw_map_setup sh ;;
  Ok (PW c0 c1 m0 m1, sh).

(** allreduce_map_setup (gs.c:1024-1043). *)
Definition allreduce_map_setup (pr : list primary_shared_id) (skip_flagged to_buf : bool) : list nat :=
  flat_map (fun p => if to_buf then [p_i p; p_ord p; UINT_MAX] else [p_ord p; p_i p; UINT_MAX])
    (filter (fun p => negb (skip_flagged && p_flag p)) pr) ++ [UINT_MAX].
(** allreduce_setup_aux (gs.c:1045-1063), allreduce_setup (gs.c:1074-1086). *)
Definition allreduce_setup (pr : list primary_shared_id) (total_shared : nat) : allreduce_data :=
  AR (allreduce_map_setup pr true true) (allreduce_map_setup pr false true)
     (allreduce_map_setup pr false false) (allreduce_map_setup pr true false) (total_shared * 2).
End Setup.
