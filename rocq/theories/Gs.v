(** Model of the user functions of src/gs.c: gs_setup, gs, gs_vec, gs_many, gs_unique and the
    two halves of igs, igs_vec, igs_many. *)
From Verif Require Import Base Sort Sarray Net Ops Kernels Comm Transfer GsTop GsExec GsCr.

(** The remote part of a handle (struct gs_remote, gs.c:387-395). *)
Inductive gs_remote := RPw (d : pw_data) | RCr (d : cr_data) | RAr (d : allreduce_data).
Definition buffer_size (r : gs_remote) : nat :=
  match r with
  | RPw d => pw_buffer_size d
  | RCr d => cr_buffer_size d
  | RAr d => ar_buffer_size d
  end.
(** struct gs_data (gs.c:1156-1162). *)
Record gs_data := GS { g_local0 : list nat; g_local1 : list nat; g_flagged : list nat; g_r : gs_remote }.

Section Run.
Context {T : Type}.
Variable op : T -> T -> T.
Variable ident : T.
Variable SENT : nat.
Variable mode : gs_mode.
Variable vn : nat.
Variable np me : nat.
Variable transpose : bool.

(** gsh->r.exec(...) *)
Definition remote_exec (r : gs_remote) (u : udata T) (buf : list T) : prog T (udata T) :=
  match r with
  | RPw d => pw_exec op SENT mode vn transpose d me u buf
  | RCr d => cr_exec op SENT mode vn np transpose d u buf
  | RAr d => allreduce_exec op ident SENT mode vn transpose d np me u buf
  end.

(** The local work before the exchange (gs.c:1179-1180). *)
Definition gs_before (g : gs_data) (u : udata T) : res (udata T) :=
  u <- local_gather op SENT mode vn (if transpose then g_local1 g else g_local0 g) u ;;
  if transpose then Ok u else init ident SENT mode vn (g_flagged g) u.
(** The local work after it (gs.c:1182). *)
Definition gs_after (g : gs_data) (u : udata T) : res (udata T) :=
  local_scatter SENT mode vn (if transpose then g_local0 g else g_local1 g) u.

(** gs_aux (gs.c:1167-1183); [buf]: the memory gs_aux reserves in the buffer (buffer_reserve):
    vn*buffer_size elements with any contents. *)
Definition gs_aux (g : gs_data) (u : udata T) (buf : list T) : prog T (udata T) :=
  pbind (plift (gs_before g u)) (fun u =>
  pbind (remote_exec (g_r g) u buf) (fun u =>
  plift (gs_after g u))).

(** How the library was compiled, and what MPI offers: GSLIB_USE_MPI, GSLIB_USE_NBC; does MPI
    have a type for the domain and an operation for op (comm.c:151-170)?  [ctx]: the tag space
    MPI uses for its own collective operations. *)
Record nb_conf := Conf { use_mpi : bool; use_nbc : bool; mpi_known : bool; ctx : nat }.
Variable conf : nb_conf.

(** A non-blocking operation between igs and gs_wait: the user's data, the memory at buf, and
    the request, None if it was never set. *)
Record pending := Pending { pd_u : udata T; pd_buf : list T; pd_req : option nat }.

(** comm_iallreduce (comm.c:143-181): the contents of v afterwards, and the request.
    MPI_Iallreduce is modelled by an exchange of the vectors of all processes that the wait
    combines in the order of the processes (an instance of its contract). *)
Definition comm_iallreduce (gvn : nat) (v ardbuf : list T) : prog T (list T * option nat) :=
  if gvn =? 0 then Ret (v, None)
  else if negb (use_mpi conf) then Ret (v, None)
  else if mpi_known conf then
    if use_nbc conf then
      Post (map (fun q => (q, ctx conf, v)) (seq 0 np)) (map (fun q => (q, ctx conf, gvn)) (seq 0 np))
           (fun h => Ret (v, Some h))
    else Stop
  else pbind (allreduce_imp op np me gvn v ardbuf) (fun v => Ret (v, None)).
Definition combine_vectors (ms : list (list T)) : list T :=
  match ms with
  | [] => []
  | m :: ms => fold_left (fun a b => map (fun x => op (fst x) (snd x)) (combine a b)) ms m
  end.

(** allreduce_exec_i (gs.c:978-996). *)
Definition allreduce_exec_i (d : allreduce_data) (u : udata T) (buf : list T) : prog T pending :=
  let gvn := vn * (ar_buffer_size d / 2) in
  pbind (plift (
    b <- init_array ident (firstn gvn buf) gvn ;;
    scatter_to_buf SENT mode vn (if transpose then ar_to1 d else ar_to0 d) u b)) (fun b =>
  pbind (comm_iallreduce gvn b (firstn gvn (skipn gvn buf))) (fun r =>
  Ret (Pending u (fst r ++ skipn gvn buf) (snd r)))).
(** allreduce_exec_wait (gs.c:998-1019); waiting for a request that was never set is undefined
    (MPI_Waitall on uninitialised memory). *)
Definition allreduce_exec_wait (d : allreduce_data) (s : pending) : prog T (udata T) :=
  let gvn := vn * (ar_buffer_size d / 2) in
  pbind (if (1 <? np) && use_mpi conf then
           match pd_req s with
           | Some h => Wait h (fun ms => Ret (combine_vectors ms))
           | None => Stop
           end
         else Ret (firstn gvn (skipn gvn (pd_buf s)))) (fun ardbuf =>
  plift (scatter_from_buf SENT mode vn (if transpose then ar_from1 d else ar_from0 d) (pd_u s)
           (if use_mpi conf then ardbuf else firstn gvn (pd_buf s)))).

(** gs_aux_irecv followed by gs_aux_isend (gs.c:1185-1219).  cr_setup (gs.c:934-942) leaves the
    pointers exec_irecv, exec_isend, exec_wait of a crystal router handle uninitialised: calling
    through them is undefined. *)
Definition igs_aux (g : gs_data) (u : udata T) (buf : list T) : prog T pending :=
  pbind (plift (gs_before g u)) (fun u =>
  match g_r g with
  | RPw d => pw_exec_start SENT mode vn transpose d me u buf (fun h => Ret (Pending u buf (Some h)))
  | RCr _ => Stop
  | RAr d => allreduce_exec_i d u buf
  end).
(** gs_aux_wait (gs.c:1221-1238). *)
Definition wait_aux (g : gs_data) (s : pending) : prog T (udata T) :=
  pbind (match g_r g with
         | RPw d => match pd_req s with
                    | Some h => pw_exec_wait op SENT mode vn transpose d h (pd_u s) (pd_buf s)
                    | None => Stop
                    end
         | RCr _ => Stop
         | RAr d => allreduce_exec_wait d s
         end) (fun u =>
  plift (gs_after g u)).
End Run.

(** gs, gs_vec, gs_many (gs.c:1261-1265, 1317-1321, 1349-1353). *)
Definition gs {T} op (ident : T) SENT np me transpose g (u buf : list T) :=
  gs_aux op ident SENT mode_plain 1 np me transpose g (UFlat u) buf.
Definition gs_vec {T} op (ident : T) SENT vn np me transpose g (u buf : list T) :=
  gs_aux op ident SENT mode_vec vn np me transpose g (UFlat u) buf.
Definition gs_many {T} op (ident : T) SENT vn np me transpose g (us : list (list T)) buf :=
  gs_aux op ident SENT mode_many vn np me transpose g (UMany us) buf.

Section Setup.
Variable usize lsize INT_MAX np me : nat.

(** gs_method (gs.c:1382).  gs_auto times the methods with dry runs; the outcome of the two
    comparisons (gs.c:1129, used at 1139 and 1143), made on times obtained by an all-reduce and hence the same on
    every process, is a parameter. *)
Inductive gs_method := gs_auto (cr_faster ar_faster : bool) | gs_pairwise | gs_crystal_router | gs_all_reduce.

(** auto_setup (gs.c:1110-1151).  Simplification: the dry runs are left out. *)
Definition auto_setup (cr_faster ar_faster : bool) (top : topology) : prog (list byte) gs_remote :=
  pbind (plift (pw_setup usize lsize (t_sh top))) (fun a =>
  let (pw, sh) := (a : pw_data * list shared_id) in
  if 1 <? np then
    pbind (cr_setup usize lsize np me sh) (fun c =>
    let r := if cr_faster then RCr (fst c) else RPw pw in
    Ret (if (N.of_nat (t_total top) <? 100000)%N && ar_faster
         then RAr (allreduce_setup usize (t_pr top) (t_total top)) else r))
  else Ret (RPw pw)).

(** remote_setup[method] (gs.c:1396-1397, 1415). *)
Definition remote_setup (m : gs_method) (top : topology) : prog (list byte) gs_remote :=
  match m with
  | gs_auto c a => auto_setup c a top
  | gs_pairwise => pbind (plift (pw_setup usize lsize (t_sh top))) (fun d => Ret (RPw (fst d)))
  | gs_crystal_router => pbind (cr_setup usize lsize np me (t_sh top)) (fun d => Ret (RCr (fst d)))
  | gs_all_reduce => Ret (RAr (allreduce_setup usize (t_pr top) (t_total top)))
  end.

(** gs_setup_aux, gs_setup (gs.c:1393-1445), with local_setup (gs.c:1384-1391). *)
Definition gs_setup (ids : list Z) (unique : bool) (m : gs_method) : prog (list byte) gs_data :=
  pbind (get_topology usize lsize INT_MAX np me ids) (fun top =>
  pbind (plift (if unique then '(t, _) <- make_topology_unique usize lsize me top None ;; Ok t else Ok top)) (fun top =>
  pbind (remote_setup m top) (fun r =>
  Ret (GS (local_map usize (t_nz top) true) (local_map usize (t_nz top) false)
          (flagged_primaries_map usize (t_nz top)) r)))).

(** gs_unique (gs.c:1456-1465). *)
Definition gs_unique (ids : list Z) : prog (list byte) (list Z) :=
  pbind (get_topology usize lsize INT_MAX np me ids) (fun top =>
  pbind (plift (make_topology_unique usize lsize me top (Some ids))) (fun r =>
  match snd r with Some l => Ret l | None => Stop end)).
End Setup.
