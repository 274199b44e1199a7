(** Model of the Fortran interfaces: the tables of handles in src/gs.c, src/fcrystal.c and
    src/findpts.c, the argument checks, and how the arguments reach the C functions. *)
From Verif Require Import Base Ops Nonblock.
Local Open Scope Z_scope.

(** * Integer types of a build (types.h:59-86) on a platform with 32-bit int, 64-bit long and
    long long. *)
Inductive ctype := TInt | TLong | TLongLong.
Record config := Config { t_sint : ctype; t_slong : ctype }.
(** enum gs_dom (gs_defs.h:19-24, 57-62). *)
Inductive gs_dom := gs_double | gs_float | gs_int | gs_long | gs_long_long.
Definition sizeof (d : gs_dom) : Z :=
  match d with gs_double => 8 | gs_float => 4 | gs_int => 4 | gs_long => 8 | gs_long_long => 8 end.
(** GS_WHEN_LONG_LONG (types.h:38-57), GS_FOR_EACH_DOMAIN (gs_defs.h:19-24). *)
Definition is_long_long (t : ctype) : bool := match t with TLongLong => true | _ => false end.
Definition all_doms (c : config) : list gs_dom :=
  [gs_double; gs_float; gs_int; gs_long] ++
  (if is_long_long (t_sint c) || is_long_long (t_slong c) then [gs_long_long] else []).
(** gs_dom_size (gs_defs.h:69-73). *)
Definition gs_dom_size (c : config) : list Z := map sizeof (all_doms c) ++ [0].
(** gs_sint, gs_slong (gs_defs.h:64-65). *)
Definition dom_of (t : ctype) : gs_dom := match t with TInt => gs_int | TLong => gs_long | TLongLong => gs_long_long end.
Definition gs_sint c := dom_of (t_sint c).
Definition gs_slong c := dom_of (t_slong c).
(** fgs_dom (gs.c:1558). *)
Definition fgs_dom (c : config) : list gs_dom := [gs_float; gs_double; gs_sint c; gs_slong c].
(** (gs_op_t)(op-1): the enumeration of the operations (gs_defs.h:26-31, 75-80). *)
Definition op_number (k : Z) : res gs_op := rd [gs_add; gs_mul; gs_min; gs_max; gs_bpr] (Z.to_nat k).

(** What the C function is called with: which object, datatype, operation, transpose != 0, and the
    data: one array, one array of vectors of n, or several arrays (pointers are byte addresses). *)
Inductive form := Plain (u : Z) | Vec (u n : Z) | Many (us : list Z).
Record cgs (Obj : Type) := Cgs { c_on : Obj; c_dom : gs_dom; c_op : gs_op; c_transpose : bool; c_data : form }.
Arguments Cgs {Obj}. Arguments c_on {Obj}. Arguments c_dom {Obj}. Arguments c_op {Obj}. Arguments c_transpose {Obj}. Arguments c_data {Obj}.

(** * The table of objects (gs.c:1524-1526; fcrystal.c:83-85). *)
Record registry (C : Type) := Reg { arr : list C; rmax : nat; rn : nat }.
Arguments Reg {C}. Arguments arr {C}. Arguments rmax {C}. Arguments rn {C}.
Definition reg0 {C} : registry C := Reg [] 0 0.

Section GsTable.
Context {Obj : Type}.
Variable INT_MAX : nat.
Variable c : config.
Notation reg := (registry (@cell Obj)).

(** fgs_setup_pick (gs.c:1533-1543), fgs_setup (1545-1550).  [o]: the object as comm_init_check and gs_setup_aux
    leave it; if these stop the program there is nothing to say about the table. *)
Definition fgs_setup (t : reg) (o : Obj) : res (reg * Z) :=
  t <- (if (rn t =? rmax t)%nat then
          m <- int INT_MAX (rmax t + (rmax t / 2 + 1)) ;;
          Ok (Reg (arr t ++ repeat Uninit (m - length (arr t))) m (rn t))
        else Ok t) ;;
  a <- wr (arr t) (rn t) (Live o) ;;
  n <- int INT_MAX (S (rn t)) ;;
  Ok (Reg a (rmax t) n, Z.of_nat (rn t)).

(** fgs_check_handle (gs.c:1552-1556). *)
Definition fgs_check_handle (t : reg) (h : Z) : res unit :=
  if (h <? 0) || (Z.of_nat (rn t) <=? h) then Abort else
  p <- rd (arr t) (Z.to_nat h) ;;
  match p with Null => Abort | Live _ => Ok tt | Uninit => UB end.
(** fgs_check_parms (gs.c:1560-1568). *)
Definition fgs_check_parms (t : reg) (h dom op : Z) : res unit :=
  if (dom <? 1) || (3 <? dom) then Abort else
  if (op <? 1) || (4 <? op) then Abort else
  fgs_check_handle t h.
(** fgs_info[handle], and a pointer being followed. *)
Definition fgs_info (t : reg) (h : Z) : res (@cell Obj) := if h <? 0 then UB else rd (arr t) (Z.to_nat h).
Definition follow (p : @cell Obj) : res Obj := match p with Live o => Ok o | _ => UB end.
(** gs_hf2c (gs.c:1528-1531). *)
Definition gs_hf2c (t : reg) (h : Z) : res (@cell Obj) := fgs_info t h.

(** The common part of fgs, fgs_vec, fgs_many (gs.c:1570-1575, 1584-1590, 1600-1609). *)
Definition fgs_call (t : reg) (h dom op transpose : Z) (f : form) : res (cgs Obj) :=
  _ <- fgs_check_parms t h dom op ;;
  d <- rd (fgs_dom c) (Z.to_nat dom) ;;
  p <- op_number (op - 1) ;;
  x <- fgs_info t h ;; o <- follow x ;;
  Ok (Cgs o d p (negb (transpose =? 0)) f).
(** fgs (gs.c:1570-1575). *)
Definition fgs t h (u : Z) dom op transpose := fgs_call t h dom op transpose (Plain u).
(** fgs_vec (gs.c:1584-1590). *)
Definition fgs_vec t h (u n : Z) dom op transpose := fgs_call t h dom op transpose (Vec u n).
(** fgs_many (gs.c:1600-1609): the first n of six pointers; a seventh does not exist. *)
Definition fgs_many t h (u1 u2 u3 u4 u5 u6 n : Z) dom op transpose : res (cgs Obj) :=
  let uu := [u1; u2; u3; u4; u5; u6] in
  r <- fgs_call t h dom op transpose (Many (firstn (Z.to_nat n) uu)) ;;
  if (n <? 0) || (6 <? n) then UB else Ok r.

(** *stride * gs_dom_size[*dom-1] as size_t (gs.c:1643): int times unsigned is unsigned (32 bits);
    long times unsigned is long, whose overflow is undefined. *)
Definition fields_offset (stride size : Z) : res Z :=
  match t_sint c with
  | TInt => Ok (uwrap 32 (uwrap 32 stride * size))
  | _ => if (- 2 ^ 63 <=? stride * size) && (stride * size <? 2 ^ 63) then Ok (uwrap 64 (stride * size)) else UB
  end.
(** The loop (gs.c:1644); addresses wrap at 2^64. *)
Fixpoint fields_ptrs (n : nat) (u offset : Z) : list Z :=
  match n with
  | O => []
  | S n => u :: fields_ptrs n (uwrap 64 (u + offset)) offset
  end.
(** fgs_fields (gs.c:1630-1649).  None: nothing is done. *)
Definition fgs_fields (t : reg) (h u stride n dom op transpose : Z) : res (option (cgs Obj)) :=
  _ <- fgs_check_parms t h dom op ;;
  if n <? 0 then Ok None else
  s <- rd (gs_dom_size c) (Z.to_nat (dom - 1)) ;;
  off <- fields_offset stride s ;;
  r <- fgs_call t h dom op transpose (Many (fields_ptrs (Z.to_nat n) u off)) ;;
  Ok (Some r).

(** fgs_free (gs.c:1651-1656): the new table and the object that was freed. *)
Definition fgs_free (t : reg) (h : Z) : res (reg * Obj) :=
  _ <- fgs_check_handle t h ;;
  x <- fgs_info t h ;; o <- follow x ;;
  a <- wr (arr t) (Z.to_nat h) Null ;;
  Ok (Reg a (rmax t) (rn t), o).
End GsTable.

(** * src/fcrystal.c *)
Section CrystalTable.
Context {Obj : Type}.
Variable INT_MAX : nat.
Notation reg := (registry (@cell Obj)).
(** fcrystal_setup (fcrystal.c:87-98). *)
Definition fcrystal_setup (t : reg) (o : Obj) : res (reg * Z) :=
  t <- (if (rn t =? rmax t)%nat then
          m <- int INT_MAX (rmax t + (rmax t / 2 + 1)) ;;
          Ok (Reg (arr t ++ repeat Uninit (m - length (arr t))) m (rn t))
        else Ok t) ;;
  a <- wr (arr t) (rn t) (Live o) ;;
  n <- int INT_MAX (S (rn t)) ;;
  Ok (Reg a (rmax t) n, Z.of_nat (rn t)).
(** CHECK_HANDLE (fcrystal.c:100-103) and handle_array[*handle] as it is followed in fcrystal_ituple_sort,
    fcrystal_tuple_sort, fcrystal_ituple_transfer, fcrystal_tuple_transfer (fcrystal.c:105-181). *)
Definition fcrystal_use (t : reg) (h : Z) : res Obj :=
  if (h <? 0) || (Z.of_nat (rn t) <=? h) then Abort else
  p <- rd (arr t) (Z.to_nat h) ;;
  match p with Null => Abort | Live o => Ok o | Uninit => UB end.
(** fcrystal_free (fcrystal.c:183-189). *)
Definition fcrystal_free (t : reg) (h : Z) : res (reg * Obj) :=
  o <- fcrystal_use t h ;;
  a <- wr (arr t) (Z.to_nat h) Null ;;
  Ok (Reg a (rmax t) (rn t), o).
End CrystalTable.

(** * src/findpts.c *)
Section FindptsTable.
(** findpts_data_2 and findpts_data_3. *)
Context {O2 O3 : Type}.
Variable INT_MAX : nat.
(** The object a void pointer points to, and what a function with suffix _2 or _3 makes of it: using an
    object as the other type is undefined. *)
Inductive fdata := Fd2 (o : O2) | Fd3 (o : O3).
Definition as_2 (d : fdata) : res O2 := match d with Fd2 o => Ok o | Fd3 _ => UB end.
Definition as_3 (d : fdata) : res O3 := match d with Fd3 o => Ok o | Fd2 _ => UB end.
(** struct handle (findpts.c:242): data, ndim. *)
Notation reg := (registry (@cell fdata * Z)).
(** ffindpts_setup, ffindptsms_setup (findpts.c:247-355): [o2], [o3]: the object that the setup for that dimension
    makes.  ndim is converted to unsigned int. *)
Definition ffindpts_setup (t : reg) (ndim : Z) (o2 : O2) (o3 : O3) : res (reg * Z) :=
  t <- (if (rn t =? rmax t)%nat then
          m <- int INT_MAX (rmax t + (rmax t / 2 + 1)) ;;
          Ok (Reg (arr t ++ repeat (Uninit, 0) (m - length (arr t))) m (rn t))
        else Ok t) ;;
  let nd := uwrap 32 ndim in
  d <- (if nd =? 2 then Ok (Fd2 o2) else if nd =? 3 then Ok (Fd3 o3) else Abort) ;;
  a <- wr (arr t) (rn t) (Live d, nd) ;;
  n <- int INT_MAX (S (rn t)) ;;
  Ok (Reg a (rmax t) n, Z.of_nat (rn t)).
(** CHECK_HANDLE (findpts.c:357-360) and the choice between the _2 and the _3 function in ffindpts_free, ffindpts,
    ffindpts_eval, ffindpts_eval_local and their ms versions (findpts.c:362-583). *)
Definition ffindpts_use (t : reg) (h : Z) : res (O2 + O3) :=
  if (h <? 0) || (Z.of_nat (rn t) <=? h) then Abort else
  p <- rd (arr t) (Z.to_nat h) ;;
  match fst p with
  | Null => Abort
  | Live d => if snd p =? 2 then o <- as_2 d ;; Ok (inl o) else o <- as_3 d ;; Ok (inr o)
  | Uninit => UB
  end.
(** ffindpts_free, ffindptsms_free (findpts.c:362-380). *)
Definition ffindpts_free (t : reg) (h : Z) : res (reg * (O2 + O3)) :=
  o <- ffindpts_use t h ;;
  p <- rd (arr t) (Z.to_nat h) ;;
  a <- wr (arr t) (Z.to_nat h) (Null, snd p) ;;
  Ok (Reg a (rmax t) (rn t), o).
End FindptsTable.

(** * Non-blocking operations through the Fortran interface *)
Section Nonblocking.
Context {Obj : Type}.
Variable INT_MAX : nat.
Variable c : config.
(** gsh->r.buffer_size of an object. *)
Variable need : Obj -> Z.

(** An outstanding operation: the call; for igs_op_many the stack frame that holds the array of
    pointers (the local variable uu, gs.c:1616) which nonblocking_private.u points to; the bytes of
    static_buffer that belong to the exchange until it completes (buf is 0, gs.c:1195-1196). *)
Record entry := Entry { e_call : cgs Obj; e_frame : option nat; e_bytes : Z }.
(** Handles, outstanding operations, the stack frames that exist, a frame number not yet used. *)
Record fstate := FState { f_reg : registry (@cell Obj); f_nb : table entry; f_frames : list nat; f_next : nat }.

(** vn*gs_dom_size[dom]*gsh->r.buffer_size (gs.c:1178, 1196). *)
Definition vn_of (f : form) : Z := match f with Plain _ => 1 | Vec _ n => n | Many us => Z.of_nat (length us) end.
Definition bytes (k : cgs Obj) : Z := vn_of (c_data k) * sizeof (c_dom k) * need (c_on k).
(** An operation with buf = 0 uses the bytes [0, bytes) of static_buffer (and may move it); the messages of an
    outstanding operation own theirs until its wait: touching them is undefined (MPI). *)
Definition busy (s : fstate) : bool :=
  existsb (fun x => match x with Live e => 0 <? e_bytes e | _ => false end) (dict (f_nb s)).
Definition use_scratch (s : fstate) (b : Z) : res unit := if (0 <? b) && busy s then UB else Ok tt.

(** fgs, fgs_vec, fgs_many as seen by the non-blocking state (gs.c:1570-1609, 1177-1178). *)
Definition fgs_any (s : fstate) (h dom op transpose : Z) (f : form) : res (cgs Obj) :=
  k <- fgs_call c (f_reg s) h dom op transpose f ;;
  _ <- use_scratch s (bytes k) ;;
  Ok k.
(** figs, figs_vec (gs.c:1577-1582, 1592-1598). *)
Definition figs (s : fstate) (h dom op transpose : Z) (f : form) : res (fstate * Z) :=
  k <- fgs_call c (f_reg s) h dom op transpose f ;;
  _ <- use_scratch s (bytes k) ;;
  r <- igs_enter INT_MAX (f_nb s) (Entry k None (bytes k)) ;;
  Ok (FState (f_reg s) (fst r) (f_frames s) (f_next s), snd r).
(** figs_many (gs.c:1611-1621): uu lives in the frame of the call, which is gone after it returned. *)
Definition figs_many (s : fstate) (h dom op transpose : Z) (uu : list Z) : res (fstate * Z) :=
  k <- fgs_call c (f_reg s) h dom op transpose (Many uu) ;;
  _ <- use_scratch s (bytes k) ;;
  r <- igs_enter INT_MAX (f_nb s) (Entry k (Some (f_next s)) (bytes k)) ;;
  let s1 := FState (f_reg s) (fst r) (f_next s :: f_frames s) (S (f_next s)) in
  (* return *)
  Ok (FState (f_reg s1) (f_nb s1) (filter (fun f => negb (f =? f_next s)%nat) (f_frames s1)) (f_next s1), snd r).
(** fgs_wait (gs.c:1623-1626), gs_wait (gs.c:1291-1313): the pointers in u are read by the gathering and scattering
    kernels, once per array. *)
Definition fgs_wait (s : fstate) (h : Z) : res (fstate * option (cgs Obj)) :=
  r <- gs_wait_table (f_nb s) h ;;
  match snd r with
  | None => Ok (FState (f_reg s) (fst r) (f_frames s) (f_next s), None)
  | Some e =>
      _ <- match e_frame e with
      | Some f => if existsb (Nat.eqb f) (f_frames s) || (vn_of (c_data (e_call e)) =? 0) then Ok tt else UB
      | None => Ok tt
      end ;;
      Ok (FState (f_reg s) (fst r) (f_frames s) (f_next s), Some (e_call e))
  end.
End Nonblocking.
