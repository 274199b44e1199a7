(** Model of the topology discovery of src/gs.c (gs_setup, gs_unique).

    ids passed by the user are integers (slong); labels, indices and process numbers are
    natural numbers.  usize, lsize: sizes of uint and ulong in bytes.
    Simplifications: array_init / array_reserve / buffer_reserve always succeed; members of a
    struct that the code leaves uninitialised are 0; the scratch memory used by the sorts and
    transfers is zero-filled (C06 and C20 show its contents do not matter). *)
From Verif Require Import Base Sort Sarray Net NetWords Comm Crystal Transfer.

(** struct nonzero_id (gs.c:89-91); flag is 0 or 1. *)
Record nonzero_id := NZ { z_id : nat; z_i : nat; z_flag : bool; z_primary : nat }.
(** struct unique_id (gs.c:123). *)
Record unique_id := UI { u_id : nat; u_proc : nat; u_src : nat }.
(** struct shared_id_work (gs.c:168). *)
Record shared_id_work := WK { w_id : nat; w_ord : nat; w_p1 : nat; w_p2 : nat; w_i1f : nat; w_i2f : nat }.
(** struct shared_id (gs.c:158-160); flags as its two bits FLAGS_LOCAL and FLAGS_REMOTE. *)
Record shared_id := SH { s_id : nat; s_i : nat; s_p : nat; s_ri : nat; s_bi : nat;
                         s_local : bool; s_remote : bool }.
(** struct primary_shared_id (gs.c:162-164). *)
Record primary_shared_id := PR { p_id : nat; p_ord : nat; p_i : nat; p_flag : bool }.

(** struct gs_topology (gs.c:62-68). *)
Record topology := Top { t_total : nat; t_nz : list nonzero_id; t_sh : list shared_id;
                         t_pr : list primary_shared_id }.

Definition flag_key (b : bool) : nat := if b then 1 else 0.

Section Top.
Variable usize lsize INT_MAX np me : nat.    (** me: comm.id *)

Definition UINT_MAX : nat := ulim usize - 1.
Definition ULONG_MAX : nat := ulim lsize - 1.
(** ~x on uint, and the test ~x<x for a flagged index. *)
Definition unot (x : nat) : nat := UINT_MAX - x.
Definition flagged (x : nat) : bool := unot x <? x.

(** A sort key: a member of type uint or ulong. *)
Inductive key (T : Type) := KU (f : T -> nat) | KL (f : T -> nat).
Arguments KU {T} _.
Arguments KL {T} _.
Definition key_field {T} (n : nat) (k : key T) : field T :=
  let z := repeat (SD 0%N 0) n in
  match k with
  | KU f => FInt usize (fun x => N.of_nat (f x)) z z (repeat 0 n)
  | KL f => FInt lsize (fun x => N.of_nat (f x)) z z (repeat 0 n)
  end.
(** sarray_sort, sarray_sort_2 with the given keys, most significant first. *)
Definition sort_by {T} (ks : list (key T)) (A : list T) : res (list T) :=
  sarray_sort A (repeat 0 (length A)) (map (key_field (length A)) ks).

(** The scratch memory of a transfer of n structs of rw words. *)
Definition zero_scratch (n rw : nat) : scratch :=
  Scratch (repeat 0 n) (repeat (SD 0%N 0) n) (repeat (SD 0%N 0) n) (repeat 0 n)
          (repeat 0 (n * (rw + 3) * usize)).
(** sarray_transfer of an array of structs given with their bytes. *)
Definition transfer {X} (size p_off : nat) (set_src : bool) (to : X -> row) (from : row -> X)
    (A : list X) : prog (list byte) (list X) :=
  pbind (sarray_transfer usize INT_MAX np me size p_off set_src (map to A)
           (zero_scratch (length A) ((size - usize + usize - 1) / usize))) (fun R =>
  Ret (map from R)).

(** The loop over the user's ids (gs.c:101-108). *)
Fixpoint nz_collect (i : nat) (ids : list Z) : list nonzero_id :=
  match ids with
  | [] => []
  | z :: ids' =>
      if (z =? 0)%Z then nz_collect (S i) ids'
      else NZ (Z.abs_nat z) i (negb (z =? Z.abs z)%Z) 0 :: nz_collect (S i) ids'
  end.

(** The loop setting primary (gs.c:112-117). *)
Fixpoint nz_set_primary (last_id primary : nat) (rows : list nonzero_id) : list nonzero_id :=
  match rows with
  | [] => []
  | r :: rows' =>
      let primary := if z_id r =? last_id then primary else z_i r in
      NZ (z_id r) (z_i r) (z_flag r) primary :: nz_set_primary (z_id r) primary rows'
  end.

(** nonzero_ids (gs.c:93-119). *)
Definition nonzero_ids (ids : list Z) : res (list nonzero_id) :=
  nz <- sort_by [KL z_id; KU (fun r => flag_key (z_flag r))] (nz_collect 0 ids) ;;
  sort_by [KU z_primary] (nz_set_primary ULONG_MAX UINT_MAX nz).

(** unique_ids (gs.c:124-138). *)
Definition unique_ids (nz : list nonzero_id) : list unique_id :=
  map (fun r => UI (z_id r) (z_id r mod np) (if z_flag r then unot (z_i r) else z_i r))
      (filter (fun r => z_i r =? z_primary r) nz).

(** The bytes of a struct unique_id, of a struct shared_id_work. *)
Definition unique_id_bytes (r : unique_id) : row :=
  enc lsize (u_id r) ++ enc usize (u_proc r) ++ enc usize (u_src r).
Definition unique_id_of (b : row) : unique_id :=
  UI (dec (firstn lsize b)) (dec (firstn usize (skipn lsize b))) (dec (skipn (lsize + usize) b)).
Definition work_bytes (w : shared_id_work) : row :=
  enc lsize (w_id w) ++ enc lsize (w_ord w) ++
  enc usize (w_p1 w) ++ enc usize (w_p2 w) ++ enc usize (w_i1f w) ++ enc usize (w_i2f w).
Definition work_of (b : row) : shared_id_work :=
  let u k := dec (firstn usize (skipn (2 * lsize + k * usize) b)) in
  WK (dec (firstn lsize b)) (dec (firstn lsize (skipn lsize b))) (u 0) (u 1) (u 2) (u 3).

(** The loop counting shared ids (gs.c:211-217). *)
Fixpoint count_shared (last_id n : nat) (un : list unique_id) : nat :=
  match un with
  | [] => n
  | r :: rest =>
      if flagged (u_src r) then count_shared last_id n rest
      else if u_id r =? last_id then count_shared last_id n rest
      else match rest with
           | o :: _ => if u_id o =? u_id r then count_shared (u_id r) (S n) rest
                       else count_shared last_id n rest
           | [] => count_shared last_id n rest
           end
  end.

(** The inner loop over other (gs.c:231-243); [ord0] is ordinal[0].  Returns last_id,
    ordinal[0] and the entries written. *)
Fixpoint pair_inner (r : unique_id) (last_id ord0 : nat) (others : list unique_id)
    : nat * nat * list shared_id_work :=
  match others with
  | [] => (last_id, ord0, [])
  | o :: others' =>
      if u_id o =? u_id r then
        let ord0 := if u_id r =? last_id then ord0 else S ord0 in
        let last_id := u_id r in
        let ord := ord0 - 1 in
        let '(l, d, ws) := pair_inner r last_id ord0 others' in
        (l, d, WK (u_id r) ord (u_proc r) (u_proc o) (u_src r) (u_src o) ::
               WK (u_id r) ord (u_proc o) (u_proc r) (u_src o) (u_src r) :: ws)
      else (last_id, ord0, [])
  end.

(** The loop constructing the list of shared ids (gs.c:227-244). *)
Fixpoint pair_loop (last_id ord0 : nat) (un : list unique_id) : list shared_id_work :=
  match un with
  | [] => []
  | r :: rest =>
      if flagged (u_src r) then pair_loop last_id ord0 rest
      else let '(l, d, ws) := pair_inner r last_id ord0 rest in ws ++ pair_loop l d rest
  end.

(** The loop of shared_ids_aux (gs.c:180-192). *)
Fixpoint shared_out (last_id : nat) (wa : list shared_id_work)
    : list shared_id * list primary_shared_id :=
  match wa with
  | [] => ([], [])
  | w :: wa' =>
      let i1f := w_i1f w in let i2f := w_i2f w in
      let i1 := if flagged i1f then unot i1f else i1f in
      let i2 := if flagged i2f then unot i2f else i2f in
      let f1 := negb (i1f =? i1) in let f2 := negb (i2f =? i2) in
      let '(sh, pr) := shared_out (w_id w) wa' in
      (SH (w_id w) i1 (w_p2 w) i2 0 f1 f2 :: sh,
       if w_id w =? last_id then pr else PR (w_id w) (w_ord w) i1 f1 :: pr)
  end.

(** shared_ids_aux (gs.c:169-194). *)
Definition shared_ids_aux (wa : list shared_id_work) : res (list shared_id * list primary_shared_id) :=
  wa <- sort_by [KL w_id] wa ;;
  let '(sh, pr) := shared_out ULONG_MAX wa in
  pr <- sort_by [KU p_i] pr ;;
  Ok (sh, pr).

(** Values of an ulong, addition modulo 2^(8*lsize) (the slong addition of comm_scan), and
    their bytes in a message. *)
Definition ulong_t : Type := { n : nat | (n <? ulim lsize) = true }.
Lemma mod_ulim n : (n mod ulim lsize <? ulim lsize) = true.
Proof. apply Nat.ltb_lt, Nat.mod_upper_bound, Nat.pow_nonzero. discriminate. Qed.
Definition to_ulong (n : nat) : ulong_t := exist _ (n mod ulim lsize) (mod_ulim n).
Definition ulong_add (a b : ulong_t) : ulong_t := to_ulong (proj1_sig a + proj1_sig b).
Definition ulong_word (a : ulong_t) : list byte := enc lsize (proj1_sig a).
Definition word_ulong (b : list byte) : ulong_t := to_ulong (dec b).

(** comm_scan of one slong with gs_add (gs.c:218). *)
Definition scan_ulong (n : nat) : prog (list byte) (list ulong_t) :=
  let z := [to_ulong 0; to_ulong 0] in
  as_words ulong_word word_ulong
    (comm_scan ulong_add (to_ulong 0) np me 1 [to_ulong n] z z).

(** shared_ids (gs.c:196-250): sh, pr and the total number of shared ids. *)
Definition shared_ids (nz : list nonzero_id)
    : prog (list byte) (list shared_id * list primary_shared_id * nat) :=
  pbind (transfer (lsize + 2 * usize) lsize true unique_id_bytes unique_id_of (unique_ids nz)) (fun un =>
  pbind (plift (sort_by [KL u_id; KU u_src] un)) (fun un =>
  pbind (scan_ulong (count_shared ULONG_MAX 0 un)) (fun ordinal =>
  match ordinal with
  | [o0; o1] =>
      pbind (transfer (2 * lsize + 4 * usize) (2 * lsize) false work_bytes work_of
               (pair_loop ULONG_MAX (proj1_sig o0) un)) (fun wa =>
      pbind (plift (shared_ids_aux wa)) (fun r =>
      Ret (fst r, snd r, proj1_sig o1)))
  | _ => Stop
  end))).

(** get_topology (gs.c:252-257). *)
Definition get_topology (ids : list Z) : prog (list byte) topology :=
  pbind (plift (nonzero_ids ids)) (fun nz =>
  pbind (shared_ids nz) (fun r =>
  let '(sh, pr, total) := r in Ret (Top total nz sh pr))).

(** ** make_topology_unique *)

(** The loop flagging local non-primaries (gs.c:269-277); [id] is None when the caller passed
    a null pointer. *)
Fixpoint flag_nonprimaries (nz : list nonzero_id) (id : option (list Z))
    : res (list nonzero_id * option (list Z)) :=
  match nz with
  | [] => Ok ([], id)
  | r :: nz' =>
      if z_i r =? z_primary r then
        '(l, id) <- flag_nonprimaries nz' id ;; Ok (r :: l, id)
      else
        id <- match id with
              | Some a => a <- wr a (z_i r) (- Z.of_nat (z_id r))%Z ;; Ok (Some a)
              | None => Ok None
              end ;;
        '(l, id) <- flag_nonprimaries nz' id ;;
        Ok (NZ (z_id r) (z_i r) true (z_primary r) :: l, id)
  end.

(** while(pnz->i!=i) ++pnz;  then pnz->flag=1 if [mark]  (gs.c:292, 305): the rows passed, and
    the rows from pnz on. *)
Fixpoint advance (i : nat) (mark : bool) (pnz : list nonzero_id) : res (list nonzero_id * list nonzero_id) :=
  match pnz with
  | [] => UB
  | r :: rest =>
      if z_i r =? i then
        Ok ([], (if mark then NZ (z_id r) (z_i r) true (z_primary r) else r) :: rest)
      else '(a, b) <- advance i mark rest ;; Ok (r :: a, b)
  end.

(** The rows of sh from pb on with the same i: the run and what follows (gs.c:294-295). *)
Fixpoint run_of (i : nat) (sh : list shared_id) : list shared_id * list shared_id :=
  match sh with
  | [] => ([], [])
  | s :: rest => if s_i s =? i then let '(a, b) := run_of i rest in (s :: a, b) else ([], sh)
  end.

(** lt: remotely unflagged rows of the run before the first row with p >= pid (gs.c:294);
    gt: those after (gs.c:295). *)
Fixpoint count_lt (run : list shared_id) : nat :=
  match run with
  | [] => 0
  | s :: rest => if s_p s <? me then (if s_remote s then 0 else 1) + count_lt rest else 0
  end.
Definition count_unflagged (run : list shared_id) : nat := length (filter (fun s => negb (s_remote s)) run).

(** owner == lt (mine), or the number of the owner among the remotely unflagged rows
    (gs.c:296-302). *)
Definition pick_owner (pb : shared_id) (run : list shared_id) : res (option nat) :=
  let lt := count_lt run in
  let all := count_unflagged run in              (** lt+gt *)
  if negb (s_local pb) then
    let owner := s_id pb mod (all + 1) in
    if owner =? lt then Ok None
    else Ok (Some (if lt <? owner then owner - 1 else owner))
  else if all =? 0 then UB else Ok (Some (s_id pb mod all)).

(** One iteration of the loop over runs (gs.c:289-314). *)
Definition assign_owner (s : list nonzero_id * list nonzero_id * option (list Z) * list shared_id)
    (run : list shared_id) : res (list nonzero_id * list nonzero_id * option (list Z) * list shared_id) :=
  let '(passed, pnz, id, out) := s in
  match run with
  | [] => Ok s
  | pb :: _ =>
      owner <- pick_owner pb run ;;
      match owner with
      | None =>
          '(a, b) <- advance (s_i pb) false pnz ;;
          Ok (passed ++ a, b, id, out ++
              map (fun x => SH (s_id x) (s_i x) (s_p x) (s_ri x) (s_bi x) false true) run)
      | Some k =>
          '(a, b) <- advance (s_i pb) true pnz ;;
          id <- match id with
                | Some l => l <- wr l (s_i pb) (- Z.of_nat (s_id pb))%Z ;; Ok (Some l)
                | None => Ok None
                end ;;
          Ok (passed ++ a, b, id, out ++
              match nth_error (filter (fun x => negb (s_remote x)) run) k with
              | Some x => [SH (s_id x) (s_i x) (s_p x) (s_ri x) (s_bi x) true false]
              | None => []
              end)
      end
  end.

(** The runs of equal i, in order. *)
Fixpoint runs_of (fuel : nat) (sh : list shared_id) : list (list shared_id) :=
  match fuel, sh with
  | S f, s :: _ => let '(a, b) := run_of (s_i s) sh in a :: runs_of f b
  | _, _ => []
  end.

(** The last loop (gs.c:322-330): q advances one row of pr per run. *)
Fixpoint match_flags (runs : list (list shared_id)) (pr : list primary_shared_id)
    : res (list primary_shared_id) :=
  match runs with
  | [] => Ok pr
  | run :: runs' =>
      match run, pr with
      | pb :: _, q :: pr' =>
          l <- match_flags runs' pr' ;; Ok (PR (p_id q) (p_ord q) (p_i q) (s_local pb) :: l)
      | _, _ => UB
      end
  end.

(** make_topology_unique (gs.c:259-331). *)
Definition make_topology_unique (top : topology) (id : option (list Z))
    : res (topology * option (list Z)) :=
  nz <- sort_by [KU z_i] (t_nz top) ;;
  '(nz, id) <- flag_nonprimaries nz id ;;
  nz <- sort_by [KU z_primary] nz ;;
  sh <- sort_by [KU s_i; KU s_p] (t_sh top) ;;
  '(passed, pnz, id, sh) <- foldM assign_owner (runs_of (length sh) sh) ([], nz, id, []) ;;
  sh <- sort_by [KL s_id] sh ;;
  pr <- sort_by [KL p_id] (t_pr top) ;;
  pr <- match_flags (runs_of (length sh) sh) pr ;;
  Ok (Top (t_total top) (passed ++ pnz) sh pr, id).

(** ** Local maps *)

(** DO_SET of local_map (gs.c:348-357): [cur] = (row_id, row->i, any) inside the inner loop.
    The code stores row->i at once and takes it back (--p) when there is no other member;
    here it is written with the first other member. *)
Fixpoint local_map_loop (ignore_flagged : bool) (cur : option (nat * nat * bool))
    (rows : list nonzero_id) : list nat :=
  let close := match cur with Some (_, _, true) => [UINT_MAX] | _ => [] end in
  match rows with
  | [] => close ++ [UINT_MAX]
  | r :: rest =>
      match cur with
      | Some (id, i, any) =>
          if (z_id r =? id) && (negb ignore_flagged || negb (z_flag r))
          then (if any then [] else [i]) ++ z_i r :: local_map_loop ignore_flagged (Some (id, i, true)) rest
          else close ++ local_map_loop ignore_flagged (Some (z_id r, z_i r, false)) rest
      | None => local_map_loop ignore_flagged (Some (z_id r, z_i r, false)) rest
      end
  end.
(** local_map (gs.c:335-363). *)
Definition local_map (nz : list nonzero_id) (ignore_flagged : bool) : list nat :=
  local_map_loop ignore_flagged None nz.

(** flagged_primaries_map (gs.c:365-378). *)
Definition flagged_primaries_map (nz : list nonzero_id) : list nat :=
  map z_i (filter (fun r => (z_i r =? z_primary r) && z_flag r) nz) ++ [UINT_MAX].
End Top.
Arguments KU {T} _.
Arguments KL {T} _.
