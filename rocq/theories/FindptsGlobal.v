(** Model of the distributed search of points: src/findpts.c, src/findpts_imp.h.
    Simplifications: as in Findpts.v; structs have no padding bytes. *)
From Verif Require Import Base Sort Sarray Net NetWords Comm Crystal Transfer GsTop Findpts.
From Coq Require Import QArith Qround.
Open Scope nat_scope.

(** set_bit, get_bit, byte_bits, count_bits (findpts.c:44-71) on a list of bytes. *)
Definition set_bit (p : list nat) (i : nat) : res (list nat) :=
  x <- rd p (i / 8) ;; wr p (i / 8) (Nat.lor x (2 ^ (i mod 8))).
Definition get_bit (p : list nat) (i : nat) : res bool :=
  x <- rd p (i / 8) ;; Ok (Nat.testbit x (i mod 8)).
Definition byte_bits (x : nat) : nat := length (filter (Nat.testbit x) (seq 0 8)).
Definition count_bits (w : nat) (p : list nat) : nat :=
  fold_left (fun sum x => wrap w (sum + byte_bits x)) p 0.

Section Global.
Variable F : doubles.
Notation dbl := (dbl F).
Notation result := (result F).
Variable rnd : Q -> Q.
Variable usize lsize INT_MAX np me : nat.
Variable dzero : dbl.
Variable D : nat.
Notation wrap := (wrap usize).

(** gs_min and gs_max on doubles (gs_defs.h:35-36). *)
Definition dbl_min (a b : dbl) : dbl := if dlt F b a then b else a.
Definition dbl_max_op (a b : dbl) : dbl := if dlt F a b then b else a.
(** comm_allreduce of D doubles (findpts_imp.h:83, 87). *)
Definition allreduce_dbl (op : dbl -> dbl -> dbl) (x : list dbl) : prog (list byte) (list dbl) :=
  as_words (dbl_bytes F) (bytes_dbl F) (comm_allreduce op np me D x (repeat dzero D)).
(** comm_allreduce of the hash sizes (findpts_imp.h:90).  Simplification: the sum of doubles
    is a sum of unsigned longs (it is exact below 2^53). *)
Definition allreduce_size (hash_size : nat) : prog (list byte) (list (ulong_t lsize)) :=
  as_words (ulong_word lsize) (word_ulong lsize)
    (comm_allreduce (ulong_add lsize) np me 1 [to_ulong lsize hash_size] [to_ulong lsize 0]).

(** hash_bb (findpts_imp.h:77-99): the bounds of all processes and the number of cells;
    [root s] is lceil(pow(s,1./D)). *)
Definition global_bb (root : nat -> nat) (lbnd : box F) (hash_size : nat)
    : prog (list byte) (box F * nat) :=
  pbind (allreduce_dbl dbl_min (map fst lbnd)) (fun mins =>
  pbind (allreduce_dbl dbl_max_op (map snd lbnd)) (fun maxs =>
  pbind (allreduce_size hash_size) (fun s =>
  match s with
  | [s] => Ret (combine mins maxs, root (proj1_sig s))
  | _ => Stop
  end))).

(** The bits set by FOR_LOOP of set_local_mask (findpts_imp.h:111-119), in this order: ranges
    of the element, local_base, local_n. *)
Fixpoint mask_bits (irs : list (nat * nat)) (base_n : list (nat * nat)) : list nat :=
  match irs, base_n with
  | ir :: irs', (base, n) :: bn' =>
      flat_map (fun o => map (fun i => Findpts.wrap lsize (o * n + usub lsize i base)) (loop_range ir))
        (mask_bits irs' bn')
  | _, _ => [0]
  end.
(** set_local_mask (findpts_imp.h:101-123). *)
Definition set_local_mask (hn : nat) (bd : box F) (fc : list (option Q)) (base_n : list (nat * nat))
    (obb : list (box F)) (mask : list nat) : res (list nat) :=
  foldM (fun mask b =>
    irs <- hash_ranges F rnd lsize hn bd fc b ;;
    foldM (fun mask i => set_bit mask (wrap i)) (mask_bits irs base_n) mask) obb mask.

(** struct proc_index (findpts.c:33). *)
Record proc_index := PI { pi_proc : nat; pi_index : nat }.
Definition pi_bytes (x : proc_index) : row := enc usize (pi_proc x) ++ enc usize (pi_index x).
Definition pi_of (b : row) : proc_index := PI (dec (firstn usize b)) (dec (skipn usize b)).

(** fill_hash (findpts_imp.h:125-145); the array has nc entries. *)
Definition fill_hash (nc : nat) (mask : list nat) (base_n : list (nat * nat)) (hn : nat)
    : res (list proc_index) :=
  '(_, out) <- foldM (fun '(bit, out) hi =>
      b <- get_bit mask bit ;;
      if b : bool then
        if length out <? nc then
          Ok (wrap (bit + 1), out ++ [PI (hi mod np) (wrap (hi / np))])
        else UB
      else Ok (wrap (bit + 1), out))
    (cells lsize hn (map (fun bn => (fst bn, fst bn + snd bn)) base_n)) (0, []) ;;
  Ok (out ++ repeat (PI 0 0) (nc - length out)).

(** while(next_cell<=cell) offset[next_cell++]=off (findpts_imp.h:165, 168). *)
Definition fill_offset (offs : list nat) (next cell off : nat) : res (list nat * nat) :=
  offs <- foldM (fun offs c => wr offs c off) (seq next (cell + 1 - next)) offs ;;
  Ok (offs, Nat.max next (cell + 1)).
(** table_from_hash (findpts_imp.h:147-170). *)
Definition table_from_hash (hn : nat) (hash : list proc_index) : res (list nat) :=
  let hnd := power lsize hn D in
  let ncell := wrap ((hnd - 1) / np + 1) in
  hash <- sort_by usize lsize [KU pi_index] hash ;;
  let n := length hash in
  '(offs, next) <- foldM (fun '(offs, next) '(i, x) =>
      let off := wrap (ncell + 1 + i) in
      offs <- wr offs off (pi_proc x) ;;
      fill_offset offs next (pi_index x) off)
    (combine (seq 0 n) hash) (repeat 0 (wrap (ncell + 1 + n)), 0) ;;
  '(offs, _) <- fill_offset offs next ncell (wrap (ncell + 1 + n)) ;;
  Ok offs.

(** hash_build (findpts_imp.h:172-207). *)
Definition global_build (root : nat -> nat) (lbnd : box F) (obb : list (box F)) (hash_size : nat)
    : prog (list byte) (hash_data F) :=
  pbind (global_bb root lbnd hash_size) (fun '(bd, hn) =>
  let fc := hash_setfac F rnd bd hn in
  pbind (plift (hash_ranges F rnd lsize hn bd fc lbnd)) (fun rngs =>
  let base_n := map (fun r => (fst r, wrap (usub lsize (snd r) (fst r)))) rngs in
  let ntot := fold_left (fun t bn => wrap (t * snd bn)) base_n 1 in
  let nbytes := wrap (ntot + 7) / 8 in
  pbind (plift (set_local_mask hn bd fc base_n obb (repeat 0 nbytes))) (fun mask =>
  pbind (plift (fill_hash (count_bits usize mask) mask base_n hn)) (fun hash =>
  pbind (transfer usize INT_MAX np me (2 * usize) 0 true pi_bytes pi_of hash) (fun hash =>
  pbind (plift (table_from_hash hn hash)) (fun offs =>
  Ret (HD F hn bd fc offs 0))))))).

(** struct findpts_data (findpts_imp.h:216-223); savpt is None while fevsetup is 0. *)
Record eval_src_pt := ES { es_r : list dbl; es_index : nat; es_proc : nat; es_el : nat }.
Record findpts_data := FD { local : local_data F; hash : hash_data F; savpt : option (list eval_src_pt) }.

(** setupms_aux (findpts_imp.h:225-240), findpts_setup and findptsms_setup
    (findpts_imp.h:242-257, 629-645).  The boxes of the elements, the box test, the solver
    come from obbox_calc and findpts_el_setup; [nu] as in hash_opt_size. *)
Definition findpts_setup (root : nat -> nat) (obb : list (box F)) (local_hash_size nu global_hash_size : nat)
    (box_test : nat -> list dbl -> bool) (solve : nat -> list dbl -> found F) (npt_max : nat)
    (ims : bool) (nsid : nat) : prog (list byte) findpts_data :=
  pbind (plift (hash_build F rnd usize dzero D obb local_hash_size nu)) (fun hd =>
  pbind (global_build root (bnd F hd) obb global_hash_size) (fun h =>
  Ret (FD (LD F hd box_test solve npt_max ims nsid) h None))).

(** *** Messages *)
(** struct src_pt (findpts_imp.h:268) and its bytes. *)
Record src_pt := SP { sp_x : list dbl; sp_index : nat; sp_proc : nat; sp_sid : nat }.
Definition dbls_bytes (x : list dbl) : list byte := concat (map (dbl_bytes F) x).
Definition dbls_of (n : nat) (b : list byte) : list dbl :=
  map (fun i => bytes_dbl F (firstn (dsize F) (skipn (i * dsize F) b))) (seq 0 n).
Definition uint_at (off k : nat) (b : list byte) : nat := dec (firstn usize (skipn (off + k * usize) b)).
Definition sp_bytes (p : src_pt) : row :=
  dbls_bytes (sp_x p) ++ enc usize (sp_index p) ++ enc usize (sp_proc p) ++ enc usize (sp_sid p).
Definition sp_of (b : row) : src_pt :=
  let u := uint_at (D * dsize F) in SP (dbls_of D b) (u 0 b) (u 1 b) (u 2 b).
(** struct out_pt (findpts_imp.h:269): the index and the result. *)
Definition op_bytes (p : nat * result) : row :=
  let '(i, o) := p in
  dbls_bytes (r F o ++ [dist2 F o; disti F o]) ++ enc usize i ++ enc usize (code F o) ++
  enc usize (el F o) ++ enc usize (proc F o) ++ enc usize (elsid F o).
Definition op_of (b : row) : nat * result :=
  let u := uint_at ((D + 2) * dsize F) in
  let d := dbls_of (D + 2) b in
  (u 0 b, Res F (u 1 b) (u 3 b) (u 2 b) (firstn D d) (nth D d dzero) (nth (D + 1) d dzero) (u 4 b)).
(** struct eval_src_pt, struct eval_out_pt (findpts_imp.h:528-529). *)
Definition es_bytes (p : eval_src_pt) : row :=
  dbls_bytes (es_r p) ++ enc usize (es_index p) ++ enc usize (es_proc p) ++ enc usize (es_el p).
Definition es_of (b : row) : eval_src_pt :=
  let u := uint_at (D * dsize F) in ES (dbls_of D b) (u 0 b) (u 1 b) (u 2 b).
Record eval_out_pt := EO { eo_out : dbl; eo_index : nat; eo_proc : nat }.
Definition eo_bytes (p : eval_out_pt) : row :=
  dbl_bytes F (eo_out p) ++ enc usize (eo_index p) ++ enc usize (eo_proc p).
Definition eo_of (b : row) : eval_out_pt :=
  EO (bytes_dbl F (firstn (dsize F) b)) (uint_at (dsize F) 0 b) (uint_at (dsize F) 1 b).

(** sarray_transfer_ext of an array of structs given with their bytes. *)
Definition transfer_ext {X} (size : nat) (to : X -> row) (from : row -> X) (proc : list nat)
    (A : list X) : prog (list byte) (list X) :=
  pbind (sarray_transfer_ext usize INT_MAX np me size proc (map to A)
           (zero_scratch usize (length A) ((size + usize - 1) / usize))) (fun R =>
  Ret (map from R)).

(** *** findptsms *)
Definition set_proc (p : nat) (o : result) : result :=
  Res F (code F o) p (el F o) (r F o) (dist2 F o) (disti F o) (elsid F o).

(** The loop over the points (findpts_imp.h:313-332): proc is set, points to look for
    elsewhere are collected. *)
Definition to_hash (fd : findpts_data) (pts : list (point F)) (st : list result) : res (list src_pt) :=
  l <- mapM (fun '(index, (p, o)) =>
         if ((negb (code F o =? INTERNAL)) && negb (ims F (local fd))) || ims F (local fd) then
           hi <- table_index F rnd lsize (hash fd) (px F p) ;;
           Ok [SP (px F p) index (wrap hi mod np) (psid F p)]
         else Ok [])
       (combine (seq 0 (length pts)) (combine pts st)) ;;
  Ok (concat l).

(** The loop over the points in the hash cells (findpts_imp.h:349-358). *)
Definition to_procs (fd : findpts_data) (hash_pt : list src_pt) : res (list (nat * src_pt)) :=
  l <- mapM (fun p =>
         hi <- table_index F rnd lsize (hash fd) (sp_x p) ;;
         let hi := wrap (hi / np) in
         i <- rd (offset F (hash fd)) hi ;;
         ie <- rd (offset F (hash fd)) (hi + 1) ;;
         pps <- mapM (rd (offset F (hash fd))) (seq i (ie - i)) ;;
         Ok (map (fun pp => (pp, p)) (filter (fun pp => negb (pp =? sp_proc p)) pps)))
       hash_pt ;;
  Ok (concat l).

(** The search for the points of other processes (findpts_imp.h:369-400). *)
Fixpoint drop_unfound (l : list (nat * result)) : list (nat * result) :=   (* line 396, from the end *)
  match l with
  | [] => []
  | x :: l' => if code F (snd x) =? NOT_FOUND then drop_unfound l' else l
  end.
Definition search_here (fd : findpts_data) (sessm : nat) (spts : list src_pt) : res (list (nat * result)) :=
  let opt := map (fun p => Res F 0 (sp_proc p) 0 (repeat dzero D) dzero dzero 0) spts in
  opt <- (if length spts =? 0 then Ok opt
          else findptsms_local F rnd usize dzero (local fd) sessm
                 (map (fun p => Pt F (sp_x p) (sp_sid p)) spts) opt) ;;
  out <- sort_by usize lsize [KU (fun x => code F (snd x))] (combine (map sp_index spts) opt) ;;
  Ok (rev (drop_unfound (rev out))).

(** The merge of remote results for ims=0 (findpts_imp.h:503-519). *)
Definition merge_one (st : list result) (x : nat * result) : res (list result) :=
  let '(index, opt) := x in
  o <- rd st index ;;
  if code F o =? INTERNAL then Ok st
  else if (code F o =? NOT_FOUND) || (code F opt =? INTERNAL) || dlt F (dist2 F opt) (dist2 F o) then
    wr st index (Res F (code F opt) (proc F opt) (el F opt) (r F opt) (dist2 F opt) (disti F o) (elsid F o))
  else Ok st.
Definition merge (out : list (nat * result)) (st : list result) : res (list result) :=
  foldM merge_one out st.

(** findptsms (findpts_imp.h:271-526) up to the merge: the user's arrays after the local
    search and the results that came back.  array_free(savpt) is done in [findpts]. *)
Definition findpts_search (fd : findpts_data) (sessm : nat) (pts : list (point F)) (st : list result)
    : prog (list byte) (list result * list (nat * result)) :=
  pbind (plift (if length pts =? 0 then Ok st
                else findptsms_local F rnd usize dzero (local fd) sessm pts st)) (fun st =>
  let st := map (set_proc me) st in
  pbind (plift (to_hash fd pts st)) (fun hash_pt =>
  pbind (transfer usize INT_MAX np me (D * dsize F + 3 * usize) (D * dsize F + usize) true sp_bytes sp_of hash_pt) (fun hash_pt =>
  pbind (plift (to_procs fd hash_pt)) (fun routed =>
  pbind (transfer_ext (D * dsize F + 3 * usize) sp_bytes sp_of (map fst routed) (map snd routed)) (fun src =>
  pbind (plift (search_here fd sessm src)) (fun out =>
  pbind (transfer usize INT_MAX np me ((D + 2) * dsize F + 5 * usize) ((D + 2) * dsize F + 3 * usize) true
           op_bytes op_of out) (fun out =>
  Ret (st, out)))))))).

(** findpts (findpts_imp.h:652-676) and findptsms with ims=0: the user's arrays and the new
    findpts_data; die(1) if the data were set up by findptsms_setup. *)
Definition findpts (fd : findpts_data) (pts : list (list dbl)) (st : list result)
    : prog (list byte) (list result * findpts_data) :=
  if ims F (local fd) then plift Abort else
  pbind (findpts_search fd 0 (map (fun x => Pt F x 0) pts) st) (fun '(st, out) =>
  pbind (plift (merge out st)) (fun st =>
  Ret (st, FD (local fd) (hash fd) None))).

(** *** findpts_eval *)
(** setup_fev_aux (findpts_imp.h:531-581). *)
Definition setup_fev (st : list result) : prog (list byte) (list eval_src_pt) :=
  let src := concat (map (fun '(index, o) =>
      if code F o =? NOT_FOUND then [] else [ES (r F o) index (proc F o) (el F o)])
    (combine (seq 0 (length st)) st)) in
  pbind (transfer usize INT_MAX np me (D * dsize F + 3 * usize) (D * dsize F + usize) true es_bytes es_of src) (fun src =>
  plift (sort_by usize lsize [KU es_el] src)).

(** findptsms_eval, findpts_eval (findpts_imp.h:583-627, 678-694); [eval e x] is the value of
    the field at x in the local element e, [out] the user's output array. *)
Definition findpts_eval (fd : findpts_data) (eval : nat -> list dbl -> dbl) (st : list result) (out : list dbl)
    : prog (list byte) (list dbl * findpts_data) :=
  pbind (match savpt fd with Some s => Ret s | None => setup_fev st end) (fun sav =>
  pbind (plift (local_eval F (length sav) (local fd) eval (map (fun p => (es_el p, es_r p)) sav))) (fun vals =>
  pbind (transfer usize INT_MAX np me (dsize F + 2 * usize) (dsize F + usize) true eo_bytes eo_of
           (map (fun '(p, v) => EO v (es_index p) (es_proc p)) (combine sav vals))) (fun res =>
  pbind (plift (foldM (fun out p => wr out (eo_index p) (eo_out p)) res out)) (fun out =>
  Ret (out, FD (local fd) (hash fd) (Some sav)))))).
End Global.
