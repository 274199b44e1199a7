(** The memory a gs handle keeps: every block gs_setup allocates for it and gs_free frees (gs.c).

    A block is a number; tmalloc gives one that was never used; freeing a block that is not allocated, or a pointer that was
    never set, or reading a pointer stored in a block that is not allocated, is undefined.  Not modelled: the blocks that do not outlive a call (work arrays, the crystal router, the topology),
    the contents of the blocks (GsExec.v, GsCr.v, GsAuto.v) but for the maps' pointers in the stages, failing tmalloc (C09). *)
From Verif Require Import Base.
Local Open Scope nat_scope.

Record heap := Heap { live : list nat; fresh : nat }.
Definition tmalloc (h : heap) : nat * heap := (fresh h, Heap (fresh h :: live h) (S (fresh h))).
Definition free (h : heap) (b : nat) : res heap :=
  if existsb (Nat.eqb b) (live h) then Ok (Heap (filter (fun x => negb (x =? b)) (live h)) (fresh h)) else UB.
(** Reading a pointer stored in block [s]; and frees in order of pointers stored in [s]. *)
Definition use (h : heap) (s : nat) : res heap := if existsb (Nat.eqb s) (live h) then Ok h else UB.
Fixpoint frees_of (s : nat) (h : heap) (bs : list nat) : res heap :=
  match bs with [] => Ok h | b :: bs => h <- use h s ;; h <- free h b ;; frees_of s h bs end.

(** The pointers of struct pw_data (gs.c:411-416): comm[0].p, comm[1].p, map[0], map[1], req, and itself;
    struct cr_data (gs.c:640-644): nstages, stage[0], the scatter_map of each of the 2*(nstages+1) stages (None: not set;
    gather_map points into the same block), and itself; struct allreduce_data (gs.c:947-951): the four maps, req, itself. *)
Inductive remote :=
| PW (comm0 comm1 map0 map1 req self : nat)
| CR (nstages stage0 : nat) (maps : list (option nat)) (self : nat)
| AR (to0 from0 to1 from1 req self : nat).

(** pw_setup_aux, pw_setup (gs.c:586-627); pw_free (gs.c:606-614). *)
Definition pw_setup (h : heap) : res (remote * heap) :=
  let '(s, h) := tmalloc h in let '(c0, h) := tmalloc h in let '(m0, h) := tmalloc h in
  let '(c1, h) := tmalloc h in let '(m1, h) := tmalloc h in let '(q, h) := tmalloc h in Ok (PW c0 c1 m0 m1 q s, h).

(** The loop counting the stages in cr_schedule (gs.c:698-706), for process [id]. *)
Fixpoint count_stages (fuel id bl n : nat) : res nat :=
  match fuel with
  | O => OutOfFuel
  | S f => if 1 <? n then let nl := (n + 1) / 2 in let bh := bl + nl in
             k <- (if id <? bh then count_stages f id bl nl else count_stages f id bh (n - nl)) ;; Ok (S k)
           else Ok 0
  end.
(** cr_learn (gs.c:829-884): the map of each stage, from slot [i] on; crl_maps (gs.c:761-788) allocates it. *)
Definition crl_maps (h : heap) (maps : list (option nat)) (i : nat) : res (list (option nat) * heap) :=
  let '(b, h) := tmalloc h in maps <- wr maps i (Some b) ;; Ok (maps, h).
Fixpoint cr_learn (fuel id bl n : nat) (h : heap) (maps : list (option nat)) (i : nat) : res (list (option nat) * heap) :=
  match fuel with
  | O => OutOfFuel
  | S f => '(maps, h) <- crl_maps h maps i ;;
           if 1 <? n then let nl := (n + 1) / 2 in let bh := bl + nl in
             if id <? bh then cr_learn f id bl nl h maps (S i) else cr_learn f id bh (n - nl) h maps (S i)
           else Ok (maps, h)
  end.
(** cr_setup_aux, cr_setup (gs.c:886-914, 934-942). *)
Definition cr_setup (id np : nat) (h : heap) : res (remote * heap) :=
  let '(s, h) := tmalloc h in
  k <- count_stages (S np) id 0 np ;;
  let '(st, h) := tmalloc h in
  let maps := repeat None (2 * (k + 1)) in
  '(maps, h) <- cr_learn (S np) id 0 np h maps 0 ;;
  '(maps, h) <- cr_learn (S np) id 0 np h maps (k + 1) ;;
  Ok (CR k st maps s, h).
(** cr_free_stage_maps (gs.c:916-924): kmax stages in the loop and one after it; [st]: the block of the stages. *)
Fixpoint cr_free_stage_maps (st : nat) (h : heap) (maps : list (option nat)) (i kmax : nat) : res heap :=
  h <- use h st ;; m <- rd maps i ;;
  h <- match m with Some b => free h b | None => UB end ;;
  match kmax with O => Ok h | S kmax => cr_free_stage_maps st h maps (S i) kmax end.

(** allreduce_setup_aux, allreduce_setup (gs.c:1045-1063, 1074-1086); allreduce_free (gs.c:1065-1072) does not free req. *)
Definition allreduce_setup (h : heap) : res (remote * heap) :=
  let '(s, h) := tmalloc h in let '(t0, h) := tmalloc h in let '(f0, h) := tmalloc h in
  let '(t1, h) := tmalloc h in let '(f1, h) := tmalloc h in let '(q, h) := tmalloc h in Ok (AR t0 f0 t1 f1 q s, h).

(** r->fin: pw_free (gs.c:606-614), cr_free (gs.c:926-932), allreduce_free (gs.c:1065-1072). *)
Definition fin (r : remote) (h : heap) : res heap :=
  match r with
  | PW c0 c1 m0 m1 q s => h <- frees_of s h [c0; c1; m0; m1; q] ;; free h s
  | CR k st maps s => h <- use h s ;; h <- cr_free_stage_maps st h maps 0 k ;; h <- use h s ;; h <- cr_free_stage_maps st h maps (k + 1) k ;;
                    h <- frees_of s h [st] ;; free h s
  | AR t0 f0 t1 f1 q s => h <- frees_of s h [t0; t1; f0; f1] ;; free h s
  end.

Inductive method := gs_auto | gs_pairwise | gs_crystal_router | gs_all_reduce.
(** auto_setup (gs.c:1110-1147); [cr_faster], [ar_faster]: the outcomes of the two comparisons of measured times. *)
Definition auto_setup (id np : nat) (total_shared : Z) (cr_faster ar_faster : bool) (h : heap) : res (remote * heap) :=
  '(r, h) <- pw_setup h ;;
  if 1 <? np then
    '(alt, h) <- cr_setup id np h ;;
    '(r, h) <- (if cr_faster then h <- fin r h ;; Ok (alt, h) else h <- fin alt h ;; Ok (r, h)) ;;
    if (total_shared <? 100000)%Z then
      '(alt, h) <- allreduce_setup h ;;
      if ar_faster then h <- fin r h ;; Ok (alt, h) else h <- fin alt h ;; Ok (r, h)
    else Ok (r, h)
  else Ok (r, h).

(** struct gs_data (gs.c:1152-1158): map_local[0], map_local[1], flagged_primaries, r, and itself. *)
Record handle := Handle { local0 : nat; local1 : nat; primaries : nat; r : remote; self : nat }.
(** gs_setup (gs.c:1438-1445) with gs_setup_aux (gs.c:1393-1436) and local_setup (gs.c:1384-1391). *)
Definition gs_setup (m : method) (id np : nat) (total_shared : Z) (cr_faster ar_faster : bool) (h : heap) : res (handle * heap) :=
  let '(s, h) := tmalloc h in
  let '(l0, h) := tmalloc h in let '(l1, h) := tmalloc h in let '(fp, h) := tmalloc h in
  '(r, h) <- match m with
             | gs_auto => auto_setup id np total_shared cr_faster ar_faster h
             | gs_pairwise => pw_setup h
             | gs_crystal_router => cr_setup id np h
             | gs_all_reduce => allreduce_setup h
             end ;;
  Ok (Handle l0 l1 fp r s, h).
(** gs_free (gs.c:1447-1454). *)
Definition gs_free (g : handle) (h : heap) : res heap :=
  h <- frees_of (self g) h [local0 g; local1 g; primaries g] ;; h <- use h (self g) ;; h <- fin (r g) h ;; free h (self g).

(** A program: the heap and the handles it made (None once freed). *)
Record world := World { hp : heap; handles : list (option handle) }.
Inductive call :=
| Setup (m : method) (id np : nat) (total_shared : Z) (cr_faster ar_faster : bool)
| Free (k : nat).
Definition step (w : world) (a : call) : res world :=
  match a with
  | Setup m id np t x y => '(g, h) <- gs_setup m id np t x y (hp w) ;; Ok (World h (handles w ++ [Some g]))
  | Free k => match nth_error (handles w) k with
              | Some (Some g) => h <- gs_free g (hp w) ;; Ok (World h (upd (handles w) k None))
              | _ => UB
              end
  end.
