(** Model of src/findpts_el_2.c in exact real arithmetic: the search of points in one element of
    two dimensions.
    Division by 0, which yields an infinity or NaN in the code, is [UB].  DBL_MAX is a parameter.
    The areas of the array work (resid, jac, wtr, ...) are arrays of their own, initially 0 (no
    result depends on that); [need] checks that together they fit into work.  The parts of the
    array fd->z[0] (z, lag_data, wtend, sides) and the two halves of fd->p are arrays of their
    own.  Arrays of fixed size (x, r, jac, bnd, ...) are lists.  unsigned has 32 bits. *)
From Verif Require Import Base Tensor Poly PolyGll.
From Coq Require Import Reals NArith.
Open Scope R_scope.

(** a[i], a[i]=v for arrays of known size. *)
Definition ent (a : list R) (i : nat) : R := nth i a 0.
Definition dv (a b : R) : res R := if Req_EM_T b 0 then UB else Ok (a / b).
Definition need (have want : nat) : res unit := if (want <=? have)%nat then Ok tt else UB.

(** lin_solve_2 (findpts_el_2.c:32-37). *)
Definition lin_solve_2 (A y : list R) : res (list R) :=
  idet <- dv 1 (ent A 0 * ent A 3 - ent A 1 * ent A 2) ;;
  Ok [idet * (ent A 3 * ent y 0 - ent A 1 * ent y 1); idet * (ent A 0 * ent y 1 - ent A 2 * ent y 0)].

(** struct findpts_el_pt_2 (39-42). *)
Record pt := Pt { px : list R; pr : list R; oldr : list R; dist2 : R; dist2p : R; tr : R; index : nat; flags : N }.

Open Scope N_scope.
(** Unsigned arithmetic. *)
Definition u32 (x : N) : N := x mod 2 ^ 32.
Definition shl (x : N) (k : N) : N := u32 (N.shiftl x k).
Definition unot (x : N) : N := N.lxor x (2 ^ 32 - 1).
Definition usub32 (a b : N) : N := u32 (a + 2 ^ 32 - b).
(** CONVERGED_FLAG, FLAG_MASK (52-53). *)
Definition CONVERGED_FLAG : N := shl 1 4.
Definition FLAG_MASK : N := 31.
(** num_constrained (55-59). *)
Definition num_constrained (flags : N) : N :=
  let y := N.lor flags (N.shiftr flags 1) in N.land y 1 + N.land (N.shiftr y 2) 1.
(** pt_flags_to_bin_noC (61-64), pt_flags_to_bin (66-72). *)
Definition pt_flags_to_bin_noC (flags : N) : N := N.land (N.shiftr flags 2) 3 * 3 + N.land flags 3.
Definition pt_flags_to_bin (flags : N) : N :=
  let mask := usub32 0 (N.shiftr flags 4) in
  N.lor (N.land mask 9) (N.land (unot mask) (pt_flags_to_bin_noC flags)).
(** plus_1_mod_2 (75), which_bit (78-82), edge_index (84), point_index (86-89). *)
Definition plus_1_mod_2 (x : nat) : nat := N.to_nat (N.lxor (N.of_nat x) 1).
Definition which_bit (x : N) : N :=
  let y := N.land x 7 in N.lor (usub32 y (N.shiftr y 2)) (N.land (usub32 x 1) 4).
Definition edge_index (x : N) : nat := N.to_nat (usub32 (which_bit x) 1).
Definition point_index (x : N) : nat := N.to_nat (N.lor (N.land (N.shiftr x 1) 1) (N.land (N.shiftr x 2) 2)).
(** flags>>(2*d) & 3u. *)
Definition con (flags : N) (d : nat) : N := N.land (N.shiftr flags (2 * N.of_nat d)) 3.
(** v<<(2*d). *)
Definition at_dir (v : N) (d : nat) : N := shl v (2 * N.of_nat d).
Open Scope R_scope.

(** reject_prior_step_q (278-340): the point to put into out (with r, dist2p and flags still to
    be set if the second component is false). *)
Definition reject_prior_step_q (DBL_MAX : R) (resid : list R) (p : pt) (tol : R) : pt * bool :=
  let old_dist2 := dist2 p in
  let d2 := ent resid 0 * ent resid 0 + ent resid 1 * ent resid 1 in
  let decr := old_dist2 - d2 in
  let pred := dist2p p in
  if Rle_dec (1 / 100 * pred) decr then
    if Rle_dec (9 / 10 * pred) decr
    then (Pt (px p) [] (pr p) d2 0 (tr p * 2) (index p) 0, false)
    else (Pt (px p) [] (pr p) d2 0 (tr p) (index p) 0, false)
  else
    let v0 := Rabs (ent (pr p) 0 - ent (oldr p) 0) in
    let v1 := Rabs (ent (pr p) 1 - ent (oldr p) 1) in
    let f := N.shiftr (flags p) 5 in
    (Pt (px p) (oldr p) (pr p) old_dist2 (- DBL_MAX) ((if Rlt_dec v1 v0 then v0 else v1) / 4) (index p)
        (if Rlt_dec pred (d2 * tol) then N.lor f CONVERGED_FLAG else f), true).
(** out->r=r, out->dist2p=d, out->flags=f. *)
Definition set_step (out : pt) (r : list R) (d : R) (f : N) : pt :=
  Pt (px out) r (oldr out) (dist2 out) d (tr out) (index out) f.

(** * newton_area (342-502) *)
(** bnd and mask (366-370). *)
Definition area_bounds (r0 : list R) (tr : R) : list R * N :=
  fold_left (fun '(bnd, mask) d =>
    let '(bnd, mask) := if Rlt_dec (-1) (ent r0 d - tr)
                        then (upd bnd (2 * d) (ent r0 d - tr), N.lxor mask (at_dir 1 d)) else (bnd, mask) in
    if Rlt_dec (ent r0 d + tr) 1
    then (upd bnd (2 * d + 1) (ent r0 d + tr), N.lxor mask (at_dir 2 d)) else (bnd, mask))
    [0; 1]%nat ([-1; 1; -1; 1], 15%N).
(** The first bound that is met on the way to r0+dr (378-389). *)
Definition area_first (r0 dr bnd : list R) : res (R * N) :=
  foldM (fun '(fac, flags) d =>
    let nr := ent r0 d + ent dr d in
    if Rle_dec 0 ((nr - ent bnd (2 * d)) * (ent bnd (2 * d + 1) - nr)) then Ok (fac, flags) else
    if Rlt_dec nr (ent bnd (2 * d)) then
      f <- dv (ent bnd (2 * d) - ent r0 d) (ent dr d) ;;
      Ok (if Rlt_dec f fac then (f, at_dir 1 d) else (fac, flags))
    else
      f <- dv (ent bnd (2 * d + 1) - ent r0 d) (ent dr d) ;;
      Ok (if Rlt_dec f fac then (f, at_dir 2 d) else (fac, flags)))
    [0; 1]%nat (1, 0%N).
(** resid - jac dr. *)
Definition lin_res (jac resid dr : list R) : R * R :=
  (ent resid 0 - (ent jac 0 * ent dr 0 + ent jac 1 * ent dr 1),
   ent resid 1 - (ent jac 2 * ent dr 0 + ent jac 3 * ent dr 1)).
(** newton_area_edge (399-439): the new dr and flags. *)
Definition area_edge (jac resid r0 bnd dr : list R) (flags : N) : res (list R * N) :=
  let ei := edge_index flags in
  let dn := (ei / 2)%nat in let de := plus_1_mod_2 dn in
  let '(res0, res1) := lin_res jac resid dr in
  let y := ent jac de * res0 + ent jac (2 + de) * res1 in
  let JtJ := ent jac de * ent jac de + ent jac (2 + de) * ent jac (2 + de) in
  drc <- dv y JtJ ;;
  let rz := ent r0 de + ent dr de in let lb := ent bnd (2 * de) in let ub := ent bnd (2 * de + 1) in
  let nr := ent r0 de + (ent dr de + drc) in
  '(fac, new_flags) <-
    (if Rlt_dec ((nr - lb) * (ub - nr)) 0 then
       if Rlt_dec nr lb then
         f <- dv (lb - rz) drc ;; Ok (if Rlt_dec f 1 then (f, at_dir 1 de) else (1, 0%N))
       else
         f <- dv (ub - rz) drc ;; Ok (if Rlt_dec f 1 then (f, at_dir 2 de) else (1, 0%N))
     else Ok (1, 0%N)) ;;
  Ok (upd dr de (ent dr de + fac * drc), N.lor flags new_flags).
(** newton_area_relax (440-475): the new dr and flags. *)
Definition area_relax (jac resid r0 bnd dr : list R) (flags : N) : list R * N :=
  let '(res0, res1) := lin_res jac resid dr in
  let y := [ent jac 0 * res0 + ent jac 2 * res1; ent jac 1 * res0 + ent jac 3 * res1] in
  let setdr dr d :=
    let f := con flags d in
    if (f =? 0)%N then dr else upd dr d (ent bnd (2 * d + N.to_nat (f - 1)) - ent r0 d) in
  let dr := setdr (setdr dr 0%nat) 1%nat in
  let flags := fold_left (fun fl d =>
    if (con fl d =? 0)%N then fl
    else if Rlt_dec (ent dr d * ent y d) 0 then N.land fl (unot (at_dir 3 d)) else fl) [0; 1]%nat flags in
  (dr, flags).
(** The goto loop: at most fuel edges. *)
Fixpoint area_loop (fuel : nat) (jac resid r0 bnd dr : list R) (flags : N) : res (list R * N) :=
  match fuel with
  | O => OutOfFuel
  | S fuel =>
      '(dr, old_flags) <- area_edge jac resid r0 bnd dr flags ;;
      let '(dr, flags) := area_relax jac resid r0 bnd dr old_flags in
      if (flags =? old_flags)%N then Ok (dr, flags)
      else if (num_constrained flags =? 1)%N then area_loop fuel jac resid r0 bnd dr flags
      else Ok (dr, flags)
  end.
(** newton_area; the number of edges is bounded by 4 (theorems show that this suffices). *)
Definition newton_area (out : pt) (jac resid : list R) (p : pt) (tol : R) : res pt :=
  let r0 := pr p in
  let '(bnd, mask) := area_bounds r0 (tr p) in
  dr <- lin_solve_2 jac resid ;;
  '(fac, fl) <- area_first r0 dr bnd ;;
  '(dr, fl) <- (if (fl =? 0)%N then Ok (dr, fl)
                else area_loop 4 jac resid r0 bnd [ent dr 0 * fac; ent dr 1 * fac] fl) ;;
  (* newton_area_fin (477-501) *)
  let fl := N.land fl mask in
  let fl := if Rlt_dec (Rabs (ent dr 0) + Rabs (ent dr 1)) tol then N.lor fl CONVERGED_FLAG else fl in
  let '(res0, res1) := lin_res jac resid dr in
  let d2p := ent resid 0 * ent resid 0 + ent resid 1 * ent resid 1 - (res0 * res0 + res1 * res1) in
  let setr d := if (con fl d =? 0)%N then ent r0 d + ent dr d else if (con fl d =? 1)%N then -1 else 1 in
  Ok (set_step out [setr 0%nat; setr 1%nat] d2p (N.lor fl (shl (flags p) 5))).

(** newton_edge (504-557). *)
Definition newton_edge (out : pt) (jac : list R) (rhes : R) (resid : list R) (de dn : nat) (fl : N) (p : pt) (tol : R) : res pt :=
  let A := ent jac de * ent jac de + ent jac (2 + de) * ent jac (2 + de) - rhes in
  let y := ent jac de * ent resid 0 + ent jac (2 + de) * ent resid 1 in
  let old := ent (pr p) de in
  let eval dr := (dr * A - 2 * y) * dr in
  let fin dr nr v new_flags :=
    let new_flags := if Rlt_dec (Rabs dr) tol then N.lor new_flags CONVERGED_FLAG else new_flags in
    Ok (set_step out (upd (upd [0; 0] de nr) dn (ent (pr p) dn)) (- v) (N.lor (N.lor fl new_flags) (shl (flags p) 5))) in
  let ends :=
    let '(nr, dr, nf) := if Rlt_dec (-1) (old - tr p) then (old - tr p, - tr p, 0%N)
                         else (-1, -1 - old, N.lor fl (at_dir 1 de)) in
    let v := eval dr in
    let '(tnr, tdr, tnf) := if Rlt_dec (old + tr p) 1 then (old + tr p, tr p, 0%N)
                            else (1, 1 - old, N.lor fl (at_dir 2 de)) in
    let tv := eval tdr in
    if Rlt_dec tv v then fin tdr tnr tv tnf else fin dr nr v nf in
  if Rlt_dec 0 A then
    dr <- dv y A ;;
    let nr := old + dr in
    if Rlt_dec (Rabs dr) (tr p) then if Rlt_dec (Rabs nr) 1 then fin dr nr (eval dr) 0%N else ends else ends
  else ends.

(** struct findpts_el_gedge_2, findpts_el_gpt_2 (100-101). *)
Record gedge := Edge { ex : list arr; edxdn : list arr }.
Record gpt := Gpt { gx : list R; gjac : list R; ghes : list R }.
(** struct findpts_el_data_2 (103-121): what does not change during a search, and the rest. *)
Record el := El { npt_max : nat; n : list nat; zz : list arr; lag : list lagrange_fun; wtend : list arr; ux : list arr }.
Record st := St { lag_data : list arr; side_init : N; edges : list gedge; pts : list gpt }.
Definition nn (fd : el) (d : nat) : nat := nth d (n fd) 0%nat.
Definition get_lag (fd : el) (d : nat) : lagrange_fun := nth d (lag fd) (fun _ _ _ _ _ => UB).

(** work_size (128-142). *)
Definition work_size (nr ns npt_max : nat) : nat :=
  let n := if (nr <? ns)%nat then ns else nr in
  let wsize := ((6 + 2 * (2 * nr + ns)) * npt_max)%nat in
  let do_max wsize x := if (wsize <? x)%nat then x else wsize in
  let wsize := do_max wsize (4 * (nr + ns))%nat in
  let wsize := do_max wsize (6 * (nr + 6))%nat in
  do_max wsize (npt_max * (10 + 3 * n))%nat.
Definition have (fd : el) : nat := work_size (nn fd 0) (nn fd 1) (npt_max fd).

(** One direction of findpts_el_setup_2 (170-179): z, the function, its data, wtend. *)
Definition setup_dir (nodes_n : arr -> nat -> res arr) (n : nat) : res (arr * lagrange_fun * arr * arr) :=
  z <- lobatto_nodes nodes_n (repeat 0 n) n ;;
  '(f, data) <- gll_lag_setup nodes_n (repeat 0 (gll_lag_size n)) n ;;
  match f with
  | None => UB
  | Some f =>
      '(wa, data) <- f (repeat 0 (3 * n)) data n 2%nat (-1) ;;
      '(wb, data) <- f (repeat 0 (3 * n)) data n 2%nat 1 ;;
      wa <- wr wa 0 1 ;;
      wa <- foldM (fun w i => wr w i 0) (seq 1 (n - 1)) wa ;;
      wb <- foldM (fun w i => wr w i 0) (seq 0 (n - 1)) wb ;;
      wb <- wr wb (n - 1) 1 ;;
      Ok (z, f, data, wa ++ wb)
  end.
(** findpts_el_setup_2 (143-192) followed by findpts_el_start_2 (findpts_el.h:51-55) for the
    element with the coordinates x. *)
Definition findpts_el_setup_2 (nodes_n : arr -> nat -> res arr) (nr ns npt_max : nat) (x : list arr) : res (el * st) :=
  '(z0, f0, d0, w0) <- setup_dir nodes_n nr ;;
  '(z1, f1, d1, w1) <- setup_dir nodes_n ns ;;
  Ok (El npt_max [nr; ns] [z0; z1] [f0; f1] [w0; w1] x,
      St [d0; d1] 0%N (repeat (Edge [[]; []] [[]; []]) 4) (repeat (Gpt [] [] []) 4)).
(** findpts_el_start_2 for another element. *)
Definition findpts_el_start_2 (fd : el) (s : st) (x : list arr) : el * st :=
  (El (npt_max fd) (n fd) (zz fd) (lag fd) (wtend fd) x, St (lag_data s) 0%N (edges s) (pts s)).

Section With.
Variable DBL_MAX : R.
Variable P : products R.
Notation tensor_mtxm := (tensor_mtxm R 0 Rplus Rmult).
Notation tensor_ig1 := (tensor_ig1 R 0 Rplus Rmult).
Notation tensor_i1 := (tensor_i1 R 0 Rplus Rmult).
Notation mxm := (mxm R P).
Notation mtxv := (mtxv R P).

(** The n numbers from position o on (memcpy from there). *)
Definition part (a : arr) (o n : nat) : res arr :=
  if (o + n <=? length a)%nat then Ok (firstn n (skipn o a)) else UB.
Definition arr_at (l : list arr) (d : nat) : arr := nth d l [].

(** compute_edge_data_r (202-217): the new edges 2 and 3. *)
Definition compute_edge_data_r (fd : el) (s : st) : res st :=
  let nr := nn fd 0 in let ns := nn fd 1 in
  _ <- need (have fd) (2 * (nr + ns)) ;;
  a <- part (arr_at (wtend fd) 1) ns ns ;;
  b <- part (arr_at (wtend fd) 1) (4 * ns) ns ;;
  dns <- mapM (fun d => w <- mxm (repeat 0 (2 * nr)) nr (arr_at (ux fd) d) ns (a ++ b) 2 ;;
                        u <- part w 0 nr ;; v <- part w nr nr ;; Ok (u, v)) [0; 1]%nat ;;
  let e2 := Edge (ux fd) (map fst dns) in
  let e3 := Edge (map (skipn (nr * (ns - 1))) (ux fd)) (map snd dns) in
  Ok (St (lag_data s) (side_init s) (upd (upd (edges s) 2 e2) 3 e3) (pts s)).
(** compute_edge_data_s (219-234): edges 0 and 1. *)
Definition compute_edge_data_s (fd : el) (s : st) : res st :=
  let nr := nn fd 0 in let ns := nn fd 1 in
  _ <- need (have fd) (4 * (nr + ns)) ;;
  a <- part (arr_at (wtend fd) 0) 0 (2 * nr) ;;
  b <- part (arr_at (wtend fd) 0) (3 * nr) (2 * nr) ;;
  ws <- mapM (fun d => tensor_mtxm (repeat 0 (4 * ns)) ns (arr_at (ux fd) d) nr (a ++ b) 4) [0; 1]%nat ;;
  x0 <- mapM (fun w => part w 0 ns) ws ;;
  n0 <- mapM (fun w => part w ns ns) ws ;;
  x1 <- mapM (fun w => part w (2 * ns) ns) ws ;;
  n1 <- mapM (fun w => part w (3 * ns) ns) ws ;;
  Ok (St (lag_data s) (side_init s) (upd (upd (edges s) 0 (Edge x0 n0)) 1 (Edge x1 n1)) (pts s)).
(** get_edge (236-249). *)
Definition get_edge (fd : el) (s : st) (ei : nat) : res (gedge * st) :=
  let mask := shl 1 (N.of_nat (ei / 2)) in
  s <- (if (N.land (side_init s) mask =? 0)%N then
          s <- (if (ei / 2 =? 0)%nat then compute_edge_data_s fd s else compute_edge_data_r fd s) ;;
          Ok (St (lag_data s) (N.lor (side_init s) mask) (edges s) (pts s))
        else Ok s) ;;
  e <- rd (edges s) ei ;; Ok (e, s).

(** compute_pt_data (251-268): corner 2*j+i. *)
Definition compute_pt_data (fd : el) (s : st) : res st :=
  let nr := nn fd 0 in let ns := nn fd 1 in
  _ <- need (have fd) (6 * (nr + 6)) ;;
  w2 <- mapM (fun d =>
    w <- mxm (repeat 0 (6 * nr)) nr (arr_at (ux fd) d) ns (arr_at (wtend fd) 1) 6 ;;
    tensor_mtxm (repeat 0 36) 6 (arr_at (wtend fd) 0) nr w 6) [0; 1]%nat ;;
  ps <- mapM (fun '(j, i) =>
    let w d b a := rd (arr_at w2 d) (6 * (3 * j + b) + (3 * i + a)) in
    x <- mapM (fun d => w d 0%nat 0%nat) [0; 1]%nat ;;
    jac <- mapM (fun '(d, b, a) => w d b a) [(0, 0, 1); (0, 1, 0); (1, 0, 1); (1, 1, 0)]%nat ;;
    hes <- mapM (fun '(d, b, a) => w d b a) [(0, 0, 2); (0, 2, 0); (1, 0, 2); (1, 2, 0)]%nat ;;
    Ok (Gpt x jac hes)) [(0, 0); (0, 1); (1, 0); (1, 1)]%nat ;;
  Ok (St (lag_data s) (side_init s) (edges s) ps).
(** get_pt (270-276). *)
Definition get_pt (fd : el) (s : st) (pi : nat) : res (gpt * st) :=
  s <- (if (N.land (side_init s) 4 =? 0)%N then
          s <- compute_pt_data fd s ;; Ok (St (lag_data s) (N.lor (side_init s) 4) (edges s) (pts s))
        else Ok s) ;;
  g <- rd (pts s) pi ;; Ok (g, s).

(** for(i=0;i<pn;++i) fd->lag[d](wt+(der+1)*i*n, lag_data, n, der, r_i). *)
Fixpoint lag_all (f : lagrange_fun) (data : arr) (n der : nat) (rs : list R) : res (arr * arr) :=
  match rs with
  | [] => Ok ([], data)
  | r :: rs =>
      '(w, data) <- f (repeat 0 ((der + 1) * n)) data n der r ;;
      '(ws, data) <- lag_all f data n der rs ;;
      Ok (w ++ ws, data)
  end.
Definition lag_dir (fd : el) (s : st) (d der : nat) (rs : list R) : res (arr * st) :=
  '(w, data) <- lag_all (get_lag fd d) (arr_at (lag_data s) d) (nn fd d) der rs ;;
  Ok (w, St (upd (lag_data s) d data) (side_init s) (edges s) (pts s)).
(** The points with their positions in the group. *)
Definition numbered (ps : list pt) : list (nat * pt) := combine (seq 0 (length ps)) ps.

(** findpt_area (564-595). *)
Definition findpt_area (fd : el) (s : st) (ps : list pt) (tol : R) : res (list pt * st) :=
  let nr := nn fd 0 in let ns := nn fd 1 in let pn := length ps in
  _ <- need (have fd) ((6 + 2 * (2 * nr + ns)) * pn) ;;
  '(wtr, s) <- lag_dir fd s 0 1 (map (fun p => ent (pr p) 0) ps) ;;
  '(wts, s) <- lag_dir fd s 1 1 (map (fun p => ent (pr p) 1) ps) ;;
  rows <- mapM (fun d =>
    slice <- mxm (repeat 0 (2 * nr * pn)) nr (arr_at (ux fd) d) ns wts (2 * pn) ;;
    mapM (fun '(i, p) =>
      let wtr_i := skipn (2 * i * nr) wtr in let slice_i := skipn (2 * i * nr) slice in
      '(v, g) <- tensor_ig1 wtr_i nr slice_i ;;
      j1 <- tensor_i1 wtr_i nr (skipn nr slice_i) ;;
      Ok (ent (px p) d - v, [ent g 0; j1])) (numbered ps)) [0; 1]%nat ;;
  out <- mapM (fun '(i, p) =>
    '(r0, j0) <- rd (nth 0 rows []) i ;; '(r1, j1) <- rd (nth 1 rows []) i ;;
    let resid := [r0; r1] in let jac := j0 ++ j1 in
    let '(out, rejected) := reject_prior_step_q DBL_MAX resid p tol in
    if rejected then Ok out else newton_area out jac resid p tol) (numbered ps) ;;
  Ok (out, s).

(** findpt_edge (597-659). *)
Definition findpt_edge (fd : el) (s : st) (ps : list pt) (tol : R) : res (list pt * st) :=
  p0 <- rd ps 0 ;;
  let pflag := N.land (flags p0) FLAG_MASK in
  let ei := edge_index pflag in
  let dn := (ei / 2)%nat in let de := plus_1_mod_2 dn in
  let n := nn fd de in let pn := length ps in
  _ <- need (have fd) ((10 + 3 * n) * pn) ;;
  '(edge, s) <- get_edge fd s ei ;;
  '(wt, s) <- lag_dir fd s de 2 (map (fun p => ent (pr p) de) ps) ;;
  rows <- mapM (fun d =>
    slice <- mtxv (repeat 0 (3 * pn)) (3 * pn) wt (arr_at (ex edge) d) n ;;
    mapM (fun '(i, p) =>
      v <- rd slice (3 * i) ;; j <- rd slice (3 * i + 1) ;; h <- rd slice (3 * i + 2) ;;
      let r := ent (px p) d - v in Ok (r, j, r * h)) (numbered ps)) [0; 1]%nat ;;
  (* for(i=1;i<pn;++i) memcpy(wt+i*n, wt+3*i*n, n*sizeof(double)) *)
  wt <- foldM (fun wt i => fill wt (i * n) n (fun m k => rd m (3 * i * n + k))) (seq 1 (pn - 1)) wt ;;
  jn <- mapM (fun d => mtxv (repeat 0 (3 * pn)) pn wt (arr_at (edxdn edge) d) n) [0; 1]%nat ;;
  out <- mapM (fun '(i, p) =>
    '(r0, j0, h0) <- rd (nth 0 rows []) i ;; '(r1, j1, h1) <- rd (nth 1 rows []) i ;;
    n0 <- rd (nth 0 jn []) i ;; n1 <- rd (nth 1 jn []) i ;;
    let resid := [r0; r1] in
    let jac := upd (upd (upd (upd [0; 0; 0; 0] de j0) (2 + de) j1) dn n0) (2 + dn) n1 in
    let hes := 0 + h0 + h1 in
    let '(out, rejected) := reject_prior_step_q DBL_MAX resid p tol in
    if rejected then Ok out else
    let steep := ent resid 0 * ent jac dn + ent resid 1 * ent jac (2 + dn) in
    if Rlt_dec (steep * ent (pr p) dn) 0 then newton_area out jac resid p tol
    else newton_edge out jac hes resid de dn pflag p tol) (numbered ps) ;;
  Ok (out, s).

(** findpt_pt (661-708). *)
Definition findpt_pt (fd : el) (s : st) (ps : list pt) (tol : R) : res (list pt * st) :=
  p0 <- rd ps 0 ;;
  let pflag := N.land (flags p0) FLAG_MASK in
  let pi := point_index pflag in
  '(g, s) <- get_pt fd s pi ;;
  let x := gx g in let jac := gjac g in let hes := ghes g in
  out <- mapM (fun p =>
    let resid := [ent (px p) 0 - ent x 0; ent (px p) 1 - ent x 1] in
    let steep0 := ent jac 0 * ent resid 0 + ent jac 2 * ent resid 1 in
    let steep1 := ent jac 1 * ent resid 0 + ent jac 3 * ent resid 1 in
    let sr0 := steep0 * ent (pr p) 0 in let sr1 := steep1 * ent (pr p) 1 in
    let '(out, rejected) := reject_prior_step_q DBL_MAX resid p tol in
    if rejected then Ok out else
    let edge de dn :=
      let rh := ent resid 0 * ent hes de + ent resid 1 * ent hes (2 + de) in
      newton_edge out jac rh resid de dn (N.land pflag (at_dir 3 dn)) p tol in
    if Rlt_dec sr0 0 then
      if Rlt_dec sr1 0 then newton_area out jac resid p tol else edge 0%nat 1%nat
    else if Rlt_dec sr1 0 then edge 1%nat 0%nat
    else Ok (set_step out (pr p) 0 (N.lor pflag CONVERGED_FLAG))) ps ;;
  Ok (out, s).

(** seed (710-732), for one point: its distances to the nodes are inspected in the same order as
    in the code (there the loop over the points is the innermost one); None: r not set yet. *)
Definition seed1 (fd : el) (x : list R) : res (R * option (list R)) :=
  foldM (fun '(best, r) '(j, i) =>
    zs <- rd (arr_at (zz fd) 1) j ;; zr <- rd (arr_at (zz fd) 0) i ;;
    let ii := (j * nn fd 0 + i)%nat in
    a <- rd (arr_at (ux fd) 0) ii ;; b <- rd (arr_at (ux fd) 1) ii ;;
    let dx := ent x 0 - a in let dy := ent x 1 - b in
    let d2 := dx * dx + dy * dy in
    Ok (if Rle_dec best d2 then (best, r) else (d2, Some [zr; zs])))
    (list_prod (seq 0 (nn fd 1)) (seq 0 (nn fd 0))) (DBL_MAX, None).
(** seed and the initialisation of the points (744-754); xs: the coordinates of the points. *)
Definition start_points (fd : el) (xs : list (list R)) : res (list pt) :=
  mapM (fun '(i, x) =>
    '(_, r) <- seed1 fd x ;;
    match r with
    | None => UB
    | Some r => Ok (Pt x r [] DBL_MAX 0 1 i 0%N)
    end) (combine (seq 0 (length xs)) xs).

(** The groups are advanced one after the other (767-771). *)
Fixpoint advance (fuel : nat) (fd : el) (s : st) (count : list nat) (ps : list pt) (tol : R) : res (list pt * st) :=
  match ps, fuel with
  | [], _ => Ok ([], s)
  | _, O => OutOfFuel
  | p :: _, S fuel =>
      let pflags := N.land (flags p) FLAG_MASK in
      pn <- rd count (N.to_nat (pt_flags_to_bin_noC pflags)) ;;
      group <- (if (pn <=? length ps)%nat then Ok (firstn pn ps) else UB) ;;
      '(out, s) <- (if (num_constrained pflags =? 0)%N then findpt_area fd s group tol
                    else if (num_constrained pflags =? 1)%N then findpt_edge fd s group tol
                    else if (num_constrained pflags =? 2)%N then findpt_pt fd s group tol else UB) ;;
      '(outs, s) <- advance fuel fd s count (skipn pn ps) tol ;;
      Ok (out ++ outs, s)
  end.
Definition bin (p : pt) : nat := N.to_nat (pt_flags_to_bin (N.land (flags p) FLAG_MASK)).
(** Grouping by constraints (772-787): pbuf holds the advanced points; the new pstart (whose points
    from nconv on are converged), count and nconv. *)
Definition regroup (pbuf pstart : list pt) : res (list pt * list nat * nat) :=
  offset <- foldM (fun off p => c <- rd off (bin p) ;; wr off (bin p) (c + 1)%nat) pbuf (repeat 0%nat 10) ;;
  '(count, offset, sum) <- foldM (fun '(count, off, sum) i =>
      ci <- rd off i ;; count <- wr count i ci ;; off <- wr off i sum ;; Ok (count, off, (sum + ci)%nat))
    (seq 0 9) (repeat 0%nat 9, offset, 0%nat) ;;
  offset <- wr offset 9 sum ;;
  '(pstart, _) <- foldM (fun '(ps, off) p =>
      o <- rd off (bin p) ;; off <- wr off (bin p) (o + 1)%nat ;; ps <- wr ps o p ;; Ok (ps, off))
    pbuf (pstart, offset) ;;
  Ok (pstart, count, sum).
(** while(nconv && step++ < 50) (755-788). *)
Fixpoint iterate (steps : nat) (fd : el) (s : st) (pstart : list pt) (count : list nat) (nconv : nat) (tol : R) : res (list pt * st) :=
  match steps with
  | O => Ok (pstart, s)
  | S steps =>
      if (nconv =? 0)%nat then Ok (pstart, s) else
      '(pbuf, s) <- advance nconv fd s count (firstn nconv pstart) tol ;;
      '(pstart, count, nconv) <- regroup pbuf pstart ;;
      iterate steps fd s pstart count nconv tol
  end.
(** findpts_el_2 (734-796): the points in pbuf afterwards (all of them are written). *)
Definition findpts_el_2 (fd : el) (s : st) (xs : list (list R)) (tol : R) : res (list pt * st) :=
  let npt := length xs in
  _ <- need (npt_max fd * 2) (npt * 2) ;;
  pstart <- start_points fd xs ;;
  '(pstart, s) <- iterate 50 fd s pstart (npt :: repeat 0%nat 8) npt tol ;;
  pbuf <- foldM (fun pb p =>
      wr pb (index p) (Pt (px p) (pr p) (oldr p) (dist2 p) (dist2p p) (tr p) (index p) (N.land (flags p) FLAG_MASK)))
    pstart pstart ;;
  Ok (pbuf, s).

(** findpts_el_eval_2 (798-819): the values of the function u at the points rs. *)
Definition findpts_el_eval_2 (fd : el) (s : st) (rs : list (list R)) (u : arr) : res (list R * st) :=
  let nr := nn fd 0 in let ns := nn fd 1 in let pn := length rs in
  _ <- need (have fd) (nr * pn + ns * pn + nr * pn) ;;
  '(wtr, s) <- lag_dir fd s 0 0 (map (fun r => ent r 0) rs) ;;
  '(wts, s) <- lag_dir fd s 1 0 (map (fun r => ent r 1) rs) ;;
  slice <- mxm (repeat 0 (nr * pn)) nr u ns wts pn ;;
  out <- mapM (fun i => tensor_i1 (skipn (i * nr) wtr) nr (skipn (i * nr) slice)) (seq 0 pn) ;;
  Ok (out, s).
End With.
