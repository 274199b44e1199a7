(** Model of src/findpts_el_3.c in exact real arithmetic: the search of points in one element of
    three dimensions.
    Conventions as in FindptsEl2.v: division by 0 is [UB]; DBL_MAX is a parameter; the areas of the
    array work (resid, jac, wtrs, ...) are arrays of their own, initially 0, and [need] checks that
    together they fit into work; wtrs, in which the weights of a point for r and s alternate, is two
    arrays.  The parts of fd->z[0] (z, lag_data, wtend, sides) and the halves of fd->p are arrays of
    their own.  Where an edge points into the data of a face, or a face into the coordinates, the
    numbers are copied when the edge or face is computed (their origin does not change before
    findpts_el_start_3, which makes them invalid).  unsigned has 32 bits.  The structure el, the
    points pt, ent, dv, con, at_dir, ... are those of FindptsEl2.v: the C files have equal copies. *)
From Verif Require Import Base Tensor Poly PolyGll FindptsEl2.
From Coq Require Import Reals NArith.
Open Scope R_scope.

(** lin_solve_3 (findpts_el_3.c:30-49). *)
Definition lin_solve_3 (A y : list R) : res (list R) :=
  let A := ent A in
  let a := A 4%nat * A 8%nat - A 5%nat * A 7%nat in
  let b := A 5%nat * A 6%nat - A 3%nat * A 8%nat in
  let c := A 3%nat * A 7%nat - A 4%nat * A 6%nat in
  idet <- dv 1 (A 0%nat * a + A 1%nat * b + A 2%nat * c) ;;
  let inv1 := A 2%nat * A 7%nat - A 1%nat * A 8%nat in
  let inv2 := A 1%nat * A 5%nat - A 2%nat * A 4%nat in
  let inv4 := A 0%nat * A 8%nat - A 2%nat * A 6%nat in
  let inv5 := A 2%nat * A 3%nat - A 0%nat * A 5%nat in
  let inv7 := A 1%nat * A 6%nat - A 0%nat * A 7%nat in
  let inv8 := A 0%nat * A 4%nat - A 1%nat * A 3%nat in
  Ok [idet * (a * ent y 0 + inv1 * ent y 1 + inv2 * ent y 2);
      idet * (b * ent y 0 + inv4 * ent y 1 + inv5 * ent y 2);
      idet * (c * ent y 0 + inv7 * ent y 1 + inv8 * ent y 2)].
(** lin_solve_sym_2 (51-56). *)
Definition lin_solve_sym_2 (A y : list R) : res (R * R) :=
  idet <- dv 1 (ent A 0 * ent A 2 - ent A 1 * ent A 1) ;;
  Ok (idet * (ent A 2 * ent y 0 - ent A 1 * ent y 1), idet * (ent A 0 * ent y 1 - ent A 1 * ent y 0)).

Open Scope N_scope.
(** CONVERGED_FLAG, FLAG_MASK (72-73). *)
Definition CONVERGED_FLAG3 : N := shl 1 6.
Definition FLAG_MASK3 : N := 127.
(** num_constrained (75-79). *)
Definition num_constrained3 (flags : N) : N :=
  let y := N.lor flags (N.shiftr flags 1) in N.land y 1 + N.land (N.shiftr y 2) 1 + N.land (N.shiftr y 4) 1.
(** pt_flags_to_bin_noC (81-84), pt_flags_to_bin (88-92). *)
Definition pt_flags_to_bin_noC3 (flags : N) : N :=
  (N.land (N.shiftr flags 4) 3 * 3 + N.land (N.shiftr flags 2) 3) * 3 + N.land flags 3.
Definition pt_flags_to_bin3 (flags : N) : N :=
  let mask := usub32 0 (N.shiftr flags 6) in
  N.lor (N.land mask 27) (N.land (unot mask) (pt_flags_to_bin_noC3 flags)).
(** plus_1_mod_3, plus_2_mod_3 (95-100). *)
Definition plus_1_mod_3 (x : nat) : nat := N.to_nat (N.land (N.lor (N.of_nat x) (N.shiftr (N.of_nat x) 1) + 1) 3).
Definition plus_2_mod_3 (x : nat) : nat := let y := N.land (usub32 (N.of_nat x) 1) 3 in N.to_nat (N.lxor y (N.shiftr y 1)).
(** which_bit (103-107), face_index (109), edge_index (111-121), point_index (123-126). *)
Definition which_bit3 (x : N) : N :=
  let y := N.land x 7 in N.lor (N.lor (usub32 y (N.shiftr y 2)) (N.land (usub32 x 1) 4)) (N.shiftr x 4).
Definition face_index (x : N) : nat := N.to_nat (usub32 (which_bit3 x) 1).
Definition edge_index3 (x : N) : nat :=
  let y := unot (N.lor (N.shiftr x 1) x) in
  let RTSR := N.lor (N.lor (N.lor (N.land (N.shiftr x 1) 1) (N.land (N.shiftr x 2) 2)) (N.land (N.shiftr x 3) 4)) (N.land (shl x 2) 8) in
  let re := N.shiftr RTSR 1 in
  let se := N.lor 4 (N.shiftr RTSR 2) in
  let te := N.lor 8 (N.land RTSR 3) in
  N.to_nat (N.lor (N.lor (N.land (usub32 0 (N.land y 1)) re) (N.land (usub32 0 (N.land (N.shiftr y 2) 1)) se)) (N.land (usub32 0 (N.land (N.shiftr y 4) 1)) te)).
Definition point_index3 (x : N) : nat :=
  N.to_nat (N.lor (N.lor (N.land (N.shiftr x 1) 1) (N.land (N.shiftr x 2) 2)) (N.land (N.shiftr x 3) 4)).
Open Scope R_scope.

(** reject_prior_step_q (472-530): the point to put into out (with r, dist2p and flags still to be set
    if the second component is false). *)
Definition reject_prior_step_q3 (DBL_MAX : R) (resid : list R) (p : pt) (tol : R) : pt * bool :=
  let old_dist2 := dist2 p in
  let d2 := ent resid 0 * ent resid 0 + ent resid 1 * ent resid 1 + ent resid 2 * ent resid 2 in
  let decr := old_dist2 - d2 in
  let pred := dist2p p in
  if Rle_dec (1 / 100 * pred) decr then
    if Rle_dec (9 / 10 * pred) decr
    then (Pt (px p) [] (pr p) d2 0 (tr p * 2) (index p) 0, false)
    else (Pt (px p) [] (pr p) d2 0 (tr p) (index p) 0, false)
  else
    let v0 := Rabs (ent (pr p) 0 - ent (oldr p) 0) in
    let v1 := Rabs (ent (pr p) 1 - ent (oldr p) 1) in
    let v2 := Rabs (ent (pr p) 2 - ent (oldr p) 2) in
    let m := if Rlt_dec v2 v1 then (if Rlt_dec v1 v0 then v0 else v1) else (if Rlt_dec v2 v0 then v0 else v2) in
    let f := N.shiftr (flags p) 7 in
    (Pt (px p) (oldr p) (pr p) old_dist2 (- DBL_MAX) (m / 4) (index p)
        (if Rlt_dec pred (d2 * tol) then N.lor f CONVERGED_FLAG3 else f), true).

(** * newton_vol (534-743) *)
Definition dims : list nat := [0; 1; 2]%nat.
(** bnd and mask (555-559). *)
Definition vol_bounds (r0 : list R) (tr : R) : list R * N :=
  fold_left (fun '(bnd, mask) d =>
    let '(bnd, mask) := if Rlt_dec (-1) (ent r0 d - tr)
                        then (upd bnd (2 * d) (ent r0 d - tr), N.lxor mask (at_dir 1 d)) else (bnd, mask) in
    if Rlt_dec (ent r0 d + tr) 1
    then (upd bnd (2 * d + 1) (ent r0 d + tr), N.lxor mask (at_dir 2 d)) else (bnd, mask))
    dims ([-1; 1; -1; 1; -1; 1], 63%N).
(** The first bound that is met on the way to r0+dr (568-579). *)
Definition vol_first (r0 dr bnd : list R) : res (R * N) :=
  foldM (fun '(fac, flags) d =>
    let nr := ent r0 d + ent dr d in
    if Rle_dec 0 ((nr - ent bnd (2 * d)) * (ent bnd (2 * d + 1) - nr)) then Ok (fac, flags) else
    if Rlt_dec nr (ent bnd (2 * d)) then
      f <- dv (ent bnd (2 * d) - ent r0 d) (ent dr d) ;;
      Ok (if Rlt_dec f fac then (f, at_dir 1 d) else (fac, flags))
    else
      f <- dv (ent bnd (2 * d + 1) - ent r0 d) (ent dr d) ;;
      Ok (if Rlt_dec f fac then (f, at_dir 2 d) else (fac, flags)))
    dims (1, 0%N).
(** Column d of jac times the vector v. *)
Definition col (jac v : list R) (d : nat) : R := ent jac d * ent v 0 + ent jac (3 + d) * ent v 1 + ent jac (6 + d) * ent v 2.
(** Columns d and e of jac multiplied. *)
Definition colcol (jac : list R) (d e : nat) : R := ent jac d * ent jac e + ent jac (3 + d) * ent jac (3 + e) + ent jac (6 + d) * ent jac (6 + e).
(** resid - jac dr. *)
Definition lin_res3 (jac resid dr : list R) : list R :=
  map (fun k => ent resid k - (ent jac (3 * k) * ent dr 0 + ent jac (3 * k + 1) * ent dr 1 + ent jac (3 * k + 2) * ent dr 2)) dims.
Definition norm2 (v : list R) : R := ent v 0 * ent v 0 + ent v 1 * ent v 1 + ent v 2 * ent v 2.
(** CHECK_CONSTRAINT (620-633). *)
Definition check_constraint (r0 bnd dr : list R) (delta : R) (d : nat) (s : R * N) : res (R * N) :=
  let '(fac, new_flags) := s in
  let rz := ent r0 d + ent dr d in let lb := ent bnd (2 * d) in let ub := ent bnd (2 * d + 1) in
  let nr := ent r0 d + (ent dr d + delta) in
  if Rlt_dec ((nr - lb) * (ub - nr)) 0 then
    if Rlt_dec nr lb then
      f <- dv (lb - rz) delta ;; Ok (if Rlt_dec f fac then (f, at_dir 1 d) else (fac, new_flags))
    else
      f <- dv (ub - rz) delta ;; Ok (if Rlt_dec f fac then (f, at_dir 2 d) else (fac, new_flags))
  else Ok (fac, new_flags).
(** newton_vol_face (589-640): the new dr and new_flags. *)
Definition vol_face (jac resid r0 bnd dr : list R) (flags : N) : res (list R * N) :=
  let dn := (face_index flags / 2)%nat in let d1 := plus_1_mod_3 dn in let d2 := plus_2_mod_3 dn in
  let rs := lin_res3 jac resid dr in
  '(c1, c2) <- lin_solve_sym_2 [colcol jac d1 d1; colcol jac d1 d2; colcol jac d2 d2] [col jac rs d1; col jac rs d2] ;;
  '(fac, nf) <- check_constraint r0 bnd dr c1 d1 (1, 0%N) ;;
  '(fac, nf) <- check_constraint r0 bnd dr c2 d2 (fac, nf) ;;
  Ok (upd (upd dr d1 (ent dr d1 + fac * c1)) d2 (ent dr d2 + fac * c2), nf).
(** newton_vol_edge (642-673): the new dr and flags. *)
Definition vol_edge (jac resid r0 bnd dr : list R) (flags : N) : res (list R * N) :=
  let de := (edge_index3 flags / 4)%nat in
  let rs := lin_res3 jac resid dr in
  drc <- dv (col jac rs de) (colcol jac de de) ;;
  '(fac, nf) <- check_constraint r0 bnd dr drc de (1, 0%N) ;;
  Ok (upd dr de (ent dr de + fac * drc), N.lor flags nf).
(** newton_vol_relax (676-714): the new dr and flags. *)
Definition vol_relax (jac resid r0 bnd dr : list R) (flags : N) : list R * N :=
  let rs := lin_res3 jac resid dr in
  let dr := fold_left (fun dr d => let f := con flags d in
    if (f =? 0)%N then dr else upd dr d (ent bnd (2 * d + N.to_nat (f - 1)) - ent r0 d)) dims dr in
  let flags := fold_left (fun fl d =>
    if (con fl d =? 0)%N then fl
    else if Rlt_dec (ent dr d * col jac rs d) 0 then N.land fl (unot (at_dir 3 d)) else fl) dims flags in
  (dr, flags).
(** The goto loop from newton_vol_face (at_face) or newton_vol_edge on: newton_vol_relax is reached at
    most fuel times. *)
Fixpoint vol_loop (fuel : nat) (jac resid r0 bnd : list R) (at_face : bool) (dr : list R) (flags : N) : res (list R * N) :=
  match fuel with
  | O => OutOfFuel
  | S fuel =>
      '(dr, nf) <- (if at_face then vol_face jac resid r0 bnd dr flags else Ok (dr, 0%N)) ;;
      if (at_face && (nf =? 0)%N)%bool then Ok (dr, flags) else
      '(dr, old_flags) <- vol_edge jac resid r0 bnd dr (N.lor flags nf) ;;
      let '(dr, flags) := vol_relax jac resid r0 bnd dr old_flags in
      if (flags =? old_flags)%N then Ok (dr, flags)
      else if (num_constrained3 flags =? 1)%N then vol_loop fuel jac resid r0 bnd true dr flags
      else if (num_constrained3 flags =? 2)%N then vol_loop fuel jac resid r0 bnd false dr flags
      else Ok (dr, flags)
  end.
(** newton_vol; the number of passes is bounded by 21 (theorems show that this suffices). *)
Definition newton_vol (out : pt) (jac resid : list R) (p : pt) (tol : R) : res pt :=
  let r0 := pr p in
  let '(bnd, mask) := vol_bounds r0 (tr p) in
  dr <- lin_solve_3 jac resid ;;
  '(fac, fl) <- vol_first r0 dr bnd ;;
  '(dr, fl) <- (if (fl =? 0)%N then Ok (dr, fl)
                else vol_loop 21 jac resid r0 bnd true (map (fun d => ent dr d * fac) dims) fl) ;;
  (* newton_vol_fin (716-743) *)
  let fl := N.land fl mask in
  let fl := if Rlt_dec (Rabs (ent dr 0) + Rabs (ent dr 1) + Rabs (ent dr 2)) tol then N.lor fl CONVERGED_FLAG3 else fl in
  let d2p := norm2 resid - norm2 (lin_res3 jac resid dr) in
  let setr d := if (con fl d =? 0)%N then ent r0 d + ent dr d else if (con fl d =? 1)%N then -1 else 1 in
  Ok (set_step out (map setr dims) d2p (N.lor fl (shl (flags p) 7))).

(** * newton_face (745-855) *)
(** EVAL (804), for A and y. *)
Definition face_eval (A y : list R) (r s : R) : R :=
  - (ent y 0 * r + ent y 1 * s) + (r * ent A 0 * r + (2 * r * ent A 1 + s * ent A 2) * s) / 2.
(** The bounds of one direction, i its first bit in mask (787-790). *)
Definition face_bound (tr p : R) (i mask : N) : R * R * N :=
  let '(lo, mask) := if Rlt_dec (-1) (p - tr) then (- tr, N.lxor mask i) else (-1 - p, mask) in
  let '(hi, mask) := if Rlt_dec (p + tr) 1 then (tr, N.lxor mask (2 * i)) else (1 - p, mask) in
  (lo, hi, mask).
(** v, i and dr so far; if(tv<v) v=tv, i=..., dr[..]=... *)
Definition better (best : R * N * R * R) (tv : R) (i' : N) (e0' e1' : R) : R * N * R * R :=
  let '(v, i, e0, e1) := best in if Rlt_dec tv v then (tv, i', e0', e1') else (v, i, e0, e1).
(** The minimum of the side s=b (816-824), r=b (825-833), if it lies between the bounds. *)
Definition face_try0 (A y : list R) (b0 b1 : R) (best : R * N * R * R) (b : R) (i : N) : res (R * N * R * R) :=
  drc <- dv (ent y 0 - ent A 1 * b) (ent A 0) ;;
  let '(_, _, _, e1) := best in
  Ok (if Rle_dec 0 ((drc - b0) * (b1 - drc)) then better best (face_eval A y drc b) i drc e1 else best).
Definition face_try1 (A y : list R) (b2 b3 : R) (best : R * N * R * R) (b : R) (i : N) : res (R * N * R * R) :=
  drc <- dv (ent y 1 - ent A 1 * b) (ent A 2) ;;
  let '(_, _, e0, _) := best in
  Ok (if Rle_dec 0 ((drc - b2) * (b3 - drc)) then better best (face_eval A y b drc) i e0 drc else best).
(** newton_face_constrained (811-833). *)
Definition face_best (A y : list R) (b0 b1 b2 b3 dr0 dr1 : R) : res (R * N * R * R) :=
  let best := (face_eval A y b0 b2, 5%N, dr0, dr1) in
  let best := better best (face_eval A y b1 b2) 6%N dr0 dr1 in
  let best := better best (face_eval A y b0 b3) 9%N dr0 dr1 in
  let best := better best (face_eval A y b1 b3) 10%N dr0 dr1 in
  best <- (if Rlt_dec 0 (ent A 0) then best <- face_try0 A y b0 b1 best b2 4%N ;; face_try0 A y b0 b1 best b3 8%N else Ok best) ;;
  (if Rlt_dec 0 (ent A 2) then best <- face_try1 A y b2 b3 best b0 1%N ;; face_try1 A y b2 b3 best b1 2%N else Ok best).
(** SETR (836-843). *)
Definition face_set (tr : R) (i mask : N) (d d3 : nat) (old e : R) (nf : N) : R * N :=
  let f := con i d in
  if (f =? 0)%N then (old + e, nf)
  else if (N.land f (N.shiftr mask (2 * N.of_nat d)) =? 0)%N then (old + (if (f =? 1)%N then - tr else tr), nf)
  else ((if (f =? 1)%N then -1 else 1), N.lor nf (at_dir f d3)).
Definition newton_face (out : pt) (jac rhes resid : list R) (d1 d2 dn : nat) (fl : N) (p : pt) (tol : R) : res pt :=
  let A := [colcol jac d1 d1 - ent rhes 0; colcol jac d1 d2 - ent rhes 1; colcol jac d2 d2 - ent rhes 2] in
  let y := [col jac resid d1; col jac resid d2] in
  let p0 := ent (pr p) d1 in let p1 := ent (pr p) d2 in
  let '(b0, b1, mask) := face_bound (tr p) p0 1%N 63%N in
  let '(b2, b3, mask) := face_bound (tr p) p1 4%N mask in
  (* newton_face_fin (848-855) *)
  let fin r0 r1 v nf :=
    let dr0 := r0 - p0 in let dr1 := r1 - p1 in
    let nf := if Rlt_dec (Rabs dr0 + Rabs dr1) tol then N.lor nf CONVERGED_FLAG3 else nf in
    Ok (set_step out (upd (upd (upd [0; 0; 0] dn (ent (pr p) dn)) d1 r0) d2 r1) (- 2 * v) (N.lor nf (shl (flags p) 7))) in
  let constrained (dr0 dr1 : R) :=
    '(v, i, e0, e1) <- face_best A y b0 b1 b2 b3 dr0 dr1 ;;
    let '(r0, nf) := face_set (tr p) i mask 0 d1 p0 e0 fl in
    let '(r1, nf) := face_set (tr p) i mask 1 d2 p1 e1 nf in
    fin r0 r1 v nf in
  if Rle_dec (ent A 0 + ent A 2) 0 then constrained 0 0
  else if Rle_dec (ent A 0 * ent A 2) (ent A 1 * ent A 1) then constrained 0 0
  else
    '(dr0, dr1) <- lin_solve_sym_2 A y ;;
    if Rle_dec 0 ((dr0 - b0) * (b1 - dr0)) then
      if Rle_dec 0 ((dr1 - b2) * (b3 - dr1)) then fin (p0 + dr0) (p1 + dr1) (face_eval A y dr0 dr1) fl
      else constrained dr0 dr1
    else constrained dr0 dr1.

(** newton_edge (857-913). *)
Definition newton_edge3 (out : pt) (jac : list R) (rhes : R) (resid : list R) (de dn1 dn2 : nat) (fl : N) (p : pt) (tol : R) : res pt :=
  let A := colcol jac de de - rhes in
  let y := col jac resid de in
  let old := ent (pr p) de in
  let eval dr := (dr * A - 2 * y) * dr in
  let fin dr nr v new_flags :=
    let new_flags := if Rlt_dec (Rabs dr) tol then N.lor new_flags CONVERGED_FLAG3 else new_flags in
    Ok (set_step out (upd (upd (upd [0; 0; 0] de nr) dn1 (ent (pr p) dn1)) dn2 (ent (pr p) dn2)) (- v) (N.lor (N.lor fl new_flags) (shl (flags p) 7))) in
  let ends :=
    let '(nr, dr, nf) := if Rlt_dec (-1) (old - tr p) then (old - tr p, - tr p, 0%N)
                         else (-1, -1 - old, N.lor fl (at_dir 1 de)) in
    let v := eval dr in
    let '(tnr, tdr, tnf) := if Rlt_dec (old + tr p) 1 then (old + tr p, tr p, 0%N)
                            else (1, 1 - old, N.lor fl (at_dir 2 de)) in
    let tv := eval tdr in
    if Rlt_dec tv v then fin tdr tnr tv tnf else fin dr nr v nf in
  if Rlt_dec 0 A then
    dr <- dv y A ;;
    let nr := old + dr in
    if Rlt_dec (Rabs dr) (tr p) then if Rlt_dec (Rabs nr) 1 then fin dr nr (eval dr) 0%N else ends else ends
  else ends.

(** struct findpts_el_gface_3, findpts_el_gedge_3 (145-147); findpts_el_gpt_3 (148) is gpt. *)
Record gface := Face { fx : list arr; fdxdn : list arr }.
Record gedge3 := Edge3 { ex3 : list arr; dxdn1 : list arr; dxdn2 : list arr; d2xdn1 : list arr; d2xdn2 : list arr }.
(** struct findpts_el_data_3 (150-169): what does not change during a search is el, the rest st3. *)
Record st3 := St3 { lag_data3 : list arr; side_init3 : N; faces : list gface; edges3 : list gedge3; pts3 : list gpt }.
Definition set_init (s : st3) (i : N) : st3 := St3 (lag_data3 s) i (faces s) (edges3 s) (pts3 s).

(** work_size (179-200). *)
Definition work_size3 (nr ns nt npt_max : nat) : nat :=
  let '(n1, n2) :=
    if (ns <? nr)%nat then
      if (nt <? nr)%nat then (nr, if (nt <? ns)%nat then ns else nt) else (nt, nr)
    else
      if (nt <? ns)%nat then (ns, if (nt <? nr)%nat then nr else nt) else (nt, ns) in
  let do_max wsize x := if (wsize <? x)%nat then x else wsize in
  let wsize := ((12 + 2 * (nr + ns + nt + nr * ns)) * npt_max + (if ns <? 2 * nr then 2 * nr else ns))%nat in
  let wsize := do_max wsize (2 * (nt + nr * ns))%nat in
  let wsize := do_max wsize (4 * (nr + ns * nt))%nat in
  let wsize := do_max wsize (4 * (n1 + n2))%nat in
  do_max wsize (npt_max * (15 + 3 * (2 * n1 + n2)))%nat.
Definition have3 (fd : el) : nat := work_size3 (nn fd 0) (nn fd 1) (nn fd 2) (npt_max fd).

(** findpts_el_setup_3 (202-281) followed by findpts_el_start_3 (findpts_el.h:110-114) for the
    element with the coordinates x. *)
Definition findpts_el_setup_3 (nodes_n : arr -> nat -> res arr) (nr ns nt npt_max : nat) (x : list arr) : res (el * st3) :=
  '(z0, f0, d0, w0) <- setup_dir nodes_n nr ;;
  '(z1, f1, d1, w1) <- setup_dir nodes_n ns ;;
  '(z2, f2, d2, w2) <- setup_dir nodes_n nt ;;
  let no := [[]; []; []] in
  Ok (El npt_max [nr; ns; nt] [z0; z1; z2] [f0; f1; f2] [w0; w1; w2] x,
      St3 [d0; d1; d2] 0%N (repeat (Face no no) 6) (repeat (Edge3 no no no no no) 12) (repeat (Gpt [] [] []) 8)).
(** findpts_el_start_3 for another element. *)
Definition findpts_el_start_3 (fd : el) (s : st3) (x : list arr) : el * st3 :=
  (El (npt_max fd) (n fd) (zz fd) (lag fd) (wtend fd) x, set_init s 0%N).

Section With.
Variable DBL_MAX : R.
Variable P : products R.
Notation tensor_mtxm := (tensor_mtxm R 0 Rplus Rmult).
Notation tensor_ig2 := (tensor_ig2 R 0 Rplus Rmult P).
Notation tensor_i2 := (tensor_i2 R 0 Rplus Rmult P).
Notation tensor_dot := (tensor_dot R 0 Rplus Rmult).
Notation mxm := (mxm R P).
Notation mtxv := (mtxv R P).

Definition set_faces (s : st3) (dn : nat) (f0 f1 : gface) : st3 :=
  St3 (lag_data3 s) (side_init3 s) (upd (upd (faces s) (2 * dn) f0) (2 * dn + 1) f1) (edges3 s) (pts3 s).
(** compute_face_data_rs (292-307): faces 4 and 5. *)
Definition compute_face_data_rs (fd : el) (s : st3) : res st3 :=
  let nr := nn fd 0 in let ns := nn fd 1 in let nt := nn fd 2 in let nrs := (nr * ns)%nat in
  _ <- need (have3 fd) (2 * nt + 2 * nrs) ;;
  a <- part (arr_at (wtend fd) 2) nt nt ;;
  b <- part (arr_at (wtend fd) 2) (4 * nt) nt ;;
  dns <- mapM (fun d => w <- mxm (repeat 0 (2 * nrs)) nrs (arr_at (ux fd) d) nt (a ++ b) 2 ;;
                        u <- part w 0 nrs ;; v <- part w nrs nrs ;; Ok (u, v)) dims ;;
  Ok (set_faces s 2 (Face (ux fd) (map fst dns)) (Face (map (skipn (nrs * (nt - 1))) (ux fd)) (map snd dns))).
(** compute_face_data_st (310-324): faces 0 and 1. *)
Definition compute_face_data_st (fd : el) (s : st3) : res st3 :=
  let nr := nn fd 0 in let nst := (nn fd 1 * nn fd 2)%nat in
  _ <- need (have3 fd) (4 * nr + 4 * nst) ;;
  a <- part (arr_at (wtend fd) 0) 0 (2 * nr) ;;
  b <- part (arr_at (wtend fd) 0) (3 * nr) (2 * nr) ;;
  ws <- mapM (fun d => tensor_mtxm (repeat 0 (4 * nst)) nst (arr_at (ux fd) d) nr (a ++ b) 4) dims ;;
  x0 <- mapM (fun w => part w 0 nst) ws ;;
  n0 <- mapM (fun w => part w nst nst) ws ;;
  x1 <- mapM (fun w => part w (2 * nst) nst) ws ;;
  n1 <- mapM (fun w => part w (3 * nst) nst) ws ;;
  Ok (set_faces s 0 (Face x0 n0) (Face x1 n1)).
(** The numbers from position o on. *)
Definition from (a : arr) (o : nat) : arr := skipn o a.
(** compute_face_data_tr (327-345): faces 2 and 3, for which t is the inner direction. *)
Definition compute_face_data_tr (fd : el) (s : st3) : res st3 :=
  let nr := nn fd 0 in let ns := nn fd 1 in let nt := nn fd 2 in let nrs := (nr * ns)%nat in let ntr := (nt * nr)%nat in
  _ <- need (have3 fd) (4 * ns + 4 * nr) ;;
  a <- part (arr_at (wtend fd) 1) 0 (2 * ns) ;;
  b <- part (arr_at (wtend fd) 1) (3 * ns) (2 * ns) ;;
  ws <- mapM (fun d =>
    (* the areas out+(0+d)*ntr, out+(3+d)*ntr, out+(6+d)*ntr, out+(9+d)*ntr one after the other *)
    foldM (fun out k =>
      w <- mxm (repeat 0 (4 * nr)) nr (from (arr_at (ux fd) d) (k * nrs)) ns (a ++ b) 4 ;;
      foldM (fun out '(m, i) => v <- rd w (m * nr + i) ;; wr out (m * ntr + (k + i * nt)) v)
        (list_prod (seq 0 4) (seq 0 nr)) out)
      (seq 0 nt) (repeat 0 (4 * ntr))) dims ;;
  x0 <- mapM (fun w => part w 0 ntr) ws ;;
  n0 <- mapM (fun w => part w ntr ntr) ws ;;
  x1 <- mapM (fun w => part w (2 * ntr) ntr) ws ;;
  n1 <- mapM (fun w => part w (3 * ntr) ntr) ws ;;
  Ok (set_faces s 1 (Face x0 n0) (Face x1 n1)).
(** get_face (347-361). *)
Definition get_face (fd : el) (s : st3) (fi : nat) : res (gface * st3) :=
  let mask := shl 1 (N.of_nat (fi / 2)) in
  s <- (if (N.land (side_init3 s) mask =? 0)%N then
          s <- (if (fi / 2 =? 0)%nat then compute_face_data_st fd s else if (fi / 2 =? 1)%nat then compute_face_data_tr fd s else compute_face_data_rs fd s) ;;
          Ok (set_init s (N.lor (side_init3 s) mask))
        else Ok s) ;;
  f <- rd (faces s) fi ;; Ok (f, s).

(** compute_edge_data (364-402): edges 4*d, ..., 4*d+3; dxdn2 as set in findpts_el_setup_3 (262-265). *)
Definition compute_edge_data (fd : el) (s : st3) (d : nat) : res st3 :=
  let dn1 := plus_1_mod_3 d in let dn2 := plus_2_mod_3 d in
  let n := nn fd d in let n1 := nn fd dn1 in let n2 := nn fd dn2 in
  '(a0, s) <- get_face fd s (2 * dn2) ;;
  '(c0, s) <- get_face fd s (2 * dn1) ;;
  a1 <- rd (faces s) (2 * dn2 + 1) ;; c1 <- rd (faces s) (2 * dn1 + 1) ;;
  _ <- need (have3 fd) (4 * n1 + 4 * n) ;; _ <- need (have3 fd) (2 * n2 + 2 * n) ;;
  u <- part (arr_at (wtend fd) dn1) n1 (2 * n1) ;;
  v <- part (arr_at (wtend fd) dn1) (4 * n1) (2 * n1) ;;
  ws <- mapM (fun f => mapM (fun xd => mxm (repeat 0 (4 * n)) n (arr_at (fx f) xd) n1 (u ++ v) 4) dims) [a0; a1] ;;
  u2 <- part (arr_at (wtend fd) dn2) (2 * n2) n2 ;;
  v2 <- part (arr_at (wtend fd) dn2) (5 * n2) n2 ;;
  hs <- mapM (fun f => mapM (fun xd => tensor_mtxm (repeat 0 (2 * n)) n (arr_at (fx f) xd) n2 (u2 ++ v2) 2) dims) [c0; c1] ;;
  es <- mapM (fun '(i, j) =>     (* edge 2*i+j *)
    let f := nth i [a0; a1] a0 in
    let o := (j * (n * (n1 - 1)))%nat in
    let w := nth i ws [] in let h := nth j hs [] in
    x1 <- mapM (fun w => part w (2 * j * n) n) w ;;
    x11 <- mapM (fun w => part w ((2 * j + 1) * n) n) w ;;
    x22 <- mapM (fun w => part w (i * n) n) h ;;
    Ok (Edge3 (map (fun x => from x o) (fx f)) x1 (map (fun x => from x o) (fdxdn f)) x11 x22))
    [(0, 0); (0, 1); (1, 0); (1, 1)]%nat ;;
  Ok (St3 (lag_data3 s) (side_init3 s) (faces s) (fold_left (fun l '(k, e) => upd l (4 * d + k) e) (combine (seq 0 4) es) (edges3 s)) (pts3 s)).
(** get_edge (404-411). *)
Definition get_edge3 (fd : el) (s : st3) (ei : nat) : res (gedge3 * st3) :=
  let mask := shl 8 (N.of_nat (ei / 4)) in
  s <- (if (N.land (side_init3 s) mask =? 0)%N then
          s <- compute_edge_data fd s (ei / 4) ;; Ok (set_init s (N.lor (side_init3 s) mask))
        else Ok s) ;;
  e <- rd (edges3 s) ei ;; Ok (e, s).

(** compute_pt_data (414-457): corner 2*i+j lies on the edge i of the first four and on the edge
    (2*i+j) mod 4 of the last four. *)
Definition compute_pt_data3 (fd : el) (s : st3) : res st3 :=
  let nr := nn fd 0 in let nt := nn fd 2 in
  '(_, s) <- get_edge3 fd s 0 ;;
  _ <- need (have3 fd) (4 * nr + 4) ;;
  a <- part (arr_at (wtend fd) 0) nr (2 * nr) ;;
  b <- part (arr_at (wtend fd) 0) (4 * nr) (2 * nr) ;;
  let w0 := (a ++ b)%list in
  (* memcpy(work+nr,work+2*nr,nr*sizeof(double)) *)
  w1 <- fill w0 nr nr (fun m k => rd m (2 * nr + k)) ;;
  rs <- mapM (fun i => e <- rd (edges3 s) i ;;
    mapM (fun d =>
      v <- mtxv (repeat 0 4) 4 w0 (arr_at (ex3 e) d) nr ;;
      v1 <- mtxv (repeat 0 2) 2 w1 (arr_at (dxdn1 e) d) nr ;;
      v2 <- mtxv (repeat 0 2) 2 w1 (arr_at (dxdn2 e) d) nr ;;
      mapM (fun j =>
        let o := (j * (nr - 1))%nat in
        x <- rd (arr_at (ex3 e) d) o ;;
        js <- rd (arr_at (dxdn1 e) d) o ;; jt <- rd (arr_at (dxdn2 e) d) o ;;
        hss <- rd (arr_at (d2xdn1 e) d) o ;; htt <- rd (arr_at (d2xdn2 e) d) o ;;
        jr <- rd v (2 * j) ;; hrr <- rd v (2 * j + 1) ;;
        hrs <- rd v1 j ;; hrt <- rd v2 j ;;
        Ok (x, [jr; js; jt], [hrr; hrs; hrt; hss; htt])) [0; 1]%nat) dims) (seq 0 4) ;;
  '(_, s) <- get_edge3 fd s 8 ;;
  _ <- need (have3 fd) (2 * nt + 2) ;;
  u <- part (arr_at (wtend fd) 2) nt nt ;;
  v <- part (arr_at (wtend fd) 2) (4 * nt) nt ;;
  st <- mapM (fun i => e <- rd (edges3 s) (8 + i) ;;
    mapM (fun d => mtxv (repeat 0 2) 2 (u ++ v) (arr_at (dxdn2 e) d) nt) dims) (seq 0 4) ;;
  ps <- mapM (fun k =>
    c <- mapM (fun d =>
      '(x, j, h) <- rd (nth d (nth (k / 2) rs []) []) (k mod 2) ;;
      hst <- rd (nth d (nth (k mod 4) st []) []) (k / 4) ;;
      Ok (x, j, [ent h 0; ent h 1; ent h 2; ent h 3; hst; ent h 4])) dims ;;
    Ok (Gpt (map (fun '(x, _, _) => x) c) (concat (map (fun '(_, j, _) => j) c)) (concat (map (fun '(_, _, h) => h) c)))) (seq 0 8) ;;
  Ok (St3 (lag_data3 s) (side_init3 s) (faces s) (edges3 s) ps).
(** get_pt (459-465). *)
Definition get_pt3 (fd : el) (s : st3) (pi : nat) : res (gpt * st3) :=
  s <- (if (N.land (side_init3 s) 64 =? 0)%N then
          s <- compute_pt_data3 fd s ;; Ok (set_init s (N.lor (side_init3 s) 64))
        else Ok s) ;;
  g <- rd (pts3 s) pi ;; Ok (g, s).

(** for(i=0;i<pn;++i) fd->lag[d](wt+(der+1)*i*n, lag_data, n, der, r_i). *)
Definition lag_dir3 (fd : el) (s : st3) (d der : nat) (rs : list R) : res (arr * st3) :=
  '(w, data) <- lag_all (get_lag fd d) (arr_at (lag_data3 s) d) (nn fd d) der rs ;;
  Ok (w, St3 (upd (lag_data3 s) d data) (side_init3 s) (faces s) (edges3 s) (pts3 s)).

(** findpt_vol (921-955). *)
Definition findpt_vol (fd : el) (s : st3) (ps : list pt) (tol : R) : res (list pt * st3) :=
  let nr := nn fd 0 in let ns := nn fd 1 in let nt := nn fd 2 in let nrs := (nr * ns)%nat in let pn := length ps in
  let tn := if (ns <? 2 * nr)%nat then (2 * nr)%nat else ns in
  _ <- need (have3 fd) ((12 + 2 * (nr + ns + nt + nrs)) * pn + tn) ;;
  '(wtr, s) <- lag_dir3 fd s 0 1 (map (fun p => ent (pr p) 0) ps) ;;
  '(wts, s) <- lag_dir3 fd s 1 1 (map (fun p => ent (pr p) 1) ps) ;;
  '(wtt, s) <- lag_dir3 fd s 2 1 (map (fun p => ent (pr p) 2) ps) ;;
  rows <- mapM (fun d =>
    slice <- mxm (repeat 0 (2 * nrs * pn)) nrs (arr_at (ux fd) d) nt wtt (2 * pn) ;;
    mapM (fun '(i, p) =>
      let wtr_i := from wtr (2 * i * nr) in let wts_i := from wts (2 * i * ns) in let slice_i := from slice (2 * i * nrs) in
      '(v, g) <- tensor_ig2 wtr_i nr wts_i ns slice_i (repeat 0 tn) ;;
      j2 <- tensor_i2 wtr_i nr wts_i ns (from slice_i nrs) (repeat 0 tn) ;;
      Ok (ent (px p) d - v, [ent g 0; ent g 1; j2])) (numbered ps)) dims ;;
  out <- mapM (fun '(i, p) =>
    '(r0, j0) <- rd (nth 0 rows []) i ;; '(r1, j1) <- rd (nth 1 rows []) i ;; '(r2, j2) <- rd (nth 2 rows []) i ;;
    let resid := [r0; r1; r2] in let jac := (j0 ++ j1 ++ j2)%list in
    let '(out, rejected) := reject_prior_step_q3 DBL_MAX resid p tol in
    if rejected then Ok out else newton_vol out jac resid p tol) (numbered ps) ;;
  Ok (out, s).

(** jac[3*d+e1]=v1[d], jac[3*d+e2]=v2[d], jac[3*d+e3]=v3[d] for d=0,1,2. *)
Definition set_jac (e1 e2 e3 : nat) (v1 v2 v3 : list R) : list R :=
  concat (map (fun d => upd (upd (upd [0; 0; 0] e1 (ent v1 d)) e2 (ent v2 d)) e3 (ent v3 d)) dims).
(** findpt_face (958-1031). *)
Definition findpt_face (fd : el) (s : st3) (ps : list pt) (tol : R) : res (list pt * st3) :=
  p0 <- rd ps 0 ;;
  let pflag := N.land (flags p0) FLAG_MASK3 in
  let fi := face_index pflag in
  let dn := (fi / 2)%nat in let d1 := plus_1_mod_3 dn in let d2 := plus_2_mod_3 dn in
  let n1 := nn fd d1 in let n2 := nn fd d2 in let pn := length ps in
  '(face, s) <- get_face fd s fi ;;
  _ <- need (have3 fd) ((15 + 3 * (n1 + n2 + n1)) * pn) ;;
  '(wt1, s) <- lag_dir3 fd s d1 2 (map (fun p => ent (pr p) d1) ps) ;;
  '(wt2, s) <- lag_dir3 fd s d2 2 (map (fun p => ent (pr p) d2) ps) ;;
  rows <- mapM (fun d =>
    slice <- mxm (repeat 0 (3 * n1 * pn)) n1 (arr_at (fx face) d) n2 wt2 (3 * pn) ;;
    mapM (fun '(i, p) =>
      v <- tensor_mtxm (repeat 0 9) 3 (from wt1 (3 * i * n1)) n1 (from slice (3 * i * n1)) 3 ;;
      let r := ent (px p) d - ent v 0 in
      Ok (r, ent v 1, ent v 3, [r * ent v 2; r * ent v 4; r * ent v 6])) (numbered ps)) dims ;;
  (* for(i=1;i<pn;++i) memcpy(wt2+i*n2, wt2+3*i*n2, n2*sizeof(double)) *)
  wt2 <- foldM (fun wt i => fill wt (i * n2) n2 (fun m k => rd m (3 * i * n2 + k))) (seq 1 (pn - 1)) wt2 ;;
  jn <- mapM (fun d =>
    slice <- mxm (repeat 0 (3 * n1 * pn)) n1 (arr_at (fdxdn face) d) n2 wt2 pn ;;
    mapM (fun i => tensor_dot (from wt1 (3 * i * n1)) (from slice (i * n1)) n1) (seq 0 pn)) dims ;;
  out <- mapM (fun '(i, p) =>
    c <- mapM (fun d => '(r, u1, u2, h) <- rd (nth d rows []) i ;; un <- rd (nth d jn []) i ;; Ok (r, u1, u2, un, h)) dims ;;
    let resid := map (fun '(r, _, _, _, _) => r) c in
    let jac := set_jac d1 d2 dn (map (fun '(_, u, _, _, _) => u) c) (map (fun '(_, _, u, _, _) => u) c) (map (fun '(_, _, _, u, _) => u) c) in
    let hes := fold_left (fun hes '(_, _, _, _, h) => map (fun k => ent hes k + ent h k) dims) c [0; 0; 0] in
    let '(out, rejected) := reject_prior_step_q3 DBL_MAX resid p tol in
    if rejected then Ok out else
    let steep := ent resid 0 * ent jac dn + ent resid 1 * ent jac (3 + dn) + ent resid 2 * ent jac (6 + dn) in
    if Rlt_dec (steep * ent (pr p) dn) 0 then newton_vol out jac resid p tol
    else newton_face out jac hes resid d1 d2 dn pflag p tol) (numbered ps) ;;
  Ok (out, s).

(** One after the other, with the state. *)
Fixpoint mapS {A B S : Type} (f : S -> A -> res (B * S)) (s : S) (l : list A) : res (list B * S) :=
  match l with
  | [] => Ok ([], s)
  | a :: l => '(b, s) <- f s a ;; '(bs, s) <- mapS f s l ;; Ok (b :: bs, s)
  end.
(** findpt_edge (1034-1113). *)
Definition findpt_edge3 (fd : el) (s : st3) (ps : list pt) (tol : R) : res (list pt * st3) :=
  p0 <- rd ps 0 ;;
  let pflag := N.land (flags p0) FLAG_MASK3 in
  let ei := edge_index3 pflag in
  let de := (ei / 4)%nat in let dn1 := plus_1_mod_3 de in let dn2 := plus_2_mod_3 de in
  let n := nn fd de in
  '(edge, s) <- get_edge3 fd s ei ;;
  _ <- need (have3 fd) (3 * n) ;;
  mapS (fun s p =>
    '(wt, s) <- lag_dir3 fd s de 2 [ent (pr p) de] ;;
    c <- mapM (fun d =>
      dx <- mtxv (repeat 0 3) 3 wt (arr_at (ex3 edge) d) n ;;
      let r := ent (px p) d - ent dx 0 in
      dx1 <- mtxv dx 2 wt (arr_at (dxdn1 edge) d) n ;;
      dx2 <- mtxv dx1 2 wt (arr_at (dxdn2 edge) d) n ;;
      h1 <- tensor_dot wt (arr_at (d2xdn1 edge) d) n ;;
      h2 <- tensor_dot wt (arr_at (d2xdn2 edge) d) n ;;
      Ok (r, ent dx 1, ent dx1 0, ent dx2 0, [r * ent dx 2; r * ent dx1 1; r * ent dx2 1; r * h1; r * h2])) dims ;;
    let resid := map (fun '(r, _, _, _, _) => r) c in
    let jac := set_jac de dn1 dn2 (map (fun '(_, u, _, _, _) => u) c) (map (fun '(_, _, u, _, _) => u) c) (map (fun '(_, _, _, u, _) => u) c) in
    let hes := fold_left (fun hes '(_, _, _, _, h) => map (fun k => ent hes k + ent h k) (seq 0 5)) c (repeat 0 5) in
    let '(out, rejected) := reject_prior_step_q3 DBL_MAX resid p tol in
    o <- (if rejected then Ok out else
      let sr1 := col jac resid dn1 * ent (pr p) dn1 in
      let sr2 := col jac resid dn2 * ent (pr p) dn2 in
      if Rlt_dec sr1 0 then
        if Rlt_dec sr2 0 then newton_vol out jac resid p tol
        else newton_face out jac [ent hes 0; ent hes 1; ent hes 3] resid de dn1 dn2 (N.land pflag (at_dir 3 dn2)) p tol
      else if Rlt_dec sr2 0 then newton_face out jac [ent hes 4; ent hes 2; ent hes 0] resid dn2 de dn1 (N.land pflag (at_dir 3 dn1)) p tol
      else newton_edge3 out jac (ent hes 0) resid de dn1 dn2 pflag p tol) ;;
    Ok (o, s)) s ps.

(** findpt_pt (1115-1182). *)
Definition findpt_pt3 (fd : el) (s : st3) (ps : list pt) (tol : R) : res (list pt * st3) :=
  p0 <- rd ps 0 ;;
  let pflag := N.land (flags p0) FLAG_MASK3 in
  let pi := point_index3 pflag in
  '(g, s) <- get_pt3 fd s pi ;;
  let x := gx g in let jac := gjac g in let hes := ghes g in
  out <- mapM (fun p =>
    let resid := map (fun d => ent (px p) d - ent x d) dims in
    let sr d := col jac resid d * ent (pr p) d in
    let '(out, rejected) := reject_prior_step_q3 DBL_MAX resid p tol in
    if rejected then Ok out else
    let rh hi := ent resid 0 * ent hes hi + ent resid 1 * ent hes (6 + hi) + ent resid 2 * ent hes (12 + hi) in
    let face d1 d2 dn hi0 hi1 hi2 := newton_face out jac [rh hi0; rh hi1; rh hi2] resid d1 d2 dn (N.land pflag (at_dir 3 dn)) p tol in
    let edge de dn1 dn2 hi0 := newton_edge3 out jac (rh hi0) resid de dn1 dn2 (N.land pflag (unot (at_dir 3 de))) p tol in
    if Rlt_dec (sr 0%nat) 0 then
      if Rlt_dec (sr 1%nat) 0 then
        if Rlt_dec (sr 2%nat) 0 then newton_vol out jac resid p tol else face 0%nat 1%nat 2%nat 0%nat 1%nat 3%nat
      else if Rlt_dec (sr 2%nat) 0 then face 2%nat 0%nat 1%nat 5%nat 2%nat 0%nat
      else edge 0%nat 1%nat 2%nat 0%nat
    else if Rlt_dec (sr 1%nat) 0 then
      if Rlt_dec (sr 2%nat) 0 then face 1%nat 2%nat 0%nat 3%nat 4%nat 5%nat else edge 1%nat 2%nat 0%nat 3%nat
    else if Rlt_dec (sr 2%nat) 0 then edge 2%nat 0%nat 1%nat 5%nat
    else Ok (set_step out (pr p) 0 (N.lor pflag CONVERGED_FLAG3))) ps ;;
  Ok (out, s).

(** seed (1184-1209), for one point: its distances to the nodes are inspected in the same order as
    in the code (there the loop over the points is the innermost one); None: r not set yet. *)
Definition seed3 (fd : el) (x : list R) : res (R * option (list R)) :=
  foldM (fun '(best, r) '(k, (j, i)) =>
    zt <- rd (arr_at (zz fd) 2) k ;; zs <- rd (arr_at (zz fd) 1) j ;; zr <- rd (arr_at (zz fd) 0) i ;;
    let ii := ((k * nn fd 1 + j) * nn fd 0 + i)%nat in
    a <- rd (arr_at (ux fd) 0) ii ;; b <- rd (arr_at (ux fd) 1) ii ;; c <- rd (arr_at (ux fd) 2) ii ;;
    let dx := ent x 0 - a in let dy := ent x 1 - b in let dz := ent x 2 - c in
    let d2 := dx * dx + dy * dy + dz * dz in
    Ok (if Rle_dec best d2 then (best, r) else (d2, Some [zr; zs; zt])))
    (list_prod (seq 0 (nn fd 2)) (list_prod (seq 0 (nn fd 1)) (seq 0 (nn fd 0)))) (DBL_MAX, None).
(** seed and the initialisation of the points (1223-1235); xs: the coordinates of the points. *)
Definition start_points3 (fd : el) (xs : list (list R)) : res (list pt) :=
  mapM (fun '(i, x) =>
    '(_, r) <- seed3 fd x ;;
    match r with
    | None => UB
    | Some r => Ok (Pt x r [] DBL_MAX 0 1 i 0%N)
    end) (combine (seq 0 (length xs)) xs).

(** The groups are advanced one after the other (1260-1264). *)
Fixpoint advance3 (fuel : nat) (fd : el) (s : st3) (count : list nat) (ps : list pt) (tol : R) : res (list pt * st3) :=
  match ps, fuel with
  | [], _ => Ok ([], s)
  | _, O => OutOfFuel
  | p :: _, S fuel =>
      let pflags := N.land (flags p) FLAG_MASK3 in
      pn <- rd count (N.to_nat (pt_flags_to_bin_noC3 pflags)) ;;
      group <- (if (pn <=? length ps)%nat then Ok (firstn pn ps) else UB) ;;
      '(out, s) <- (if (num_constrained3 pflags =? 0)%N then findpt_vol fd s group tol
                    else if (num_constrained3 pflags =? 1)%N then findpt_face fd s group tol
                    else if (num_constrained3 pflags =? 2)%N then findpt_edge3 fd s group tol
                    else if (num_constrained3 pflags =? 3)%N then findpt_pt3 fd s group tol else UB) ;;
      '(outs, s) <- advance3 fuel fd s count (skipn pn ps) tol ;;
      Ok (out ++ outs, s)
  end.
Definition bin3 (p : pt) : nat := N.to_nat (pt_flags_to_bin3 (N.land (flags p) FLAG_MASK3)).
(** Grouping by constraints (1266-1283): pbuf holds the advanced points; the new pstart (whose points
    from nconv on are converged), count and nconv. *)
Definition regroup3 (pbuf pstart : list pt) : res (list pt * list nat * nat) :=
  offset <- foldM (fun off p => c <- rd off (bin3 p) ;; wr off (bin3 p) (c + 1)%nat) pbuf (repeat 0%nat 28) ;;
  '(count, offset, sum) <- foldM (fun '(count, off, sum) i =>
      ci <- rd off i ;; count <- wr count i ci ;; off <- wr off i sum ;; Ok (count, off, (sum + ci)%nat))
    (seq 0 27) (repeat 0%nat 27, offset, 0%nat) ;;
  offset <- wr offset 27 sum ;;
  '(pstart, _) <- foldM (fun '(ps, off) p =>
      o <- rd off (bin3 p) ;; off <- wr off (bin3 p) (o + 1)%nat ;; ps <- wr ps o p ;; Ok (ps, off))
    pbuf (pstart, offset) ;;
  Ok (pstart, count, sum).
(** while(nconv && step++ < 50) (1236-1284). *)
Fixpoint iterate3 (steps : nat) (fd : el) (s : st3) (pstart : list pt) (count : list nat) (nconv : nat) (tol : R) : res (list pt * st3) :=
  match steps with
  | O => Ok (pstart, s)
  | S steps =>
      if (nconv =? 0)%nat then Ok (pstart, s) else
      '(pbuf, s) <- advance3 nconv fd s count (firstn nconv pstart) tol ;;
      '(pstart, count, nconv) <- regroup3 pbuf pstart ;;
      iterate3 steps fd s pstart count nconv tol
  end.
(** findpts_el_3 (1211-1292): the points in pbuf afterwards (all of them are written). *)
Definition findpts_el_3 (fd : el) (s : st3) (xs : list (list R)) (tol : R) : res (list pt * st3) :=
  let npt := length xs in
  _ <- need (npt_max fd * 2) (npt * 2) ;;
  pstart <- start_points3 fd xs ;;
  '(pstart, s) <- iterate3 50 fd s pstart (npt :: repeat 0%nat 26) npt tol ;;
  pbuf <- foldM (fun pb p =>
      wr pb (index p) (Pt (px p) (pr p) (oldr p) (dist2 p) (dist2p p) (tr p) (index p) (N.land (flags p) FLAG_MASK3)))
    pstart pstart ;;
  Ok (pbuf, s).

(** findpts_el_eval_3 (1294-1317): the values of the function u at the points rs. *)
Definition findpts_el_eval_3 (fd : el) (s : st3) (rs : list (list R)) (u : arr) : res (list R * st3) :=
  let nr := nn fd 0 in let ns := nn fd 1 in let nt := nn fd 2 in let nrs := (nr * ns)%nat in let pn := length rs in
  _ <- need (have3 fd) ((nr + ns) * pn + nt * pn + pn * nrs + ns) ;;
  '(wtr, s) <- lag_dir3 fd s 0 0 (map (fun r => ent r 0) rs) ;;
  '(wts, s) <- lag_dir3 fd s 1 0 (map (fun r => ent r 1) rs) ;;
  '(wtt, s) <- lag_dir3 fd s 2 0 (map (fun r => ent r 2) rs) ;;
  slice <- mxm (repeat 0 (nrs * pn)) nrs u nt wtt pn ;;
  out <- mapM (fun i => tensor_i2 (from wtr (i * nr)) nr (from wts (i * ns)) ns (from slice (i * nrs)) (repeat 0 ns)) (seq 0 pn) ;;
  Ok (out, s).
End With.
