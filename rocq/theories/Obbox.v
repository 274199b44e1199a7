(** Model of src/obbox.c and src/obbox.h in exact real arithmetic.
    The parts of the array data (I0r, ..., lob_bnd_data_r, ..., work) are arrays of their own, with
    the sizes they have in data; they are initially 0 (no result depends on that). *)
From Verif Require Import Base Tensor Poly PolyImpSyntax PolyImp PolyGll LobBnd.
From Coq Require Import Reals.
Open Scope R_scope.

(** Entry i of a small array of known size (x0, J, Ji, c0, A). *)
Definition ent (a : list R) (i : nat) : R := nth i a 0.
(** struct dbl_range (lob_bnd.c:20). *)
Record range := Range { rmin : R; rmax : R }.
(** struct obbox_2, obbox_3 (obbox.h:52-56). *)
Record obbox := Box { c0 : list R; mat : list R; axes : list range }.
Definition axis (b : obbox) (i : nat) : range := nth i (axes b) (Range 0 0).

(** obbox_axis_test_2, obbox_test_2 (obbox.h:69-87). *)
Definition obbox_axis_test_2 (b : obbox) (x : list R) : R :=
  let bx := (ent x 0 - rmin (axis b 0)) * (rmax (axis b 0) - ent x 0) in
  if Rlt_dec bx 0 then bx else (ent x 1 - rmin (axis b 1)) * (rmax (axis b 1) - ent x 1).
Definition obbox_test_2 (b : obbox) (x : list R) : R :=
  let bxy := obbox_axis_test_2 b x in
  if Rlt_dec bxy 0 then bxy else
  let dx := ent x 0 - ent (c0 b) 0 in let dy := ent x 1 - ent (c0 b) 1 in
  let A := ent (mat b) in
  let r := A 0%nat * dx + A 1%nat * dy in
  let s := A 2%nat * dx + A 3%nat * dy in
  let br := (r + 1) * (1 - r) in
  if Rlt_dec br 0 then br else (s + 1) * (1 - s).

(** obbox_axis_test_3, obbox_test_3 (obbox.h:90-110). *)
Definition obbox_axis_test_3 (b : obbox) (x : list R) : R :=
  let bx := (ent x 0 - rmin (axis b 0)) * (rmax (axis b 0) - ent x 0) in
  let by_ := (ent x 1 - rmin (axis b 1)) * (rmax (axis b 1) - ent x 1) in
  if Rlt_dec bx 0 then bx else
  if Rlt_dec by_ 0 then by_ else (ent x 2 - rmin (axis b 2)) * (rmax (axis b 2) - ent x 2).
Definition obbox_test_3 (b : obbox) (x : list R) : R :=
  let bxyz := obbox_axis_test_3 b x in
  if Rlt_dec bxyz 0 then bxyz else
  let dx := ent x 0 - ent (c0 b) 0 in let dy := ent x 1 - ent (c0 b) 1 in let dz := ent x 2 - ent (c0 b) 2 in
  let A := ent (mat b) in
  let r := A 0%nat * dx + A 1%nat * dy + A 2%nat * dz in
  let s := A 3%nat * dx + A 4%nat * dy + A 5%nat * dz in
  let t := A 6%nat * dx + A 7%nat * dy + A 8%nat * dz in
  let br := (r + 1) * (1 - r) in let bs := (s + 1) * (1 - s) in
  if Rlt_dec br 0 then br else if Rlt_dec bs 0 then bs else (t + 1) * (1 - t).

(** copy_strided (obbox.c:23-31): out is w[o...], in is v[i...], which may be another array. *)
Definition copy_strided (w : arr) (o : nat) (v : arr) (i g s n : nat) : res arr :=
  if (g =? 1)%nat then
    foldM (fun w k => x <- rd v (i + k * s) ;; wr w (o + k) x) (seq 0 n) w
  else
    let s := (s * g)%nat in
    foldM (fun w k =>
      foldM (fun w l => x <- rd v (i + k * s + l) ;; wr w (o + k * g + l) x) (seq 0 g) w) (seq 0 n) w.

(** mat_inv_2 (obbox.c:33-40), mat_inv_3 (42-57). *)
Definition mat_inv_2 (M : list R) : list R :=
  let A := ent M in
  let idet := 1 / (A 0%nat * A 3%nat - A 1%nat * A 2%nat) in
  [idet * A 3%nat; - (idet * A 1%nat); - (idet * A 2%nat); idet * A 0%nat].
Definition mat_inv_3 (M : list R) : list R :=
  let A := ent M in
  let a := A 4%nat * A 8%nat - A 5%nat * A 7%nat in
  let b := A 5%nat * A 6%nat - A 3%nat * A 8%nat in
  let c := A 3%nat * A 7%nat - A 4%nat * A 6%nat in
  let idet := 1 / (A 0%nat * a + A 1%nat * b + A 2%nat * c) in
  [idet * a; idet * (A 2%nat * A 7%nat - A 1%nat * A 8%nat); idet * (A 1%nat * A 5%nat - A 2%nat * A 4%nat);
   idet * b; idet * (A 0%nat * A 8%nat - A 2%nat * A 6%nat); idet * (A 2%nat * A 3%nat - A 0%nat * A 5%nat);
   idet * c; idet * (A 1%nat * A 6%nat - A 0%nat * A 7%nat); idet * (A 0%nat * A 4%nat - A 1%nat * A 3%nat)].

(** dbl_range_merge, dbl_range_expand (obbox.c:59-73). *)
Definition dbl_range_merge (a b : range) : range :=
  Range (if Rlt_dec (rmin b) (rmin a) then rmin b else rmin a) (if Rgt_dec (rmax a) (rmax b) then rmax a else rmax b).
Definition dbl_range_expand (b : range) (tol : R) : range :=
  let a := (rmin b + rmax b) / 2 in let l := (rmax b - rmin b) * (1 + tol) / 2 in
  Range (a - l) (a + l).

(** A source of numbers: an array that does not change or a part of the work array w; the
    position in it. *)
Inductive src := Fixed (a : arr) (o : nat) | Work (o : nat).
Definition src_arr (w : arr) (x : src) : arr := match x with Fixed a _ => a | Work _ => w end.
Definition src_off (x : src) : nat := match x with Fixed _ o => o | Work o => o end.

(** bbox_2_tfm (obbox.c:75-84), bbox_3_tfm (86-97); out is w[o...]. *)
Definition bbox_2_tfm (w : arr) (o : nat) (x0 Ji : list R) (x y : src) (n : nat) : res arr :=
  foldM (fun w i =>
    xi <- rd (src_arr w x) (src_off x + i) ;; yi <- rd (src_arr w y) (src_off y + i) ;;
    let dx := xi - ent x0 0 in let dy := yi - ent x0 1 in
    w <- wr w (o + i) (ent Ji 0 * dx + ent Ji 1 * dy) ;;
    wr w (o + (n + i)) (ent Ji 2 * dx + ent Ji 3 * dy)) (seq 0 n) w.
Definition bbox_3_tfm (w : arr) (o : nat) (x0 Ji : list R) (x y z : src) (n : nat) : res arr :=
  foldM (fun w i =>
    xi <- rd (src_arr w x) (src_off x + i) ;; yi <- rd (src_arr w y) (src_off y + i) ;; zi <- rd (src_arr w z) (src_off z + i) ;;
    let dx := xi - ent x0 0 in let dy := yi - ent x0 1 in let dz := zi - ent x0 2 in
    w <- wr w (o + i) (ent Ji 0 * dx + ent Ji 1 * dy + ent Ji 2 * dz) ;;
    w <- wr w (o + (n + i)) (ent Ji 3 * dx + ent Ji 4 * dy + ent Ji 5 * dz) ;;
    wr w (o + (2 * n + i)) (ent Ji 6 * dx + ent Ji 7 * dy + ent Ji 8 * dz)) (seq 0 n) w.

(** "if(merge) bnd=dbl_range_merge(bnd,b); else bnd=b" (obbox.c:175, 281); None: not yet set. *)
Definition join (merge : bool) (bnd : option range) (b : range) : res range :=
  if merge then match bnd with Some a => Ok (dbl_range_merge a b) | None => UB end else Ok b.

(** SETUP_DIR (obbox.c:152-156, 255-259): I0 and lob_bnd_data for one direction, and work. *)
Definition setup_dir (nodes_n : arr -> nat -> res arr) (work : arr) (n m : nat) : res (arr * arr * arr) :=
  '(lag, work) <- gll_lag_setup nodes_n work n ;;
  match lag with
  | None => UB
  | Some lag =>
      '(I0, work) <- lag (repeat 0 (2 * n)) work n 1%nat 0 ;;
      d <- lob_bnd_setup nodes_n (repeat 0 (lob_bnd_size n m)) n m ;;
      Ok (I0, d, work)
  end.

Section Calc.
Variable nodes_n : arr -> nat -> res arr.
Variable P : products R.

(** DO_BOUND (obbox.c:172-176): the new bound and the work array, of which the part from wo on is
    used.  The polynomial u is read before anything is written (the used parts are disjoint). *)
Definition do_bound_2 (bnd : option range) (merge : bool) (d : arr) (n m : nat) (u : src) (w : arr) (wo : nat) : res (option range * arr) :=
  '(mn, mx, wk) <- lob_bnd_1 d n m (src_arr w u) (src_off u) (skipn wo w) ;;
  b <- join merge bnd (Range mn mx) ;;
  Ok (Some b, firstn wo w ++ wk).
(** DO_EDGE (obbox.c:179-185). *)
Definition do_edge (st : option range * option range * option range * option range * arr) (merge : bool) (d : arr) (n m : nat)
                   (x0 Ji : list R) (x y : src) (wo : nat) : res (option range * option range * option range * option range * arr) :=
  let '(ab0, ab1, tb0, tb1, w) := st in
  '(ab0, w) <- do_bound_2 ab0 merge d n m x w wo ;;
  '(ab1, w) <- do_bound_2 ab1 merge d n m y w wo ;;
  w <- bbox_2_tfm w wo x0 Ji x y n ;;
  '(tb0, w) <- do_bound_2 tb0 merge d n m (Work wo) w (wo + 2 * n) ;;
  '(tb1, w) <- do_bound_2 tb1 merge d n m (Work (wo + n)) w (wo + 2 * n) ;;
  Ok (ab0, ab1, tb0, tb1, w).
(** GET_EDGE (obbox.c:191-195). *)
Definition get_edge (st : option range * option range * option range * option range * arr) (ds : arr) (nr ns ms : nat)
                    (x0 Ji : list R) (x : arr) (xo : nat) (y : arr) (yo : nat) (off : nat) : res (option range * option range * option range * option range * arr) :=
  let '(ab0, ab1, tb0, tb1, w) := st in
  w <- copy_strided w 0 x (xo + off) 1 nr ns ;;
  w <- copy_strided w ns y (yo + off) 1 nr ns ;;
  do_edge (ab0, ab1, tb0, tb1, w) true ds ns ms x0 Ji (Work 0) (Work ns) (2 * ns).

(** One pass of the loop of obbox_calc_2 (obbox.c:162-219): the box of the element at x[xo...],
    y[xo...].  tensor_ig2 uses work; what it leaves there is not modelled. *)
Definition obbox_el_2 (I0r I0s dr ds : arr) (nr ns mr ms : nat) (x y : arr) (xo : nat) (tol : R) (w : arr) : res (obbox * arr) :=
  let nrs := (nr * ns)%nat in
  '(x00, J0) <- tensor_ig2 R 0 Rplus Rmult P I0r nr I0s ns (skipn xo x) w ;;
  '(x01, J1) <- tensor_ig2 R 0 Rplus Rmult P I0r nr I0s ns (skipn xo y) w ;;
  let x0 := [x00; x01] in let J := J0 ++ J1 in
  let Ji := mat_inv_2 J in
  st <- do_edge (None, None, None, None, w) false dr nr mr x0 Ji (Fixed x xo) (Fixed y xo) 0 ;;
  st <- do_edge st true dr nr mr x0 Ji (Fixed x (xo + (nrs - nr))) (Fixed y (xo + (nrs - nr))) 0 ;;
  st <- get_edge st ds nr ns ms x0 Ji x xo y xo 0 ;;
  st <- get_edge st ds nr ns ms x0 Ji x xo y xo (nr - 1) ;;
  match st with
  | (Some ab0, Some ab1, Some tb0, Some tb1, w) =>
      let av0 := (rmin tb0 + rmax tb0) / 2 in let av1 := (rmin tb1 + rmax tb1) / 2 in
      let di0 := 2 / ((1 + tol) * (rmax tb0 - rmin tb0)) in
      let di1 := 2 / ((1 + tol) * (rmax tb1 - rmin tb1)) in
      Ok (Box [ent x0 0 + ent J 0 * av0 + ent J 1 * av1; ent x0 1 + ent J 2 * av0 + ent J 3 * av1]
              [di0 * ent Ji 0; di0 * ent Ji 1; di1 * ent Ji 2; di1 * ent Ji 3]
              [dbl_range_expand ab0 tol; dbl_range_expand ab1 tol], w)
  | _ => UB
  end.

(** obbox_calc_2 (obbox.c:127-223): the boxes of nel elements. *)
Definition obbox_calc_2 (x y : arr) (nr ns nel mr ms : nat) (tol : R) : res (list obbox) :=
  let wsize := Nat.max (Nat.max (Nat.max (4 * ns + 2 * ms) (2 * nr + 2 * mr)) (gll_lag_size nr)) (gll_lag_size ns) in
  '(I0r, dr, w) <- setup_dir nodes_n (repeat 0 wsize) nr mr ;;
  '(I0s, ds, w) <- setup_dir nodes_n w ns ms ;;
  '(out, _) <- foldM (fun '(out, w) e =>
      '(b, w) <- obbox_el_2 I0r I0s dr ds nr ns mr ms x y (e * (nr * ns)) tol w ;;
      Ok (out ++ [b], w)) (seq 0 nel) ([], w) ;;
  Ok out.

(** DO_BOUND (obbox.c:277-282). *)
Definition do_bound_3 (bnd : option range) (merge : bool) (dr : arr) (nr mr : nat) (ds : arr) (ns ms : nat) (u : src) (w : arr) (wo : nat) : res (option range * arr) :=
  '(mn, mx, wk) <- lob_bnd_2 dr nr mr ds ns ms (src_arr w u) (src_off u) (skipn wo w) ;;
  b <- join merge bnd (Range mn mx) ;;
  Ok (Some b, firstn wo w ++ wk).
(** ab[0..2], tb[0..2] and work. *)
Definition state_3 : Type := option range * option range * option range * (option range * option range * option range) * arr.
(** DO_FACE (obbox.c:285-293). *)
Definition do_face (st : state_3) (merge : bool) (dr : arr) (nr mr : nat) (ds : arr) (ns ms : nat)
                   (x0 Ji : list R) (x y z : src) (wo : nat) : res state_3 :=
  let '(ab0, ab1, ab2, (tb0, tb1, tb2), w) := st in
  '(ab0, w) <- do_bound_3 ab0 merge dr nr mr ds ns ms x w wo ;;
  '(ab1, w) <- do_bound_3 ab1 merge dr nr mr ds ns ms y w wo ;;
  '(ab2, w) <- do_bound_3 ab2 merge dr nr mr ds ns ms z w wo ;;
  w <- bbox_3_tfm w wo x0 Ji x y z (nr * ns) ;;
  '(tb0, w) <- do_bound_3 tb0 merge dr nr mr ds ns ms (Work wo) w (wo + 3 * nr * ns) ;;
  '(tb1, w) <- do_bound_3 tb1 merge dr nr mr ds ns ms (Work (wo + nr * ns)) w (wo + 3 * nr * ns) ;;
  '(tb2, w) <- do_bound_3 tb2 merge dr nr mr ds ns ms (Work (wo + 2 * nr * ns)) w (wo + 3 * nr * ns) ;;
  Ok (ab0, ab1, ab2, (tb0, tb1, tb2), w).
(** GET_FACE (obbox.c:299-304). *)
Definition get_face (st : state_3) (dr : arr) (nr mr : nat) (ds : arr) (ns ms : nat)
                    (x0 Ji : list R) (x y z : arr) (xo off n1 n2 n3 : nat) : res state_3 :=
  let '(ab0, ab1, ab2, tb, w) := st in
  w <- copy_strided w 0 x (xo + off) n1 n2 n3 ;;
  w <- copy_strided w (nr * ns) y (xo + off) n1 n2 n3 ;;
  w <- copy_strided w (2 * nr * ns) z (xo + off) n1 n2 n3 ;;
  do_face (ab0, ab1, ab2, tb, w) true dr nr mr ds ns ms x0 Ji (Work 0) (Work (nr * ns)) (Work (2 * nr * ns)) (3 * nr * ns).

(** One pass of the loop of obbox_calc_3 (obbox.c:265-336). *)
Definition obbox_el_3 (I0r I0s I0t dr ds dt : arr) (nr ns nt mr ms mt : nat) (x y z : arr) (xo : nat) (tol : R) (w : arr) : res (obbox * arr) :=
  let nrs := (nr * ns)%nat in let nrst := (nr * ns * nt)%nat in
  '(x00, J0) <- tensor_ig3 R 0 Rplus Rmult P I0r nr I0s ns I0t nt (skipn xo x) w ;;
  '(x01, J1) <- tensor_ig3 R 0 Rplus Rmult P I0r nr I0s ns I0t nt (skipn xo y) w ;;
  '(x02, J2) <- tensor_ig3 R 0 Rplus Rmult P I0r nr I0s ns I0t nt (skipn xo z) w ;;
  let x0 := [x00; x01; x02] in let J := J0 ++ J1 ++ J2 in
  let Ji := mat_inv_3 J in
  let top := (xo + (nrst - nrs))%nat in
  st <- do_face (None, None, None, (None, None, None), w) false dr nr mr ds ns ms x0 Ji (Fixed x xo) (Fixed y xo) (Fixed z xo) 0 ;;
  st <- do_face st true dr nr mr ds ns ms x0 Ji (Fixed x top) (Fixed y top) (Fixed z top) 0 ;;
  st <- get_face st dr nr mr dt nt mt x0 Ji x y z xo 0 nr ns nt ;;
  st <- get_face st dr nr mr dt nt mt x0 Ji x y z xo (nrs - nr) nr ns nt ;;
  st <- get_face st ds ns ms dt nt mt x0 Ji x y z xo 0 1 nr (ns * nt) ;;
  st <- get_face st ds ns ms dt nt mt x0 Ji x y z xo (nr - 1) 1 nr (ns * nt) ;;
  match st with
  | (Some ab0, Some ab1, Some ab2, (Some tb0, Some tb1, Some tb2), w) =>
      let av0 := (rmin tb0 + rmax tb0) / 2 in let av1 := (rmin tb1 + rmax tb1) / 2 in let av2 := (rmin tb2 + rmax tb2) / 2 in
      let di0 := 2 / ((1 + tol) * (rmax tb0 - rmin tb0)) in
      let di1 := 2 / ((1 + tol) * (rmax tb1 - rmin tb1)) in
      let di2 := 2 / ((1 + tol) * (rmax tb2 - rmin tb2)) in
      Ok (Box [ent x0 0 + ent J 0 * av0 + ent J 1 * av1 + ent J 2 * av2;
               ent x0 1 + ent J 3 * av0 + ent J 4 * av1 + ent J 5 * av2;
               ent x0 2 + ent J 6 * av0 + ent J 7 * av1 + ent J 8 * av2]
              [di0 * ent Ji 0; di0 * ent Ji 1; di0 * ent Ji 2; di1 * ent Ji 3; di1 * ent Ji 4; di1 * ent Ji 5;
               di2 * ent Ji 6; di2 * ent Ji 7; di2 * ent Ji 8]
              [dbl_range_expand ab0 tol; dbl_range_expand ab1 tol; dbl_range_expand ab2 tol], w)
  | _ => UB
  end.

(** obbox_calc_3 (obbox.c:225-340). *)
Definition obbox_calc_3 (x y z : arr) (nr ns nt nel mr ms mt : nat) (tol : R) : res (list obbox) :=
  let wsize := (3 * nr * ns + 2 * mr * (ns + ms + 1))%nat in
  let wsize := Nat.max wsize (6 * nr * nt + 2 * mr * (nt + mt + 1)) in
  let wsize := Nat.max wsize (6 * ns * nt + 2 * ms * (nt + mt + 1)) in
  let wsize := Nat.max wsize (2 * nr * ns + 3 * nr) in
  let wsize := Nat.max wsize (gll_lag_size nr) in
  let wsize := Nat.max wsize (gll_lag_size ns) in
  let wsize := Nat.max wsize (gll_lag_size nt) in
  '(I0r, dr, w) <- setup_dir nodes_n (repeat 0 wsize) nr mr ;;
  '(I0s, ds, w) <- setup_dir nodes_n w ns ms ;;
  '(I0t, dt, w) <- setup_dir nodes_n w nt mt ;;
  '(out, _) <- foldM (fun '(out, w) e =>
      '(b, w) <- obbox_el_3 I0r I0s I0t dr ds dt nr ns nt mr ms mt x y z (e * (nr * ns * nt)) tol w ;;
      Ok (out ++ [b], w)) (seq 0 nel) ([], w) ;;
  Ok out.
End Calc.
