(** Boxes and spectral elements. *)
From Verif Require Import Base Poly PolySpec PolyGll LobBnd LobBndSpec Obbox.
From Coq Require Import Reals.
Open Scope R_scope.

Definition in_range (x : R) (r : range) : Prop := rmin r <= x <= rmax r.
(** The axis-aligned and the oriented box, as in obbox.h:29-43. *)
Definition in_axes_2 (b : obbox) (x y : R) : Prop := in_range x (axis b 0) /\ in_range y (axis b 1).
Definition in_axes_3 (b : obbox) (x y z : R) : Prop := in_range x (axis b 0) /\ in_range y (axis b 1) /\ in_range z (axis b 2).
Definition in_oriented_2 (b : obbox) (x y : R) : Prop :=
  let A := ent (mat b) in let dx := x - ent (c0 b) 0 in let dy := y - ent (c0 b) 1 in
  -1 <= A 0%nat * dx + A 1%nat * dy <= 1 /\ -1 <= A 2%nat * dx + A 3%nat * dy <= 1.
Definition in_oriented_3 (b : obbox) (x y z : R) : Prop :=
  let A := ent (mat b) in let dx := x - ent (c0 b) 0 in let dy := y - ent (c0 b) 1 in let dz := z - ent (c0 b) 2 in
  -1 <= A 0%nat * dx + A 1%nat * dy + A 2%nat * dz <= 1 /\
  -1 <= A 3%nat * dx + A 4%nat * dy + A 5%nat * dz <= 1 /\
  -1 <= A 6%nat * dx + A 7%nat * dy + A 8%nat * dz <= 1.
(** min <= max for each axis. *)
Definition proper (b : obbox) (i : nat) : Prop := rmin (axis b i) <= rmax (axis b i).

(** The Jacobian of (X,Y) is not 0 inside the reference square (-1,1)^2 ... *)
Definition regular_2 (X Y : R -> R -> R) : Prop :=
  forall r s xr xs yr ys, -1 < r < 1 -> -1 < s < 1 ->
    derivable_pt_lim (fun r => X r s) r xr -> derivable_pt_lim (fun s => X r s) s xs ->
    derivable_pt_lim (fun r => Y r s) r yr -> derivable_pt_lim (fun s => Y r s) s ys ->
    xr * ys - xs * yr <> 0.
(** ... that of (X,Y,Z) inside the reference cube. *)
Definition regular_3 (X Y Z : R -> R -> R -> R) : Prop :=
  forall r s t xr xs xt yr ys yt zr zs zt, -1 < r < 1 -> -1 < s < 1 -> -1 < t < 1 ->
    derivable_pt_lim (fun r => X r s t) r xr -> derivable_pt_lim (fun s => X r s t) s xs -> derivable_pt_lim (fun t => X r s t) t xt ->
    derivable_pt_lim (fun r => Y r s t) r yr -> derivable_pt_lim (fun s => Y r s t) s ys -> derivable_pt_lim (fun t => Y r s t) t yt ->
    derivable_pt_lim (fun r => Z r s t) r zr -> derivable_pt_lim (fun s => Z r s t) s zs -> derivable_pt_lim (fun t => Z r s t) t zt ->
    xr * (ys * zt - yt * zs) - xs * (yr * zt - yt * zr) + xt * (yr * zs - ys * zr) <> 0.

(** Every lob_bnd_setup with n nodes zs, the first and last of which are -1 and 1, and m points
    finds functions that bound the basis functions. *)
Record good_dir (nodes_n : arr -> nat -> res arr) (n m : nat) (zs : arr) : Prop := {
  gd_n : (2 <= n)%nat;
  gd_m : (2 <= m)%nat;
  gd_points : lobatto_points nodes_n n zs;
  gd_first : get zs 0 = -1;
  gd_last : get zs (n - 1) = 1;
  gd_bounds : forall d d', lob_bnd_setup nodes_n d n m = Ok d' -> (lob_bnd_size n m <= length d)%nat -> bounds_basis d' n m }.
