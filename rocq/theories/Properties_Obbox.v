(** Property C49: bounding boxes of spectral elements (in exact arithmetic). *)
From Verif Require Import Base BaseLemmas Tensor TensorSpec TensorProof Poly PolySpec PolyProof2 PolyImpSyntax PolyImp PolyGll PolyGllSpec PolyGllProof LobBnd LobBndSpec LobBndSetupProof3 Obbox ObboxSpec ObboxMax ObboxProof1 ObboxProof5 ObboxProof7 ObboxRefute.
From Coq Require Import Reals Lra.
Open Scope R_scope.

(** C49.  The tests of obbox.h are non-negative exactly for the points in the box(es). *)
Theorem C49_axis_test_2 : forall b x y, proper b 0 -> proper b 1 -> 0 <= obbox_axis_test_2 b [x; y] <-> in_axes_2 b x y.
Proof. exact axis_test_2. Qed.
Theorem C49_axis_test_3 : forall b x y z, proper b 0 -> proper b 1 -> proper b 2 -> 0 <= obbox_axis_test_3 b [x; y; z] <-> in_axes_3 b x y z.
Proof. exact axis_test_3. Qed.
Theorem C49_test_2 : forall b x y, proper b 0 -> proper b 1 -> 0 <= obbox_test_2 b [x; y] <-> in_axes_2 b x y /\ in_oriented_2 b x y.
Proof. exact test_2. Qed.
Theorem C49_test_3 : forall b x y z, proper b 0 -> proper b 1 -> proper b 2 -> 0 <= obbox_test_3 b [x; y; z] <-> in_axes_3 b x y z /\ in_oriented_3 b x y z.
Proof. exact test_3. Qed.
Print Assumptions C49_test_3.

(** dbl_range_merge: the smallest range that contains both; dbl_range_expand: the same centre,
    1 + tol times the width. *)
Theorem C49_merge : forall a b, let c := dbl_range_merge a b in rmin c = Rmin (rmin a) (rmin b) /\ rmax c = Rmax (rmax a) (rmax b).
Proof. intros a b c. unfold c, dbl_range_merge, Rmin, Rmax. cbn [rmin rmax]. destruct (Rlt_dec _ _), (Rgt_dec _ _), (Rle_dec _ _), (Rle_dec _ _); split; lra. Qed.
Theorem C49_expand : forall b tol, let c := dbl_range_expand b tol in
  rmin c + rmax c = rmin b + rmax b /\ rmax c - rmin c = (1 + tol) * (rmax b - rmin b).
Proof. intros b tol c. unfold c, dbl_range_expand. cbn [rmin rmax]. split; lra. Qed.
Print Assumptions C49_expand.

(** obbox_calc_2, for nodes from -1 to 1 and numbers of points for which lob_bnd_setup is right
    (good_dir; C49_small), and products as in C47: every point of the boundary of an element is in
    its axis-aligned box; if the Jacobian is not 0 inside, every point of the element is in both
    boxes, and obbox_test_2 does not reject it. *)
Theorem C49_calc_2 : forall nodes_n P nr ns mr ms zr zs nel x y tol,
  good R 0 Rplus Rmult P -> good_dir nodes_n nr mr zr -> good_dir nodes_n ns ms zs -> 0 <= tol ->
  (nel * (nr * ns) <= length x)%nat -> (nel * (nr * ns) <= length y)%nat ->
  exists out, obbox_calc_2 nodes_n P x y nr ns nel mr ms tol = Ok out /\ length out = nel /\
    forall e b, nth_error out e = Some b ->
      let X := poly_2 zr nr zs ns x (e * (nr * ns)) in let Y := poly_2 zr nr zs ns y (e * (nr * ns)) in
      proper b 0 /\ proper b 1 /\
      (forall r s, -1 <= r <= 1 -> -1 <= s <= 1 -> r = -1 \/ r = 1 \/ s = -1 \/ s = 1 -> in_axes_2 b (X r s) (Y r s)) /\
      (regular_2 X Y -> forall r s, -1 <= r <= 1 -> -1 <= s <= 1 ->
         in_axes_2 b (X r s) (Y r s) /\ in_oriented_2 b (X r s) (Y r s) /\ 0 <= obbox_test_2 b [X r s; Y r s]).
Proof.
  intros nn P nr ns mr ms zr zs nel x y tol G Gr Gs Ht Hx Hy. destruct (calc_2_ok nn P x y nr ns nel mr ms zr zs tol G Gr Gs Ht Hx Hy) as (out & E & L & F).
  exists out. split; [auto|]. split; [auto|]. intros e b Hb X Y. destruct (F e b Hb) as (A & B & P0 & P1). split; [auto|]. split; [auto|]. split.
  - intros r s Hr Hs Hb'. apply A. unfold edge_2, I1. tauto.
  - intros Reg r s Hr Hs. destruct (B Reg r s Hr Hs) as [B1 B2]. split; [auto|]. split; [auto|]. apply test_2; auto.
Qed.
Print Assumptions C49_calc_2.

(** The same in 3 dimensions. *)
Theorem C49_calc_3 : forall nodes_n P nr ns nt mr ms mt zr zs zt nel x y z tol,
  good R 0 Rplus Rmult P -> good_dir nodes_n nr mr zr -> good_dir nodes_n ns ms zs -> good_dir nodes_n nt mt zt -> 0 <= tol ->
  (nel * (nr * ns * nt) <= length x)%nat -> (nel * (nr * ns * nt) <= length y)%nat -> (nel * (nr * ns * nt) <= length z)%nat ->
  exists out, obbox_calc_3 nodes_n P x y z nr ns nt nel mr ms mt tol = Ok out /\ length out = nel /\
    forall e b, nth_error out e = Some b ->
      let o := (e * (nr * ns * nt))%nat in
      let X := poly_3 zr nr zs ns zt nt x o in let Y := poly_3 zr nr zs ns zt nt y o in let Z := poly_3 zr nr zs ns zt nt z o in
      proper b 0 /\ proper b 1 /\ proper b 2 /\
      (forall r s t, -1 <= r <= 1 -> -1 <= s <= 1 -> -1 <= t <= 1 -> r = -1 \/ r = 1 \/ s = -1 \/ s = 1 \/ t = -1 \/ t = 1 ->
         in_axes_3 b (X r s t) (Y r s t) (Z r s t)) /\
      (regular_3 X Y Z -> forall r s t, -1 <= r <= 1 -> -1 <= s <= 1 -> -1 <= t <= 1 ->
         in_axes_3 b (X r s t) (Y r s t) (Z r s t) /\ in_oriented_3 b (X r s t) (Y r s t) (Z r s t) /\ 0 <= obbox_test_3 b [X r s t; Y r s t; Z r s t]).
Proof.
  intros nn P nr ns nt mr ms mt zr zs zt nel x y z tol G Gr Gs Gt Ht Hx Hy Hz. destruct (calc_3_ok nn P x y z nr ns nt nel mr ms mt zr zs zt tol G Gr Gs Gt Ht Hx Hy Hz) as (out & E & L & F).
  exists out. split; [auto|]. split; [auto|]. intros e b Hb o X Y Z. destruct (F e b Hb) as (A & B & P0 & P1 & P2). do 3 (split; [auto|]). split.
  - intros r s t Hr Hs Ht' Hb'. apply A. unfold face_3, I1. tauto.
  - intros Reg r s t Hr Hs Ht'. destruct (B Reg r s t Hr Hs Ht') as [B1 B2]. split; [auto|]. split; [auto|]. apply test_3; auto.
Qed.
Print Assumptions C49_calc_3.

(** good_dir holds for n = 2 (every m >= 2), n = 3 (m >= 4) and n = 4 (m >= 7), with the nodes of
    lobatto_nodes.  (C48_more_points_refuted: it does not hold for n = 4, m = 5.) *)
Theorem C49_small : forall nodes_n n m, (n = 2 /\ 2 <= m \/ n = 3 /\ 4 <= m \/ n = 4 /\ 7 <= m)%nat -> good_dir nodes_n n m (gll_list n).
Proof. exact good_small. Qed.
Print Assumptions C49_small.

(** obbox.h: "The axis aligned bounds for a given element are ...".  That is false of elements
    whose Jacobian is 0 somewhere inside: for any numbers of points and any tolerance there is an
    element with 3 x 3 nodes whose centre is outside its box. *)
Theorem C49_folded_refuted : forall nodes_n P mr ms tol, good R 0 Rplus Rmult P -> (4 <= mr)%nat -> (4 <= ms)%nat -> 0 <= tol ->
  exists x y b, length x = 9%nat /\ length y = 9%nat /\ obbox_calc_2 nodes_n P x y 3 3 1 mr ms tol = Ok [b] /\
    let X := poly_2 (gll_list 3) 3 (gll_list 3) 3 x 0 in let Y := poly_2 (gll_list 3) 3 (gll_list 3) 3 y 0 in
    ~ in_axes_2 b (X 0 0) (Y 0 0).
Proof.
  intros nn P mr ms tol G Hr Hs Ht. destruct (folded_out nn P mr ms tol G Hr Hs Ht) as (M & b & E & L). exists (folded M), flat_y, b. split; [reflexivity|]. split; [reflexivity|]. split; [exact E|].
  intros X Y [[_ A] _]. unfold X in A. rewrite folded_centre in A; [lra|apply gll_distinct; lia|]. unfold get, gll_list. cbn. auto.
Qed.
Print Assumptions C49_folded_refuted.

(** Non-vacuity: products; the unit square and the unit cube with 2 nodes in each direction. *)
Example products_good : good R 0 Rplus Rmult (naive R 0 Rplus Rmult).
Proof. apply (naive_good R 0 1 Rplus Rmult Rminus Ropp RTheory). Qed.
Example square : forall r s, poly_2 (gll_list 2) 2 (gll_list 2) 2 [-1; 1; -1; 1] 0 r s = r /\ poly_2 (gll_list 2) 2 (gll_list 2) 2 [-1; -1; 1; 1] 0 r s = s.
Proof. intros r s. unfold poly_2. cbn. split; field. Qed.
Example square_regular : regular_2 (poly_2 (gll_list 2) 2 (gll_list 2) 2 [-1; 1; -1; 1] 0) (poly_2 (gll_list 2) 2 (gll_list 2) 2 [-1; -1; 1; 1] 0).
Proof.
  apply (regular_2_ext (fun r _ => r) (fun _ s => s)); [intros; symmetry; apply square..|]. intros r s xr xs yr ys _ _ A B C D.
  rewrite (uniqueness_limite _ _ _ _ A (derivable_pt_lim_id r)), (uniqueness_limite _ _ _ _ B (derivable_pt_lim_const r s)), (uniqueness_limite _ _ _ _ D (derivable_pt_lim_id s)). lra.
Qed.
Example cube : forall r s t, poly_3 (gll_list 2) 2 (gll_list 2) 2 (gll_list 2) 2 [-1; 1; -1; 1; -1; 1; -1; 1] 0 r s t = r /\
  poly_3 (gll_list 2) 2 (gll_list 2) 2 (gll_list 2) 2 [-1; -1; 1; 1; -1; -1; 1; 1] 0 r s t = s /\ poly_3 (gll_list 2) 2 (gll_list 2) 2 (gll_list 2) 2 [-1; -1; -1; -1; 1; 1; 1; 1] 0 r s t = t.
Proof. intros r s t. unfold poly_3. cbn. repeat split; field. Qed.
Example cube_regular : regular_3 (poly_3 (gll_list 2) 2 (gll_list 2) 2 (gll_list 2) 2 [-1; 1; -1; 1; -1; 1; -1; 1] 0)
  (poly_3 (gll_list 2) 2 (gll_list 2) 2 (gll_list 2) 2 [-1; -1; 1; 1; -1; -1; 1; 1] 0) (poly_3 (gll_list 2) 2 (gll_list 2) 2 (gll_list 2) 2 [-1; -1; -1; -1; 1; 1; 1; 1] 0).
Proof.
  apply (regular_3_ext (fun r _ _ => r) (fun _ s _ => s) (fun _ _ t => t)); [intros; symmetry; apply cube..|]. intros r s t xr xs xt yr ys yt zr zs zt _ _ _ A B C D E F K L M.
  rewrite (uniqueness_limite _ _ _ _ A (derivable_pt_lim_id r)), (uniqueness_limite _ _ _ _ B (derivable_pt_lim_const r s)), (uniqueness_limite _ _ _ _ C (derivable_pt_lim_const r t)),
    (uniqueness_limite _ _ _ _ E (derivable_pt_lim_id s)), (uniqueness_limite _ _ _ _ F (derivable_pt_lim_const s t)), (uniqueness_limite _ _ _ _ M (derivable_pt_lim_id t)). lra.
Qed.
