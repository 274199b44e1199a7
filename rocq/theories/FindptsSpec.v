(** Specification vocabulary for the search of points in elements. *)
From Verif Require Import Base Findpts.
From Coq Require Import QArith Qround.
Open Scope nat_scope.

(** What is assumed of the rounding of double operations: it is monotone, exact at 0 and at
    most doubles a positive result.  Exact arithmetic satisfies this, and so does rounding to
    nearest in the absence of overflow. *)
Record rounding (rnd : Q -> Q) : Prop := {
  rnd_mono : forall x y, (x <= y -> rnd x <= rnd y)%Q;
  rnd_zero : (rnd 0 == 0)%Q;
  rnd_twice : forall x, (0 <= x -> rnd x <= 2 * x)%Q }.

Section Spec.
Variable F : doubles.
Notation dbl := (dbl F).
Notation val := (val F).
Variable rnd : Q -> Q.

(** The position of coordinate x between lo and hi, in units of n cells, as computed by the
    code: (x-lo)*(n/(hi-lo)) with all roundings. *)
Definition pos (n : nat) (b : dbl * dbl) (x : dbl) : Q :=
  rnd (rnd (val x - val (fst b)) * rnd (inject_Z (Z.of_nat n) / rnd (val (snd b) - val (fst b)))).

(** x is in the box b; every range of the box is ordered; b' contains b. *)
Definition in_box (x : list dbl) (b : box F) : Prop :=
  Forall2 (fun x r => (val (fst r) <= val x <= val (snd r))%Q) x b.
Definition ordered (b : box F) : Prop := Forall (fun r => (val (fst r) <= val (snd r))%Q) b.
Definition sub_box (b b' : box F) : Prop :=
  Forall2 (fun r r' => (val (fst r') <= val (fst r))%Q /\ (val (snd r) <= val (snd r'))%Q) b b'.

(** bd is the smallest box that contains all boxes of [obb]. *)
Definition bounds (obb : list (box F)) (bd : box F) : Prop :=
  (forall b, In b obb -> sub_box b bd) /\
  (forall bd', (forall b, In b obb -> sub_box b bd') -> sub_box bd bd').

(** bd is not flat, as computed, and the lower faces of the box b are, as computed, away from
    the upper faces of bd, for every number of cells. *)
Definition clear (bd b : box F) : Prop :=
  forall n, 1 <= n ->
    Forall2 (fun r c => (0 < rnd (val (snd c) - val (fst c)))%Q /\
                        (pos n c (fst r) < inject_Z (Z.of_nat n))%Q) b bd.

(** x is, as computed with n cells, below the upper faces of the box b unless these are at the
    end of bd. *)
Definition below_top (n : nat) (bd b : box F) (x : list dbl) : Prop :=
  Forall2 (fun x rc => (pos n (snd rc) x < pos n (snd rc) (snd (fst rc)))%Q \/
                       (inject_Z (Z.of_nat n) <= pos n (snd rc) (snd (fst rc)))%Q) x (combine b bd).

(** The position of x can be converted to a signed integer of w bytes. *)
Definition convertible (w n : nat) (bd : box F) (x : list dbl) : Prop :=
  Forall2 (fun x c => (0 < rnd (val (snd c) - val (fst c)))%Q /\
    (- 2 ^ (8 * Z.of_nat w - 1) <= Qfloor (pos n c x) < 2 ^ (8 * Z.of_nat w - 1))%Z) x bd.

(** The cells [first, last) along one dimension that the interval r covers, when c is divided
    in n cells: from the cell of the lower end up to, excluding, the first cell that starts at
    or above the upper end; at least one cell. *)
Definition cell_range (n : nat) (c r : dbl * dbl) : nat * nat :=
  let first := Z.to_nat (Qfloor (pos n c (fst r))) in
  (first, Nat.max (first + 1) (Nat.min n (Z.to_nat (Qceiling (pos n c (snd r)))))).
(** The number of cells a box covers, and the sum of these numbers over all boxes. *)
Definition covered (n : nat) (bd b : box F) : nat :=
  fold_right Nat.mul 1
    (map (fun rc => let ir := cell_range n (snd rc) (fst rc) in snd ir - fst ir) (combine b bd)).
Definition entries (n : nat) (bd : box F) (obb : list (box F)) : nat :=
  fold_right Nat.add 0 (map (covered n bd) obb).

(** The sizes of all tables that are tried are numbers of usize bytes: tables of less than nu
    cells in each direction, and of one cell. *)
Definition sizes_fit (usize nu D : nat) (bd : box F) (obb : list (box F)) : Prop :=
  1 <= nu < 256 ^ usize /\
  forall n, 1 <= n -> n < nu \/ n = 1 -> n ^ D + 1 + entries n bd obb < 256 ^ usize.

(** Cell c of a table of n cells per dimension is one of those the box b covers. *)
Definition cell_in_box (n : nat) (bd b : box F) (c : nat) : Prop :=
  forall k rb rc, nth_error b k = Some rb -> nth_error bd k = Some rc ->
    let ir := cell_range n rc rb in fst ir <= (c / n ^ k) mod n < snd ir.

(** c is the cell of the point x; points outside bd count to the nearest cell. *)
Definition cell_at (n : nat) (bd : box F) (x : list dbl) (c : nat) : Prop :=
  c < n ^ length bd /\
  forall k xk rc, nth_error x k = Some xk -> nth_error bd k = Some rc ->
    (c / n ^ k) mod n = Nat.min (n - 1) (Z.to_nat (Qfloor (pos n rc xk))).

(** As computed with n cells, no dimension of b is flat. *)
Definition thick_at (n : nat) (bd b : box F) : Prop :=
  Forall2 (fun r c => (pos n c (fst r) < pos n c (snd r))%Q) b bd.
(** The cells that the boxes of one process cover. *)
Definition cells_of (n : nat) (bd : box F) (obb : list (box F)) (l : list nat) : Prop :=
  NoDup l /\ forall c, In c l <-> c < n ^ length bd /\ exists b, In b obb /\ cell_in_box n bd b c.

(** Cell c of the global table is kept by process c mod np at position c/np.  The array of process
    r has, for each cell it keeps, a list of exactly the processes that have an element box
    covering the cell, once each; [obb q] are the boxes of process q. *)
Definition lists_procs (np n : nat) (bd : box F) (obb : nat -> list (box F)) (r : nat) (offs : list nat) : Prop :=
  forall c, c < n ^ length bd -> c mod np = r -> exists b e l,
    nth_error offs (c / np) = Some b /\ nth_error offs (c / np + 1) = Some e /\
    mapM (rd offs) (seq b (e - b)) = Ok l /\ NoDup l /\
    forall q, In q l <-> q < np /\ exists bx, In bx (obb q) /\ cell_in_box n bd bx c.

(** What a search has to return for a point, given the candidates that may and those that must
    be considered, and what the solver says of each: not found (the arrays being as in [none])
    only if nothing must be considered; else the solution of one of the candidates, internal if
    one that must be considered is internal, and not farther than any that must be considered
    unless it is internal. *)
Definition answer {E} (may must : E -> Prop) (sol : E -> found F) (who : E -> result F -> Prop)
    (none o : result F) : Prop :=
  (o = none /\ code F o = NOT_FOUND /\ forall c, ~ must c) \/
  (exists c, may c /\ who c o /\ r F o = f_r F (sol c) /\ dist2 F o = f_dist2 F (sol c) /\
             code F o = (if f_internal F (sol c) then INTERNAL else BORDER) /\
   forall c', must c' -> code F o = INTERNAL \/
     f_internal F (sol c') = false /\ (val (dist2 F o) <= val (f_dist2 F (sol c')))%Q).

(** Points of this session are searched on a process that belongs to a session: with one
    session all; else with session_id_match=1 those of the same session, otherwise those of the
    other sessions. *)
Definition searched (fd : local_data F) (session_id_match sid : nat) : Prop :=
  ims F fd = false \/ (if session_id_match =? 1 then sid = nsid F fd else sid <> nsid F fd).

(** For exact arithmetic: the box has a width in every dimension; x is below the upper faces of
    b unless these are on the boundary of bd. *)
Definition thick (b : box F) : Prop := Forall (fun r => (val (fst r) < val (snd r))%Q) b.
Definition below_face (bd b : box F) (x : list dbl) : Prop :=
  Forall2 (fun x rc => (val x < val (snd (fst rc)))%Q \/ (val (snd (fst rc)) == val (snd (snd rc)))%Q)
    x (combine b bd).

(** Boxes of elements in dimension D: at least one, ordered. *)
Definition boxes (D : nat) (obb : list (box F)) : Prop :=
  obb <> [] /\ forall b, In b obb -> length b = D /\ ordered b.
End Spec.
