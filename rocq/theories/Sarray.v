(** Model of src/sarray_sort.c, src/sarray_sort.h and the sorting entry points of
    src/fcrystal.c.  Items (blocks of [size] bytes moved by memcpy) are elements of an
    arbitrary type; addresses ar+i*size are indices i. *)
From Verif Require Import Base Sort.

Section Permute.
Context {T : Type}.

(** Checked access with a signed index, as fperm[pi] / ar+pi*size. *)
Definition rdz {A} (l : list A) (i : Z) : res A :=
  if (i <? 0)%Z then UB else rd l (Z.to_nat i).
Definition wrz {A} (l : list A) (i : Z) (v : A) : res (list A) :=
  if (i <? 0)%Z then UB else wr l (Z.to_nat i) v.

(** The cycle loop (sarray_sort.c:26-33) followed by memcpy(dst,item) (line 34).
    src is always ar+pi*size at the top of the loop. *)
Fixpoint permute_cycle (fuel : nat) (A : list T) (fperm : list Z) (i : nat)
  (dst pi : Z) (item : T) : res (list T * list Z) :=
  match fuel with
  | O => OutOfFuel
  | S f =>
      x <- rdz A pi ;;
      A <- wrz A dst x ;;
      let dst := pi in
      ppi <- rdz fperm pi ;;
      fperm <- wrz fperm pi (- ppi - 1)%Z ;;
      let pi := ppi in
      if (pi =? Z.of_nat i)%Z then
        A <- wrz A dst item ;; Ok (A, fperm)
      else permute_cycle f A fperm i dst pi item
  end.

(** Body of the loop over i (sarray_sort.c:20-35). *)
Definition permute_step (n : nat) (s : list T * list Z) (i : nat) : res (list T * list Z) :=
  let '(A, fperm) := s in
  pi <- rd fperm i ;;
  if (pi <? 0)%Z then
    fperm <- wr fperm i (- pi - 1)%Z ;; Ok (A, fperm)
  else if (pi =? Z.of_nat i)%Z then Ok (A, fperm)
  else item <- rd A i ;; permute_cycle (S n) A fperm i (Z.of_nat i) pi item.

(** sarray_permute_ (sarray_sort.c:14-37): final array and final permutation array.
    perm is accessed as an array of sint; entries below 2^31 keep their value. *)
Definition sarray_permute (A : list T) (perm : list nat) : res (list T * list Z) :=
  let n := length A in
  foldM (permute_step n) (seq 0 n) (A, map Z.of_nat perm).
End Permute.

(** One key of a struct sort: is_long 0/1 give an integer key with 4 or 8 digits,
    is_long 2/3 a float/double key (sarray_sort_field, sarray_sort.h:48-57).
    The scratch arrays are the (arbitrary) contents of the work area used by that
    call of sortp. *)
Inductive field (T : Type) : Type :=
| FInt (D : nat) (key : T -> N) (wlo whi : list (sort_data N)) (w : list nat)
| FReal (R : Type) (ltb : R -> R -> bool) (key : T -> R) (wlo whi : list (sort_data R)).
Arguments FInt {T} _ _ _ _ _.
Arguments FReal {T} _ _ _ _ _.

(** sarray_sort_field (sarray_sort.h:48-57); strided access to the field of each struct. *)
Definition sort_field {T} (A : list T) (keep : bool) (perm : list nat) (f : field T)
  : res (list nat) :=
  match f with
  | FInt D key wlo whi w => sortp D keep perm (map key A) wlo whi w
  | FReal R ltb key wlo whi => sortp_real ltb keep perm (map key A) wlo whi
  end.

(** Least significant field first with keep=0, the others with keep=1
    (sarray_sort.h:59-85). *)
Fixpoint sort_fields {T} (A : list T) (perm : list nat) (fs : list (field T)) : res (list nat) :=
  match fs with
  | [] => Ok perm
  | [f] => sort_field A false perm f
  | f :: fs' => perm <- sort_fields A perm fs' ;; sort_field A true perm f
  end.

(** sarray_sort, sarray_sort_2, _3, _4 (sarray_sort.h:59-85): [fs] = field1, field2, ...;
    [perm0] is the initial contents of the permutation area of buf. *)
Definition sarray_sort {T} (A : list T) (perm0 : list nat) (fs : list (field T))
  : res (list T) :=
  perm <- sort_fields A perm0 fs ;;
  '(A, _) <- sarray_permute A perm ;; Ok A.

(** A permutation array as left in the buffer, read back as uint. *)
Definition perm_of_Z (p : list Z) : list nat := map Z.to_nat p.

Section TupleSort.
(** fcrystal_tuple_sort (fcrystal.c:122-148).  [Ai], [Al], [Ad] are the n columns of the
    three arrays, each column the list of its mi, ml, md entries; DI, DL the number of
    digits of sint and slong.  Fortran's nonnegative integers are N. *)
Context {R : Type}.
Variables (DI DL : nat) (mi ml md : nat).

Definition col (k : nat) (c : list N) : N := nth k c 0%N.

(** Loop body (fcrystal.c:137-144), keys are 1-based. *)
Definition tuple_sort_key (Ai Al : list (list N)) (wlo whi : list (sort_data N)) (w : list nat)
  (s : bool * list nat) (key : Z) : res (bool * list nat) :=
  let '(init, perm) := s in
  let k := (key - 1)%Z in
  if ((k <? 0) || (Z.of_nat (mi + ml) <=? k))%Z then Abort
  else
    perm <- (if (k <? Z.of_nat mi)%Z
             then sortp DI init perm (map (col (Z.to_nat k)) Ai) wlo whi w
             else sortp DL init perm (map (col (Z.to_nat k - mi)) Al) wlo whi w) ;;
    Ok (true, perm).

(** Permute one array if it has any rows (fcrystal.c:145-147); sarray_permute_ leaves the
    permutation in buf for the next one. *)
Definition tuple_permute {T} (m : nat) (A : list T) (perm : list nat) : res (list T * list nat) :=
  if m =? 0 then Ok (A, perm)
  else '(A, p) <- sarray_permute A perm ;; Ok (A, perm_of_Z p).

Definition tuple_sort (Ai Al : list (list N)) (Ad : list (list R)) (keys : list Z)
  (perm0 : list nat) (wlo whi : list (sort_data N)) (w : list nat)
  : res (list (list N) * list (list N) * list (list R)) :=
  match keys with
  | [] => Ok (Ai, Al, Ad)
  | _ =>
    '(_, perm) <- foldM (tuple_sort_key Ai Al wlo whi w) (rev keys) (false, perm0) ;;
    '(Ai, perm) <- tuple_permute mi Ai perm ;;
    '(Al, perm) <- tuple_permute ml Al perm ;;
    '(Ad, perm) <- tuple_permute md Ad perm ;;
    Ok (Ai, Al, Ad)
  end.
End TupleSort.

(** Read entry k-1 of a column; k is a 1-based row number (fcrystal.c:115,117). A row number
    outside the column is reported as UB (the code does not check it). *)
Definition col_entry (k : nat) (c : list N) : res N :=
  match k with O => UB | S k' => rd c k' end.

(** fcrystal_ituple_sort (fcrystal.c:105-120). *)
Definition ituple_sort_key (D : nat) (A : list (list N)) (wlo whi : list (sort_data N)) (w : list nat)
  (s : bool * list nat) (key : nat) : res (bool * list nat) :=
  let '(keep, perm) := s in
  ks <- mapM (col_entry key) A ;;
  perm <- sortp D keep perm ks wlo whi w ;;
  Ok (true, perm).

Definition ituple_sort (D : nat) (A : list (list N)) (keys : list nat)
  (perm0 : list nat) (wlo whi : list (sort_data N)) (w : list nat) : res (list (list N)) :=
  match keys with
  | [] => Ok A
  | _ =>
    '(_, perm) <- foldM (ituple_sort_key D A wlo whi w) (rev keys) (false, perm0) ;;
    '(A, _) <- sarray_permute A perm ;; Ok A
  end.

(** sarray_perm_invert (sarray_sort.h:87-91). *)
Definition sarray_perm_invert (pinv perm : list nat) : res (list nat) :=
  foldM (fun pinv i => j <- rd perm i ;; wr pinv j i) (seq 0 (length perm)) pinv.
