(** Specification vocabulary for gs_setup, gs and gs_unique.

    A process passes a list of integer ids to gs_setup.  |id| is the label of an entry; 0 means
    the entry takes no part; a negative id marks the entry as flagged. *)
From Verif Require Import Base Sort Transfer TransferSpec GsTop.

(** Indices below n with a property, in increasing order. *)
Definition indices (n : nat) (want : nat -> bool) : list nat := filter want (seq 0 n).

Definition id_at (l : list Z) (i : nat) : Z := nth i l 0%Z.
Definition label_at (l : list Z) (i : nat) : nat := Z.abs_nat (id_at l i).
Definition is_flagged (l : list Z) (i : nat) : bool := (id_at l i <? 0)%Z.

(** The indices with label x that are not flagged, that are flagged, and all of them. *)
Definition unflagged_at (l : list Z) (x : nat) : list nat :=
  indices (length l) (fun i => (label_at l i =? x) && negb (is_flagged l i)).
Definition flagged_at (l : list Z) (x : nat) : list nat :=
  indices (length l) (fun i => (label_at l i =? x) && is_flagged l i).
Definition all_at (l : list Z) (x : nat) : list nat := indices (length l) (fun i => label_at l i =? x).

(** Label x occurs on a process; it occurs there only flagged. *)
Definition has (l : list Z) (x : nat) : bool := negb (length (all_at l x) =? 0).
Definition only_flagged (l : list Z) (x : nat) : bool := length (unflagged_at l x) =? 0.

(** The entry that represents label x on a process: the first unflagged one, or the first
    one when all are flagged. *)
Definition prim (l : list Z) (x : nat) : nat := hd 0 (unflagged_at l x ++ flagged_at l x).

(** The index i represents its label. *)
Definition is_prim (l : list Z) (i : nat) : bool :=
  negb (label_at l i =? 0) && (prim l (label_at l i) =? i).
(** The labels (not 0) of a process, ordered by representing entry. *)
Definition labels (l : list Z) : list nat :=
  map (label_at l) (indices (length l) (is_prim l)).

(** Processes p and q exchange data of label x: both have it, and not only flagged on both. *)
Definition exchange (ids : nat -> list Z) (x p q : nat) : bool :=
  has (ids p) x && has (ids q) x && negb (p =? q)
  && negb (only_flagged (ids p) x && only_flagged (ids q) x).
(** Label x is exchanged by some processes. *)
Definition shared (np : nat) (ids : nat -> list Z) (x : nat) : bool :=
  existsb (fun p => existsb (fun q => exchange ids x p q) (seq 0 np)) (seq 0 np).

(** The processes with which p exchanges label x. *)
Definition partners (np : nat) (ids : nat -> list Z) (x p : nat) : list nat :=
  filter (fun q => exchange ids x p q) (seq 0 np).
(** Process p exchanges label x with some process. *)
Definition sharing (np : nat) (ids : nat -> list Z) (p x : nat) : bool :=
  negb (length (partners np ids x p) =? 0).

(** ** The result of a gather-scatter

    v q j: the value at entry j of process q before the call. *)
Section Result.
Context {T : Type}.
Variable op : T -> T -> T.
Variable e : T.
Variable np : nat.
Variable ids : nat -> list Z.
Variable v : nat -> nat -> T.

(** The values at the selected entries of all processes, reduced. *)
Definition total_over (entries : list Z -> list nat) : T :=
  fold_left op (flat_map (fun q => map (v q) (entries (ids q))) (seq 0 np)) e.
(** Those at the selected entries of one process, reduced. *)
Definition local_over (entries : list Z -> list nat) (p : nat) : T :=
  fold_left op (map (v p) (entries (ids p))) e.

(** Entry i of process p after the call, transpose = 0: every entry gets the reduction of the
    unflagged entries of its label; entries with id 0 keep their value. *)
Definition gs_forward (p i : nat) : T :=
  let x := label_at (ids p) i in
  if x =? 0 then v p i else total_over (fun l => unflagged_at l x).

(** transpose = 1: every unflagged entry gets the reduction of all the entries of its label,
    flagged or not; flagged entries keep their value, except that where all entries of a label
    on a process are flagged the first of them gets their reduction. *)
Definition gs_transpose (p i : nat) : T :=
  let x := label_at (ids p) i in
  if x =? 0 then v p i
  else if negb (is_flagged (ids p) i) then total_over (fun l => all_at l x)
  else if only_flagged (ids p) x && (prim (ids p) x =? i) then local_over (fun l => all_at l x) p
  else v p i.

Definition gs_result (transpose : bool) : nat -> nat -> T := if transpose then gs_transpose else gs_forward.
End Result.

(** ** gs_unique *)
(** The processes on which label x occurs unflagged, in increasing order. *)
Definition holders (np : nat) (ids : nat -> list Z) (x : nat) : list nat :=
  filter (fun p => negb (only_flagged (ids p) x)) (seq 0 np).
(** The owner of label x: the holder at position x mod (number of holders); none when there is
    no holder. *)
Definition owns (np : nat) (ids : nat -> list Z) (x p : nat) : bool :=
  match nth_error (holders np ids x) (x mod length (holders np ids x)) with
  | Some q => q =? p
  | None => false
  end.
(** The ids after gs_unique: only the first unflagged entry of a label on its owner stays
    unflagged. *)
Definition unique_ids_of (np : nat) (ids : nat -> list Z) (p : nat) : list Z :=
  map (fun i => let x := label_at (ids p) i in
                if owns np ids x p && (prim (ids p) x =? i) then Z.of_nat x else (- Z.of_nat x)%Z)
      (seq 0 (length (ids p))).

(** ** What must fit in the integer types for gs_setup to work

    uint and ulong have usize and lsize bytes, with limits 256^usize and 256^lsize
   ; comm_irecv and comm_isend take an int size, so the bytes in messages of one
    transfer must be fewer than INT_MAX; np processes. *)

(** At most half of the uint range of entries; labels below ULONG_MAX = 256^lsize - 1. *)
Definition ids_fit (usize lsize : nat) (l : list Z) : Prop :=
  2 * length l <= ulim usize /\ forall i, i < length l -> label_at l i < ULONG_MAX lsize.

(** The struct arrays that gs_setup transfers: one struct of an ulong and an uint (besides the
    target) for each distinct label of each process; one of two ulongs and three uints (besides the target)
    for each label of each process and each process with which it exchanges that label. *)
Record setup_fits (usize lsize INT_MAX np : nat) (ids : nat -> list Z) : Prop := {
  sf_us : 1 <= usize; sf_ls : 1 <= lsize; sf_np1 : 1 <= np;
  sf_np : np < ulim usize; sf_max : INT_MAX <= ulim usize;
  sf_ids : forall p, p < np -> ids_fit usize lsize (ids p);
  sf_labels : total np (fun p => labels (ids p)) * (words_for usize (lsize + usize) + 3) * usize < INT_MAX;
  sf_pairs : total np (fun p => flat_map (fun x => partners np ids x p) (labels (ids p)))
     * (words_for usize (2 * lsize + 3 * usize) + 3) * usize < INT_MAX }.
