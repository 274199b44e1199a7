(** What the user of gs_setup, gs, gs_vec, gs_many, gs_unique sees. *)
From Verif Require Import Base Net GsTop GsExec Gs.

Section Calls.
(** uint of usize bytes, ulong of lsize bytes; np processes. *)
Variable usize lsize INT_MAX np : nat.

(** Process p passes ids p and gets the handle hs p. *)
Definition setup_gives (ids : nat -> list Z) (unique : bool) (m : gs_method) (hs : nat -> gs_data) : Prop :=
  always_returns (map (fun p => gs_setup usize lsize INT_MAX np p (ids p) unique m) (seq 0 np))
                 (map hs (seq 0 np)).
(** Process p passes ids p, and finds ids' p there afterwards. *)
Definition unique_gives (ids ids' : nat -> list Z) : Prop :=
  always_returns (map (fun p => gs_unique usize lsize INT_MAX np p (ids p)) (seq 0 np))
                 (map ids' (seq 0 np)).

Context {T : Type}.
Variable op : T -> T -> T.
Variable e : T.
(** Buffer memory of the size gs reserves, with any contents, on every process. *)
Definition buffers (vn : nat) (hs : nat -> gs_data) (buf : nat -> list T) : Prop :=
  forall p, p < np -> length (buf p) = vn * buffer_size (g_r (hs p)).

(** gs, gs_vec, gs_many called on all processes, process p passing the handle hs p and the
    data u p, leave there w p. *)
Definition gs_gives (transpose : bool) (hs : nat -> gs_data) (u w : nat -> list T) : Prop :=
  forall buf, buffers 1 hs buf ->
  always_returns (map (fun p => gs op e (UINT_MAX usize) np p transpose (hs p) (u p) (buf p)) (seq 0 np))
                 (map (fun p => UFlat (w p)) (seq 0 np)).
Definition gs_vec_gives (vn : nat) (transpose : bool) (hs : nat -> gs_data) (u w : nat -> list T) : Prop :=
  forall buf, buffers vn hs buf ->
  always_returns (map (fun p => gs_vec op e (UINT_MAX usize) vn np p transpose (hs p) (u p) (buf p)) (seq 0 np))
                 (map (fun p => UFlat (w p)) (seq 0 np)).
Definition gs_many_gives (vn : nat) (transpose : bool) (hs : nat -> gs_data) (u w : nat -> list (list T)) : Prop :=
  forall buf, buffers vn hs buf ->
  always_returns (map (fun p => gs_many op e (UINT_MAX usize) vn np p transpose (hs p) (u p) (buf p)) (seq 0 np))
                 (map (fun p => UMany (w p)) (seq 0 np)).
End Calls.

(** The (id, value) pairs of all processes. *)
Definition entries {T} (np : nat) (ids : nat -> list Z) (u : nat -> list T) : list (Z * T) :=
  flat_map (fun q => combine (ids q) (u q)) (seq 0 np).
(** The values whose id satisfies c. *)
Definition values_of {T} (c : Z -> bool) (E : list (Z * T)) : list T := map snd (filter (fun x => c (fst x)) E).
Definition reduce {T} (op : T -> T -> T) (e : T) (l : list T) : T := fold_left op l e.

(** Component k of the vectors of vn components stored in l. *)
Definition component {T} (d : T) (vn k : nat) (l : list T) : list T :=
  map (fun i => nth (i * vn + k) l d) (seq 0 (length l / vn)).

(** No flagged entry stands before the first unflagged entry of its group. *)
Definition flagged_after (l : list Z) : Prop :=
  forall i z, nth_error l i = Some z -> (z < 0)%Z -> In (- z)%Z l -> exists j, j < i /\ nth_error l j = Some (- z)%Z.
