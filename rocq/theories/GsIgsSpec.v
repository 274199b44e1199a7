(** Non-blocking gather-scatter as the user sees it: start, do something else, wait. *)
From Verif Require Import Base Net NetProof GsTop GsExec Gs GsUserSpec.

(** Process p runs prog p, collectively with the others, and gets y p, whatever has been sent
    and received before on the communicator and whatever groups are still outstanding. *)
Definition collective {W D} (np : nat) (mid : nat -> prog W D) (y : nat -> D) : Prop :=
  goes np mid (fun p => Ret (y p)).

Section Igs.
Context {T : Type}.
Variable op : T -> T -> T.
Variable e : T.
Variable usize np : nat.
Variable conf : nb_conf.

(** igs (igs_vec, igs_many), then mid, then gs_wait: what mid returned and what is then in the
    user's array(s). *)
Definition igs_then_wait (mode : gs_mode) (vn : nat) (t : bool) {D} (mid : prog T D)
    (g : gs_data) (me : nat) (u : udata T) (buf : list T) : prog T (D * udata T) :=
  pbind (igs_aux op e (UINT_MAX usize) mode vn np me t conf g u buf) (fun s =>
  pbind mid (fun y =>
  pbind (wait_aux op (UINT_MAX usize) mode vn np t conf g s) (fun w =>
  Ret (y, w)))).

(** On every process the array(s) u p become w p, and the work in between is not disturbed. *)
Definition igs_mode_gives (mode : gs_mode) (vn : nat) (t : bool) (hs : nat -> gs_data) (u w : nat -> udata T) : Prop :=
  forall buf, buffers np vn hs buf ->
  forall D (mid : nat -> prog T D) y, collective np mid y ->
  always_returns (map (fun p => igs_then_wait mode vn t (mid p) (hs p) p (u p) (buf p)) (seq 0 np))
                 (map (fun p => (y p, w p)) (seq 0 np)).
Definition igs_gives t hs (u w : nat -> list T) := igs_mode_gives mode_plain 1 t hs (fun p => UFlat (u p)) (fun p => UFlat (w p)).
Definition igs_vec_gives vn t hs (u w : nat -> list T) := igs_mode_gives mode_vec vn t hs (fun p => UFlat (u p)) (fun p => UFlat (w p)).
Definition igs_many_gives vn t hs (u w : nat -> list (list T)) := igs_mode_gives mode_many vn t hs (fun p => UMany (u p)) (fun p => UMany (w p)).

(** No execution gets past the wait: the program stops (fail() or undefined behaviour) on every
    process, whatever buffer memory it is given. *)
Definition igs_never (mode : gs_mode) (vn : nat) (t : bool) (hs : nat -> gs_data) (u : nat -> udata T) : Prop :=
  forall buf, buffers np vn hs buf -> forall sched st,
  exec (start (map (fun p => igs_then_wait mode vn t (Ret tt) (hs p) p (u p) (buf p)) (seq 0 np))) sched = Some st ->
  forall p ps r, p < np -> nth_error st p = Some ps -> cur ps <> Ret r.
End Igs.

(** The method of a handle. *)
Definition is_pairwise (g : gs_data) : Prop := exists d, g_r g = RPw d.
Definition is_crystal (g : gs_data) : Prop := exists d, g_r g = RCr d.
Definition is_all_reduce (g : gs_data) : Prop := exists d, g_r g = RAr d.

(** Some id takes part in an exchange between two processes: both have it, and it is not
    flagged everywhere on both. *)
Definition something_shared (np : nat) (ids : nat -> list Z) : Prop :=
  exists p q z, p < np /\ q < np /\ p <> q /\ (0 < z)%Z /\ In z (ids p) /\ (In z (ids q) \/ In (- z)%Z (ids q)).
