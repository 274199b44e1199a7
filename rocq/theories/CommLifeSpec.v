(** Specification for C68: who keeps a communicator, and what a caller has to respect. *)
From Verif Require Import Base CommLife.
Local Open Scope nat_scope.

(** The communicators kept by the objects in a table. *)
Definition owned (l : list (option (kind * comm))) : list comm :=
  flat_map (fun o => match o with Some (_, s) => [s] | None => [] end) l.
Definition holders (w : world) : list comm := owned (objs w) ++ owned (tabs w).
(** The live communicators. *)
Definition lives (m : mpi) : list comm_ext := map fst (live m).

(** What a caller has to respect: C objects exist and are of the right kind, the program's own communicators are alive.
    Of a Fortran handle nothing is asked. *)
Definition respects (w : world) (a : call) : Prop :=
  match a with
  | NewComm _ | FDestroy _ _ | FUse _ _ => True
  | FreeComm ce | CommInit ce | FGsUnique ce _ => In ce (mine w)
  | FCreate o ce _ => In ce (mine w) /\ o <> OComm
  | CommSplit k _ | Create _ k | GsUnique k => exists s, nth_error (objs w) k = Some (Some (OComm, s))
  | Destroy o k | Use o k => exists s, nth_error (objs w) k = Some (Some (o, s))
  end.

(** What stops in fail(): a Fortran setup or gs_unique told another number of processes than the communicator has, and a
    Fortran routine given a handle that is not a valid one of its kind. *)
Definition fails (w : world) (a : call) : Prop :=
  match a with
  | FCreate _ ce n | FGsUnique ce n => forall r, rank_size (mw w) ce <> Ok (r, n)
  | FDestroy o h | FUse o h => forall s, nth_error (tabs w) h <> Some (Some (o, s))
  | _ => False
  end.

(** Histories whose calls respect the rules. *)
Inductive history (rs : nat * nat) : list call -> world -> Prop :=
| h_nil : history rs [] (start rs)
| h_call h w a w' : history rs h w -> respects w a -> step w a = Ok w' -> history rs (h ++ [a]) w'.
(** The calls of the Fortran gs_unique. *)
Definition losses (h : list call) : nat := length (filter (fun a => match a with FGsUnique _ _ => true | _ => false end) h).
