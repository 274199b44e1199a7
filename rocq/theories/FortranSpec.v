(** What a table of handles is expected to do, for any history of calls. *)
From Verif Require Import Base Ops Fortran.

(** A history: setups (with their arguments), uses and frees with any integer as the handle. *)
Inductive fcall (Arg Req : Type) := Setup (a : Arg) | Use (h : Z) (r : Req) | Free (h : Z).
Arguments Setup {Arg Req}. Arguments Use {Arg Req}. Arguments Free {Arg Req}.
(** What a call does: returns a new handle, does something, frees an object, stops the program
    (fail), or is undefined. *)
Inductive answer (Obj Ans : Type) := Handle (k : Z) | Done (a : Ans) | Freed (o : Obj) | Stopped | Undefined.
Arguments Handle {Obj Ans}. Arguments Done {Obj Ans}. Arguments Freed {Obj Ans}.
Arguments Stopped {Obj Ans}. Arguments Undefined {Obj Ans}.

Definition n_setups {Arg Req} (cs : list (fcall Arg Req)) : nat :=
  length (filter (fun x => match x with Setup _ => true | _ => false end) cs).

Section Ideal.
Context {Arg Obj Req Ans : Type}.
(** The object a setup makes, if its arguments are right; what using an object does, if the
    arguments are right. *)
Variable make : Arg -> option Obj.
Variable effect : Obj -> Req -> option Ans.
(** The object of a handle: the k-th setup (from 0) has the handle k; None when freed. *)
Definition object_of (objs : list (option Obj)) (h : Z) : option Obj :=
  if (h <? 0)%Z then None else match nth_error objs (Z.to_nat h) with Some (Some o) => Some o | _ => None end.
Fixpoint ideal (objs : list (option Obj)) (cs : list (fcall Arg Req)) : list (answer Obj Ans) :=
  match cs with
  | [] => []
  | Setup a :: cs => match make a with
                     | Some o => Handle (Z.of_nat (length objs)) :: ideal (objs ++ [Some o]) cs
                     | None => [Stopped]
                     end
  | Use h r :: cs => match object_of objs h with
                     | Some o => match effect o r with Some x => Done x :: ideal objs cs | None => [Stopped] end
                     | None => [Stopped]
                     end
  | Free h :: cs => match object_of objs h with
                    | Some o => Freed o :: ideal (upd objs (Z.to_nat h) None) cs
                    | None => [Stopped]
                    end
  end.

(** The same history run with functions on a table. *)
Context {Tab : Type}.
Variable setup : Tab -> Arg -> res (Tab * Z).
Variable use : Tab -> Z -> Req -> res Ans.
Variable free : Tab -> Z -> res (Tab * Obj).
Definition answers {A} (r : res A) (k : A -> list (answer Obj Ans)) : list (answer Obj Ans) :=
  match r with Ok a => k a | Abort => [Stopped] | _ => [Undefined] end.
Fixpoint run_history (t : Tab) (cs : list (fcall Arg Req)) : list (answer Obj Ans) :=
  match cs with
  | [] => []
  | Setup a :: cs => answers (setup t a) (fun x => Handle (snd x) :: run_history (fst x) cs)
  | Use h r :: cs => answers (use t h r) (fun x => Done x :: run_history t cs)
  | Free h :: cs => answers (free t h) (fun x => Freed (snd x) :: run_history (fst x) cs)
  end.
End Ideal.

(** gs: datatype codes 1 double precision, 2 integer, 3 integer of the global kind; operation
    codes 1 to 4. *)
Definition datatype (c : config) (dom : Z) : option gs_dom :=
  match dom with 1%Z => Some gs_double | 2%Z => Some (gs_sint c) | 3%Z => Some (gs_slong c) | _ => None end.
Definition operation (op : Z) : option gs_op :=
  match op with 1%Z => Some gs_add | 2%Z => Some gs_mul | 3%Z => Some gs_min | 4%Z => Some gs_max | _ => None end.
Record gs_request := Request { r_dom : Z; r_op : Z; r_transpose : Z; r_data : form }.
Definition gs_effect {Obj} (c : config) (o : Obj) (r : gs_request) : option (cgs Obj) :=
  match datatype c (r_dom r), operation (r_op r) with
  | Some d, Some p => Some (Cgs o d p (negb (r_transpose r =? 0)%Z) (r_data r))
  | _, _ => None
  end.
Definition fgs_use {Obj} c (t : registry (@Nonblock.cell Obj)) h (r : gs_request) :=
  fgs_call c t h (r_dom r) (r_op r) (r_transpose r) (r_data r).

(** crystal: a use does something with the object. *)
Definition crystal_effect {Obj} (o : Obj) (_ : unit) : option Obj := Some o.

(** findpts: setup with ndim and what it makes in either case. *)
Definition findpts_make {O2 O3} (a : Z * O2 * O3) : option (O2 + O3) :=
  match a with (2%Z, o2, _) => Some (inl o2) | (3%Z, _, o3) => Some (inr o3) | _ => None end.
Definition findpts_effect {O2 O3} (o : O2 + O3) (_ : unit) : option (O2 + O3) := Some o.

(** gs_op_fields: n fields, the k-th starting k*stride elements of the datatype after u. *)
Definition fields_at (u stride size : Z) (n : nat) : list Z :=
  map (fun k => (u + Z.of_nat k * (stride * size))%Z) (seq 0 n).

(** The tables of gs handles that occur: after any setups and frees.  [objs]: the object of each
    handle, None when freed. *)
Inductive reached {Obj} (INT_MAX : nat) : registry (@Nonblock.cell Obj) -> list (option Obj) -> Prop :=
| reached_start : reached INT_MAX reg0 []
| reached_setup t objs o t' h : reached INT_MAX t objs -> length objs + length objs / 2 + 1 <= INT_MAX ->
    fgs_setup INT_MAX t o = Ok (t', h) -> reached INT_MAX t' (objs ++ [Some o])
| reached_free t objs h t' o : reached INT_MAX t objs -> fgs_free t h = Ok (t', o) ->
    reached INT_MAX t' (upd objs (Z.to_nat h) None).

(** The code multiplies the stride in this type. *)
Definition offset_fits (c : config) (x : Z) : Prop :=
  match t_sint c with TInt => 0 <= x < 2 ^ 32 | _ => - 2 ^ 63 <= x < 2 ^ 63 end%Z.
(** Addresses are numbers of 64 bits. *)
Definition addresses (l : list Z) : Prop := forall a, In a l -> (0 <= a < 2 ^ 64)%Z.

(** A state of the non-blocking Fortran interface that occurs: after any setups, frees, started
    operations and waits. *)
Inductive nb_reached {Obj} (INT_MAX : nat) (c : config) (need : Obj -> Z) : @fstate Obj -> Prop :=
| nb_start : nb_reached INT_MAX c need (FState reg0 (Nonblock.table0) [] 0)
| nb_setup s o t' h : nb_reached INT_MAX c need s -> fgs_setup INT_MAX (f_reg s) o = Ok (t', h) ->
    nb_reached INT_MAX c need (FState t' (f_nb s) (f_frames s) (f_next s))
| nb_free s h t' o : nb_reached INT_MAX c need s -> fgs_free (f_reg s) h = Ok (t', o) ->
    nb_reached INT_MAX c need (FState t' (f_nb s) (f_frames s) (f_next s))
| nb_igs s h dom op tr f s' w : nb_reached INT_MAX c need s ->
    figs INT_MAX c need s h dom op tr f = Ok (s', w) -> nb_reached INT_MAX c need s'
| nb_igs_many s h dom op tr uu s' w : nb_reached INT_MAX c need s ->
    figs_many INT_MAX c need s h dom op tr uu = Ok (s', w) -> nb_reached INT_MAX c need s'
| nb_wait s w s' k : nb_reached INT_MAX c need s -> fgs_wait s w = Ok (s', k) -> nb_reached INT_MAX c need s'.
(** Further operations that leave the operation [w] outstanding: anything but its own wait. *)
Inductive later {Obj} (INT_MAX : nat) (c : config) (need : Obj -> Z) (w : Z) : @fstate Obj -> @fstate Obj -> Prop :=
| later_refl s : later INT_MAX c need w s s
| later_setup s1 s o t' h : later INT_MAX c need w s1 s -> fgs_setup INT_MAX (f_reg s) o = Ok (t', h) ->
    later INT_MAX c need w s1 (FState t' (f_nb s) (f_frames s) (f_next s))
| later_free s1 s h t' o : later INT_MAX c need w s1 s -> fgs_free (f_reg s) h = Ok (t', o) ->
    later INT_MAX c need w s1 (FState t' (f_nb s) (f_frames s) (f_next s))
| later_igs s1 s h dom op tr f s' w' : later INT_MAX c need w s1 s ->
    figs INT_MAX c need s h dom op tr f = Ok (s', w') -> later INT_MAX c need w s1 s'
| later_igs_many s1 s h dom op tr uu s' w' : later INT_MAX c need w s1 s ->
    figs_many INT_MAX c need s h dom op tr uu = Ok (s', w') -> later INT_MAX c need w s1 s'
| later_wait s1 s w' s' k : later INT_MAX c need w s1 s -> w' <> w -> fgs_wait s w' = Ok (s', k) -> later INT_MAX c need w s1 s'.
