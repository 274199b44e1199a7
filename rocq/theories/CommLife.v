(** Communicators: creation and release by comm.h and by every object of the library that keeps one.

    One process's view.  MPI's communicators are handles with this process's rank and the size; MPI_Comm_dup and
    MPI_Comm_split return handles not in use before; using or freeing a handle that is not live is undefined.
    The result of MPI_Comm_split depends on the other processes and is an argument.  Only the communicators are modelled of
    each object (memory is the subject of Mem.v, the tables of handles of Fortran.v). *)
From Verif Require Import Base.
Local Open Scope nat_scope.

Notation comm_ext := nat (only parsing).
Record mpi := MPI { live : list (comm_ext * (nat * nat)); fresh : comm_ext }.
Definition rank_size (m : mpi) (c : comm_ext) : res (nat * nat) :=
  match find (fun e => fst e =? c) (live m) with Some e => Ok (snd e) | None => UB end.
Definition MPI_Comm_new (rs : nat * nat) (m : mpi) : comm_ext * mpi := (fresh m, MPI ((fresh m, rs) :: live m) (S (fresh m))).
Definition MPI_Comm_dup (m : mpi) (c : comm_ext) : res (comm_ext * mpi) := rs <- rank_size m c ;; Ok (MPI_Comm_new rs m).
Definition MPI_Comm_split (m : mpi) (c : comm_ext) (rs : nat * nat) : res (comm_ext * mpi) := _ <- rank_size m c ;; Ok (MPI_Comm_new rs m).
Definition MPI_Comm_free (m : mpi) (c : comm_ext) : res mpi :=
  _ <- rank_size m c ;; Ok (MPI (filter (fun e => negb (fst e =? c)) (live m)) (fresh m)).

(** struct comm (comm.h:87-90). *)
Record comm := Comm { id : nat; np : nat; c : comm_ext }.

(** comm_init (comm.h:142-152); comm_gbl_id and comm_gbl_np, for messages only, are left out. *)
Definition comm_init (m : mpi) (ce : comm_ext) : res (comm * mpi) :=
  '(d, m) <- MPI_Comm_dup m ce ;; '(r, s) <- rank_size m d ;; Ok (Comm r s d, m).
(** comm_init_check_ (comm.h:154-169). *)
Definition comm_init_check (m : mpi) (ce : comm_ext) (n : nat) : res (comm * mpi) :=
  '(d, m) <- comm_init m ce ;; if np d =? n then Ok (d, m) else Abort.
(** comm_dup_ (comm.h:173-182). *)
Definition comm_dup (m : mpi) (s : comm) : res (comm * mpi) :=
  '(d, m) <- MPI_Comm_dup m (c s) ;; Ok (Comm (id s) (np s) d, m).
(** comm_split_ (comm.h:185-195). *)
Definition comm_split (m : mpi) (s : comm) (rs : nat * nat) : res (comm * mpi) :=
  '(nc, m) <- MPI_Comm_split m (c s) rs ;; '(d, m) <- comm_init m nc ;; m <- MPI_Comm_free m nc ;; Ok (d, m).
(** comm_free (comm.h:198-203). *)
Definition comm_free (m : mpi) (s : comm) : res mpi := MPI_Comm_free m (c s).

(** crystal_init (crystal.c:57-62), crystal_free (crystal.c:64-69): the object keeps cr->comm. *)
Definition crystal_init (m : mpi) (s : comm) : res (comm * mpi) := comm_dup m s.
Definition crystal_free (m : mpi) (s : comm) : res mpi := comm_free m s.
(** gs_setup_aux (gs.c:1392-1436): a crystal router for the setup; all communication in between is over it or over gsh->comm,
    which a use of both communicators stands for. *)
Definition gs_setup_aux (m : mpi) (s : comm) : res mpi :=
  '(cr, m) <- crystal_init m s ;; _ <- rank_size m (c cr) ;; _ <- rank_size m (c s) ;; crystal_free m cr.
(** gs_setup (gs.c:1438-1445), gs_free (gs.c:1447-1454), gs_unique (gs.c:1456-1465). *)
Definition gs_setup (m : mpi) (s : comm) : res (comm * mpi) :=
  '(d, m) <- comm_dup m s ;; m <- gs_setup_aux m d ;; Ok (d, m).
Definition gs_free (m : mpi) (s : comm) : res mpi := comm_free m s.
Definition gs_unique (m : mpi) (s : comm) : res mpi :=
  '(cr, m) <- crystal_init m s ;; _ <- rank_size m (c cr) ;; crystal_free m cr.
(** setupms_aux (findpts_imp.h:225-240), findptsms_setup (lines 242-257), findpts_setup (lines 629-646): fd->cr is the only
    object with a communicator.  findptsms_free (lines 259-266), findpts_free (lines 648-651). *)
Definition findpts_setup_aux (m : mpi) (s : comm) : res mpi := _ <- rank_size m (c s) ;; Ok m.
Definition findpts_setup (m : mpi) (s : comm) : res (comm * mpi) :=
  '(cr, m) <- crystal_init m s ;; m <- findpts_setup_aux m cr ;; Ok (cr, m).
Definition findpts_free (m : mpi) (s : comm) : res mpi := crystal_free m s.

(** The kinds of object, and the constructor and destructor of each from a struct comm. *)
Inductive kind := OComm | OCrystal | OGs | OFindpts.
Definition create (k : kind) : mpi -> comm -> res (comm * mpi) :=
  match k with OComm => comm_dup | OCrystal => crystal_init | OGs => gs_setup | OFindpts => findpts_setup end.
Definition destroy (k : kind) : mpi -> comm -> res mpi :=
  match k with OComm => comm_free | OCrystal => crystal_free | OGs => gs_free | OFindpts => findpts_free end.
(** The Fortran setups: fcrystal_setup (fcrystal.c:87-98), fgs_setup_pick and fgs_setup (gs.c:1533-1550), ffindptsms_setup and
    ffindpts_setup (findpts.c:248-354; ndim is 2 or 3). There is none for a struct comm. *)
Definition fcreate (k : kind) (m : mpi) (ce : comm_ext) (n : nat) : res (comm * mpi) :=
  '(d, m) <- comm_init_check m ce n ;;
  match k with
  | OComm => UB
  | OCrystal => Ok (d, m)
  | OGs => m <- gs_setup_aux m d ;; Ok (d, m)
  | OFindpts => m <- findpts_setup_aux m d ;; Ok (d, m)
  end.
(** fgs_unique (gs.c:1658-1666): the struct comm is freed, its communicator is not. *)
Definition fgs_unique (m : mpi) (ce : comm_ext) (n : nat) : res mpi :=
  '(d, m) <- comm_init_check m ce n ;; gs_unique m d.

(** A program: its own MPI communicators [mine], the library's C objects it holds [objs] (the k-th created; None once freed),
    the three Fortran tables [tabs] as one list (fcrystal.c:83-85, gs.c:1523-1526, findpts.c:240-245). *)
Record world := World { mw : mpi; mine : list comm_ext; objs : list (option (kind * comm)); tabs : list (option (kind * comm)) }.

Inductive call :=
| NewComm (rs : nat * nat)                  (** the program makes a communicator of its own *)
| FreeComm (ce : comm_ext)                  (** and frees it *)
| CommInit (ce : comm_ext)                  (** comm_init *)
| CommSplit (k : nat) (rs : nat * nat)      (** comm_split of the k-th object, a struct comm *)
| Create (o : kind) (k : nat)               (** comm_dup, crystal_init, gs_setup, findpts_setup on the k-th object, a struct comm *)
| Destroy (o : kind) (k : nat)              (** comm_free, crystal_free, gs_free, findpts_free *)
| Use (o : kind) (k : nat)                  (** any other function communicating over the k-th object's communicator *)
| GsUnique (k : nat)                        (** gs_unique *)
| FCreate (o : kind) (ce : comm_ext) (n : nat)  (** a Fortran setup *)
| FDestroy (o : kind) (h : nat)             (** a Fortran free *)
| FUse (o : kind) (h : nat)                 (** any other Fortran routine with a handle *)
| FGsUnique (ce : comm_ext) (n : nat).      (** the Fortran gs_unique *)

Definition kind_eqb (a b : kind) : bool :=
  match a, b with OComm, OComm | OCrystal, OCrystal | OGs, OGs | OFindpts, OFindpts => true | _, _ => false end.
Definition get (o : kind) (l : list (option (kind * comm))) (k : nat) : option comm :=
  match nth_error l k with Some (Some (o', s)) => if kind_eqb o o' then Some s else None | _ => None end.
Definition obj (o : kind) (w : world) (k : nat) : res comm := match get o (objs w) k with Some s => Ok s | None => UB end.
(** CHECK_HANDLE and fgs_check_handle (fcrystal.c:100-103, findpts.c:357-360, gs.c:1552-1556). *)
Definition hdl (o : kind) (w : world) (k : nat) : res comm := match get o (tabs w) k with Some s => Ok s | None => Abort end.

Definition step (w : world) (a : call) : res world :=
  let m := mw w in
  match a with
  | NewComm rs => let '(ce, m) := MPI_Comm_new rs m in Ok (World m (ce :: mine w) (objs w) (tabs w))
  | FreeComm ce => if existsb (Nat.eqb ce) (mine w) then
        m <- MPI_Comm_free m ce ;; Ok (World m (filter (fun x => negb (x =? ce)) (mine w)) (objs w) (tabs w)) else UB
  | CommInit ce => '(d, m) <- comm_init m ce ;; Ok (World m (mine w) (objs w ++ [Some (OComm, d)]) (tabs w))
  | CommSplit k rs => s <- obj OComm w k ;; '(d, m) <- comm_split m s rs ;; Ok (World m (mine w) (objs w ++ [Some (OComm, d)]) (tabs w))
  | Create o k => s <- obj OComm w k ;; '(d, m) <- create o m s ;; Ok (World m (mine w) (objs w ++ [Some (o, d)]) (tabs w))
  | Destroy o k => s <- obj o w k ;; m <- destroy o m s ;; Ok (World m (mine w) (upd (objs w) k None) (tabs w))
  | Use o k => s <- obj o w k ;; _ <- rank_size m (c s) ;; Ok w
  | GsUnique k => s <- obj OComm w k ;; m <- gs_unique m s ;; Ok (World m (mine w) (objs w) (tabs w))
  | FCreate o ce n => '(d, m) <- fcreate o m ce n ;; Ok (World m (mine w) (objs w) (tabs w ++ [Some (o, d)]))
  | FDestroy o h => s <- hdl o w h ;; m <- destroy o m s ;; Ok (World m (mine w) (objs w) (upd (tabs w) h None))
  | FUse o h => s <- hdl o w h ;; _ <- rank_size m (c s) ;; Ok w
  | FGsUnique ce n => m <- fgs_unique m ce n ;; Ok (World m (mine w) (objs w) (tabs w))
  end.
(** A history of calls from the start, when there is only MPI_COMM_WORLD with this process's rank and size. *)
Fixpoint run (w : world) (h : list call) : res world :=
  match h with [] => Ok w | a :: h => w <- step w a ;; run w h end.
Definition start (rs : nat * nat) : world := World (MPI [(0, rs)] 1) [0] [] [].
