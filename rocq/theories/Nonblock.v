(** Model of the table of outstanding non-blocking operations in src/gs.c. *)
From Verif Require Import Base.

Section Table.
(** The arguments of an igs call (struct nonblocking_private, gs.c:1243-1252). *)
Context {P : Type}.
Variable INT_MAX : nat.

(** A cell of nblkng_dict: as realloc left it, a null pointer, a pointer to a live object. *)
Inductive cell := Uninit | Null | Live (op : P).
(** nblkng_dict (the allocated cells), nblkng_max, nblkng_n, nblkng_count (gs.c:1256-1259). *)
Record table := Table { dict : list cell; nmax : nat; nn : nat; count : nat }.
Definition table0 : table := Table [] 0 0 0.

(** int arithmetic: overflow is undefined. *)
Definition int (n : nat) : res nat := if n <=? INT_MAX then Ok n else UB.

(** The table part of igs, igs_vec, igs_many (gs.c:1270-1285, 1326-1341, 1358-1373): the new
    table and the handle.  The exchange is started after this (gs.c:1287-1288). *)
Definition igs_enter (t : table) (op : P) : res (table * Z) :=
  t <- (if nn t =? nmax t then
          m <- int (nmax t + (nmax t / 2 + 1)) ;;
          Ok (Table (dict t ++ repeat Uninit (m - length (dict t))) m (nn t) (count t))
        else Ok t) ;;
  d <- wr (dict t) (nn t) (Live op) ;;
  n <- int (S (nn t)) ;;
  c <- int (S (count t)) ;;
  Ok (Table d (nmax t) n c, Z.of_nat (nn t)).

(** gs_wait (gs.c:1291-1313): the new table and the operation that was completed, if any.
    Reading outside the table, or through a cell that is null or was never set, is undefined. *)
Definition gs_wait_table (t : table) (handle : Z) : res (table * option P) :=
  r <- (if (handle <? Z.of_nat (nn t))%Z then
          if (handle <? 0)%Z then UB else
          c <- rd (dict t) (Z.to_nat handle) ;;
          match c with
          | Live op => d <- wr (dict t) (Z.to_nat handle) Null ;;
                       Ok (Table d (nmax t) (nn t) (count t - 1), Some op)
          | _ => UB
          end
        else Ok (t, None)) ;;
  let (t, done) := (r : table * option P) in
  Ok (if count t =? 0 then Table [] 0 0 0 else t, done).
End Table.
Arguments table : clear implicits.
