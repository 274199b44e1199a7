(** Specification vocabulary for the transfer of arrays of structs. *)
From Verif Require Import Base Transfer.

(** The uint stored at byte p_off of a struct, and the struct with that uint replaced. *)
Definition field (usize p_off : nat) (r : row) : nat := dec (firstn usize (skipn p_off r)).
Definition set_field (usize p_off v : nat) (r : row) : row :=
  firstn p_off r ++ enc usize v ++ skipn (p_off + usize) r.

(** Structs of a given size made of bytes. *)
Definition rows_of (size : nat) (A : list row) : Prop :=
  forall r, In r A -> length r = size /\ forall b, In b r -> b < 256.

(** Several arrays of the same length are given by the list of their columns: column i
    consists of struct i of every array.  [arrays k cols]: the k arrays. *)
Definition arrays (k : nat) (cols : list (list row)) : list (list row) :=
  map (fun j => map (fun c => nth j c []) cols) (seq 0 k).

(** What is on its way to process q: all elements x, on whatever process s, with target q,
    each as [f s x]. *)
Definition sent_to {X Y} (np q : nat) (target : X -> nat) (f : nat -> X -> Y) (T : nat -> list X) : list Y :=
  concat (map (fun s => map (f s) (filter (fun x => target x =? q) (T s))) (seq 0 np)).

(** Number of elements on all processes. *)
Definition total {X} (np : nat) (T : nat -> list X) : nat := length (concat (map T (seq 0 np))).

(** Words needed for one struct in a message. *)
Definition words_for (usize bytes : nat) : nat := (bytes + usize - 1) / usize.

(** The scratch memory that the crystal router object provides for n structs with rw words
    per struct: sort work arrays of n elements and n*(rw+3) words. *)
Definition scratch_for (usize n rw : nat) (sc : scratch) : Prop :=
  length (sc_perm sc) = n /\ length (sc_lo sc) = n /\ length (sc_hi sc) = n /\ length (sc_w sc) = n /\
  n * (rw + 3) * usize <= length (sc_mem sc).

(** A column with its target process, as it arrives: unchanged for the ext variant;
    otherwise the uint at p_off of the first struct is the source process s, or the target
    process when set_src is 0. *)
Definition retag (usize : nat) (ext set_src : bool) (p_off : nat) (s : nat) (c : nat * list row) : list row :=
  if ext then snd c
  else match snd c with
       | [] => []
       | r0 :: rest => set_field usize p_off (if set_src then s else fst c) r0 :: rest
       end.

(** Columns c with target process < np whose structs have the given sizes, p_off being the
    offset of the target in the first struct unless the targets are given separately. *)
Definition columns_ok (usize np : nat) (ext : bool) (p_off : nat) (sizes : list nat)
    (cols : list (nat * list row)) : Prop :=
  forall c, In c cols -> fst c < np /\ Forall2 (fun r k => length r = k) (snd c) sizes /\
    (ext = false -> p_off + usize <= hd 0 sizes /\ fst c = field usize p_off (hd [] (snd c))).

(** Bytes of a column that travel in a message. *)
Definition payload (usize : nat) (ext : bool) (sizes : list nat) : nat :=
  sum sizes - (if ext then 0 else usize).
