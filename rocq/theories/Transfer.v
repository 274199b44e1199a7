(** Model of src/sarray_transfer.c and of the transfer entry points of src/fcrystal.c.

    Memory is modelled in bytes (natural numbers below 256).  A uint has usize bytes, least
    significant first.  An array of n structs is a list of n rows, a row being the list of
    the bytes of the struct (the address ptr + size*i is row i).  An array of structs of
    size 0 is a list of empty rows.  cr->data is a list of bytes.
    Simplifications: buffer_reserve and array_reserve always succeed; the product
    n*(row_size+3)*sizeof(uint) (line 32) and row offsets do not overflow. *)
From Verif Require Import Base Sort Net Crystal.

Notation byte := nat.
Notation row := (list nat).

(** The bytes of the number n in k bytes; the number stored in some bytes. *)
Fixpoint enc (k n : nat) : list byte :=
  match k with O => [] | S k' => n mod 256 :: enc k' (n / 256) end.
Fixpoint dec (bs : list byte) : nat :=
  match bs with [] => 0 | b :: t => b + 256 * dec t end.

(** memcpy from  bs + off  (len bytes). *)
Definition slice (bs : list byte) (off len : nat) : res (list byte) :=
  if off + len <=? length bs then Ok (firstn len (skipn off bs)) else UB.
(** memcpy of x to  bs + off. *)
Definition blit (bs : list byte) (off : nat) (x : list byte) : res (list byte) :=
  if off + length x <=? length bs then Ok (firstn off bs ++ x ++ skipn (off + length x) bs) else UB.

Section Transfer.
Variable usize : nat.      (** sizeof(uint) *)
Variable INT_MAX : nat.
Variable np : nat.         (** cr->comm.np *)
Variable id : nat.         (** cr->comm.id *)

(** UINT_MAX + 1. *)
Definition ulim : nat := 256 ^ usize.

(** Access to ((uint* )data)[k]. *)
Definition rdw (data : list byte) (k : nat) : res nat :=
  b <- slice data (k * usize) usize ;; Ok (dec b).
Definition wrw (data : list byte) (k v : nat) : res (list byte) :=
  blit data (k * usize) (enc usize v).

(** The bytes of data as an array of words. *)
Definition chunks (data : list byte) : list (list byte) :=
  map (fun i => firstn usize (skipn (i * usize) data)) (seq 0 (length data / usize)).

(** One iteration of PACK_BODY (lines 33-45) for the row perm[i] = pi.
    [mem] is the reserved buffer, [out] and [len_ptr] are word positions in it
    (None: len_ptr = &dummy), [get_p pi] is GET_P, [copies pi] the memcpy's of COPY_ROW as
    (byte offset from out, bytes). *)
Definition pack_state : Type := list byte * nat * option nat * nat * nat.   (* mem,out,len_ptr,lp,len *)
Definition pack_step (row_size : nat) (get_p : nat -> res nat)
    (copies : nat -> res (list (nat * list byte))) (s : pack_state) (pi : nat) : res pack_state :=
  let '(mem, out, len_ptr, lp, len) := s in
  p <- get_p pi ;;
  '(mem, out, len_ptr, lp, len) <-
    (if p =? lp then Ok (mem, out, len_ptr, lp, len)
     else
       mem <- match len_ptr with None => Ok mem | Some k => wrw mem k len end ;;
       mem <- wrw mem out p ;;
       mem <- wrw mem (out + 1) id ;;
       Ok (mem, out + 3, Some (out + 2), p, 0)) ;;
  cs <- copies pi ;;
  mem <- foldM (fun m (c : nat * list byte) => blit m (out * usize + fst c) (snd c)) cs mem ;;
  Ok (mem, out + row_size, len_ptr, lp, len + row_size).

(** PACK_BODY (lines 29-48); [mem] is the old contents of the buffer returned by
    buffer_reserve, at least n*(row_size+3) words. *)
Definition pack_body (row_size : nat) (get_p : nat -> res nat)
    (copies : nat -> res (list (nat * list byte))) (mem : list byte) (perm : list nat) : res (list byte) :=
  '(mem, out, len_ptr, lp, len) <-
     foldM (pack_step row_size get_p copies) perm (mem, 0, None, ulim - 1, 0) ;;
  mem <- match len_ptr with None => Ok mem | Some k => wrw mem k len end ;;
  Ok (firstn (out * usize) mem).

(** pack_int (lines 18-52). *)
Definition pack_int (row_size : nat) (input : list row) (size p_off : nat) (mem : list byte)
    (perm : list nat) : res (list byte) :=
  let after := p_off + usize in
  let after_len := size - after in
  pack_body row_size
    (fun pi => r <- rd input pi ;; b <- slice r p_off usize ;; Ok (dec b))
    (fun pi => r <- rd input pi ;; a <- slice r 0 p_off ;; b <- slice r after after_len ;;
               Ok [(0, a); (p_off, b)]) mem perm.

(** pack_ext (lines 54-66); [proc] lists the values at proc + proc_stride*i. *)
Definition pack_ext (row_size : nat) (input : list row) (size : nat) (proc : list nat)
    (mem : list byte) (perm : list nat) : res (list byte) :=
  pack_body row_size (fun pi => rd proc pi)
    (fun pi => r <- rd input pi ;; a <- slice r 0 size ;; Ok [(0, a)]) mem perm.

(** The loop over the rows of a message,  while(buf!=msg_end) { ...; buf+=row_size; }
    (lines 76-77, 88-89, 102-107). *)
Fixpoint row_loop {S} (fuel : nat) (row_size : nat) (body : nat -> S -> res S)
    (buf msg_end : nat) (s : S) : res (nat * S) :=
  if buf =? msg_end then Ok (buf, s)
  else match fuel with
       | O => OutOfFuel
       | Datatypes.S f => s' <- body buf s ;; row_loop f row_size body (buf + row_size) msg_end s'
       end.

(** The loop over messages,  while(buf!=buf_end) { msg_end = buf+3+buf[2]; ... }
    (lines 73-78, 85-90, 98-108).  [dat s] is the data array, [body hdr buf] the body of
    the inner loop, hdr the position of the header of the message. *)
Fixpoint msg_loop {S} (fuel : nat) (row_size : nat) (dat : S -> list byte)
    (body : nat -> nat -> S -> res S) (buf buf_end : nat) (s : S) : res S :=
  if buf =? buf_end then Ok s
  else match fuel with
       | O => OutOfFuel
       | Datatypes.S f =>
           len <- rdw (dat s) (buf + 2) ;;
           '(buf', s') <- row_loop (length (dat s)) row_size (body buf) (buf + 3) (buf + 3 + len) s ;;
           msg_loop f row_size dat body buf' buf_end s'
       end.

(** pack_more (lines 68-79): copies row *perm++ of input to byte offset off of each row of
    the buffer. *)
Definition pack_more (data : list byte) (off row_size : nat) (input : list row) (size : nat)
    (perm : list nat) : res (list byte) :=
  '(data, _) <- msg_loop (S (length data)) row_size fst
     (fun _ buf (s : list byte * list nat) =>
        let (data, perm) := s in
        match perm with
        | [] => UB
        | pi :: perm' =>
            r <- rd input pi ;; x <- slice r 0 size ;;
            data <- blit data (buf * usize + off) x ;; Ok (data, perm')
        end) 0 (length data / usize) (data, perm) ;;
  Ok data.

(** Store one row at out, the number of rows stored so far being the length of rows;
    writing beyond the capacity of the array is undefined. *)
Definition put_row (cap : nat) (rows : list row) (r : row) : res (list row) :=
  if length rows <? cap then Ok (rows ++ [r]) else UB.

(** unpack_more (lines 81-91); cap: rows the array out has room for, dn: data->n. *)
Definition unpack_more (cap size : nat) (data : list byte) (dn off row_size : nat) : res (list row) :=
  msg_loop (S (length data)) row_size (fun _ => data)
    (fun _ buf rows => x <- slice data (buf * usize + off) size ;; put_row cap rows x)
    0 dn [].

(** unpack_int (lines 93-109). *)
Definition unpack_int (cap size p_off : nat) (data : list byte) (dn row_size : nat) (set_src : bool)
    : res (list row) :=
  let after := p_off + usize in
  let after_len := size - after in
  let pi := if set_src then 1 else 0 in
  msg_loop (S (length data)) row_size (fun _ => data)
    (fun hdr buf rows =>
       p <- rdw data (hdr + pi) ;;
       a <- slice data (buf * usize) p_off ;;
       b <- slice data (buf * usize + p_off) after_len ;;
       put_row cap rows (a ++ enc usize p ++ b))
    0 dn [].

(** The loop of num_rows (line 115) and the last loop of cap_rows (line 130). *)
Fixpoint sum_len (fuel : nat) (data : list byte) (buf buf_end n : nat) : res nat :=
  if buf =? buf_end then Ok n
  else match fuel with
       | O => OutOfFuel
       | S f => len <- rdw data (buf + 2) ;; sum_len f data (buf + len + 3) buf_end (n + len)
       end.

(** n/row_size (lines 116, 134). *)
Definition udiv (n row_size : nat) : res nat := if row_size =? 0 then UB else Ok (n / row_size).

(** num_rows (lines 111-117). *)
Definition num_rows (data : list byte) (row_size : nat) : res nat :=
  n <- sum_len (S (length data)) data 0 (length data / usize) 0 ;; udiv n row_size.

(** The loop of cap_rows (lines 124-133); returns n, the data and the new data->n.
    Arithmetic on buf[2] is modulo 2^(8*usize), as in C. *)
Fixpoint cap_loop (fuel : nat) (data : list byte) (maxn buf buf_end n : nat)
    : res (nat * list byte * nat) :=
  if buf =? buf_end then Ok (n, data, buf_end)
  else match fuel with
       | O => OutOfFuel
       | S f =>
           len <- rdw data (buf + 2) ;;
           let n := n + len in
           if n <? maxn then cap_loop f data maxn (buf + len + 3) buf_end n
           else
             let len' := (len + (n - maxn)) mod ulim in       (** buf[2] -= (maxn-n) *)
             data' <- wrw data (buf + 2) len' ;;
             n <- sum_len (S (length data)) data' (buf + len + 3) buf_end n ;;
             Ok (n, data', buf + 3 + len')
       end.

(** cap_rows (lines 119-135). *)
Definition cap_rows (data : list byte) (row_size max : nat) : res (nat * list byte * nat) :=
  let maxn := (max * row_size) mod ulim in
  '(n, data, dn) <- cap_loop (S (length data)) data maxn 0 (length data / usize) 0 ;;
  n <- udiv n row_size ;; Ok (n, data, dn).

(** Old contents of cr->work as used by sortp and of cr->data. *)
Record scratch := Scratch { sc_perm : list nat; sc_lo : list (sort_data N); sc_hi : list (sort_data N);
                            sc_w : list nat; sc_mem : list byte }.

Definition sum (l : list nat) : nat := fold_right Nat.add 0 l.

(** The loop calling pack_more (lines 158-159), [rest] = (A[i], size[i]) for i >= 1. *)
Fixpoint pack_rest (data : list byte) (off row_size : nat) (rest : list (list row * nat))
    (perm : list nat) : res (list byte) :=
  match rest with
  | [] => Ok data
  | (a, size) :: rest' =>
      if size =? 0 then pack_rest data off row_size rest' perm
      else data <- pack_more data off row_size a size perm ;;
           pack_rest data (off + size) row_size rest' perm
  end.

(** The loop calling unpack_more (lines 177-178), [rest] = (capacity, size) of A[i], i >= 1;
    an is the value given to A[i]->n. *)
Fixpoint unpack_rest (data : list byte) (dn off row_size an : nat) (rest : list (nat * nat))
    : res (list (list row)) :=
  match rest with
  | [] => Ok []
  | (cap, size) :: rest' =>
      if size =? 0 then
        l <- unpack_rest data dn off row_size an rest' ;; Ok (repeat [] an :: l)
      else
        a <- unpack_more cap size data dn off row_size ;;
        l <- unpack_rest data dn (off + size) row_size an rest' ;; Ok (a :: l)
  end.

(** sarray_transfer_many (lines 137-181): value returned and final contents of the arrays.
    [sizes], [maxs], [A] : sizes, capacities and contents of the An arrays; [proc]: the
    values at proc + proc_stride*i, i < A[0]->n.
    The unpacking of A[0] (lines 175-176) has row capacity n, or maxs[0] if fixed. *)
Definition sarray_transfer_many (sizes maxs : list nat) (fixed ext set_src : bool) (p_off : nat)
    (proc : list nat) (A : list (list row)) (sc : scratch) : prog (list byte) (nat * list (list row)) :=
  match A, sizes with
  | A0 :: A', size0 :: sizes' =>
      let off1 := if ext then size0 else size0 - usize in
      let row_size := (off1 + sum sizes' + usize - 1) / usize in
      pbind (plift (
        perm <- sortp usize false (sc_perm sc) (map N.of_nat proc) (sc_lo sc) (sc_hi sc) (sc_w sc) ;;
        data <- (if ext then pack_ext row_size A0 size0 proc (sc_mem sc) perm
                 else pack_int row_size A0 size0 p_off (sc_mem sc) perm) ;;
        pack_rest data off1 row_size (combine A' sizes') perm)) (fun data =>
      pbind (crystal_router dec (enc usize) usize INT_MAX np id (chunks data)) (fun ws =>
      let data := concat ws in
      plift (
        '(n, data, dn, caps, an) <-
          (if fixed then
             let max := fold_right Nat.min (hd 0 maxs) (tl maxs) in
             '(n, data, dn) <- cap_rows data row_size max ;;
             Ok (n, data, dn, maxs, if max <? n then max else n)
           else
             n <- num_rows data row_size ;;
             Ok (n, data, length data / usize, map (fun _ => n) sizes, n)) ;;
        a0 <- (if ext then unpack_more (hd 0 caps) size0 data dn 0 row_size
               else unpack_int (hd 0 caps) size0 p_off data dn row_size set_src) ;;
        l <- unpack_rest data dn off1 row_size an (combine (tl caps) sizes') ;;
        Ok (n, a0 :: l))))
  | _, _ => Stop
  end.

(** The uint at byte p_off of each struct: what (uint* )(A->ptr+p_off) with stride size
    refers to. *)
Definition proc_field (p_off : nat) (A : list row) : res (list nat) :=
  mapM (fun r => b <- slice r p_off usize ;; Ok (dec b)) A.

(** sarray_transfer_ (lines 184-190); returns the final array. *)
Definition sarray_transfer (size p_off : nat) (set_src : bool) (A : list row) (sc : scratch)
    : prog (list byte) (list row) :=
  pbind (plift (proc_field p_off A)) (fun proc =>
  pbind (sarray_transfer_many [size] [length A] false false set_src p_off proc [A] sc) (fun r =>
  Ret (hd [] (snd r)))).

(** sarray_transfer_ext_ (lines 192-197). *)
Definition sarray_transfer_ext (size : nat) (proc : list nat) (A : list row) (sc : scratch)
    : prog (list byte) (list row) :=
  pbind (sarray_transfer_many [size] [length A] false true false 0 proc [A] sc) (fun r =>
  Ret (hd [] (snd r))).

(** fcrystal_tuple_transfer (fcrystal.c:162-181) after the handle check: value of *n
    and final contents of the three arrays (columns of mi integers, ml longs, md doubles as
    bytes); isize, lsize, dsize: sizes of the element types (isize = usize). *)
Definition tuple_transfer (lsize dsize mi ml md max proc_key : nat) (Ai Al Ad : list row) (sc : scratch)
    : prog (list byte) (nat * list (list row)) :=
  let p_off := (proc_key - 1) * usize in
  pbind (plift (proc_field p_off Ai)) (fun proc =>
  sarray_transfer_many [mi * usize; ml * lsize; md * dsize] [max; max; max] true false true p_off
    proc [Ai; Al; Ad] sc).

(** fcrystal_ituple_transfer (fcrystal.c:150-160) after the handle check. *)
Definition ituple_transfer (m max proc_key : nat) (A : list row) (sc : scratch)
    : prog (list byte) (nat * list (list row)) :=
  let p_off := (proc_key - 1) * usize in
  pbind (plift (proc_field p_off A)) (fun proc =>
  sarray_transfer_many [m * usize] [max] true false true p_off proc [A] sc).
End Transfer.
