(** Model of the dynamic arrays and alignment of src/mem.h and of the scratch layouts built on
    them.  A block of memory is a list of bytes, None where nothing was written since allocation.
    size_t arithmetic wraps at M = SIZE_MAX+1.  Simplification: allocation never fails. *)
From Verif Require Import Base.

Section Mem.
Variable M : nat.
Definition szt (x : nat) : nat := x mod M.
Definition block := list (option nat).

(** realloc(ptr,k): the first bytes are kept. *)
Definition realloc (p : block) (k : nat) : block := firstn k p ++ repeat None (k - length p).

(** struct array (mem.h:111). *)
Record array := Arr { ptr : block; an : nat; amax : nat }.
Definition null_array : array := Arr [] 0 0.

(** array_init_ (mem.h:113-117). *)
Definition array_init (max size : nat) : array := Arr (repeat None (szt (max * size))) 0 max.
(** array_resize_ (mem.h:118-122). *)
Definition array_resize (a : array) (max size : nat) : array :=
  Arr (realloc (ptr a) (szt (max * size))) (an a) max.
(** array_reserve_ (mem.h:123-133). *)
Definition array_reserve (a : array) (min size : nat) : array :=
  let max := amax a in
  if max <? min then
    let max := szt (max + szt (max / 2 + 1)) in
    let max := if max <? min then min else max in
    array_resize a max size
  else a.

(** memcpy(p+off,s,k): undefined outside the block. *)
Definition memcpy (p : block) (off : nat) (s : list nat) (k : nat) : res block :=
  if (off + k <=? length p) && (k <=? length s)
  then Ok (firstn off p ++ map Some (firstn k s) ++ skipn (off + k) p) else UB.

(** array_cat_ (mem.h:140-146). *)
Definition array_cat (size : nat) (d : array) (s : list nat) (n : nat) : res array :=
  let d := array_reserve d (szt (an d + n)) size in
  p <- memcpy (ptr d) (szt (an d * size)) s (szt (n * size)) ;;
  Ok (Arr p (szt (an d + n)) (amax d)).

(** align_as_ (mem.h:168). *)
Definition align_as (a n : nat) : nat := szt (szt (n + a + M - 1) / a * a).

(** The scratch areas (offset, bytes) that a function uses in the buffer it has reserved. *)
Record layout := Layout { reserved : nat; areas : list (nat * nat) }.

(** sarray_permute_buf_ (sarray_sort.c:39-45): the permutation (n uints) and one item. *)
Definition permute_layout (usize align size n : nat) : layout :=
  Layout (align_as align (szt (szt (n * usize) + size)))
    [(0, n * usize); (align_as align (szt (n * usize)), size)].

(** The radix branch of sortv without static buckets (sort_imp.h:468-477): n items of size tsize
    and the counts (cbytes = sizeof(uint[DIGITS][DIGIT_VALUES])). *)
Definition sortv_layout (ualign tsize cbytes n : nat) : layout :=
  let count_off := align_as ualign (szt (n * tsize)) in
  Layout (szt (count_off + cbytes)) [(0, n * tsize); (count_off, cbytes)].

(** The merge branch of sortp (sort_imp.h:484-494): the permutation and 2*n structs sort_data. *)
Definition sortp_merge_layout (usize dalign dsize n : nat) : layout :=
  let work_off := align_as dalign (szt (n * usize)) in
  Layout (szt (work_off + szt (2 * n * dsize))) [(0, n * usize); (work_off, 2 * n * dsize)].
(** The radix branch of sortp without static buckets (sort_imp.h:501-509). *)
Definition sortp_radix_layout (usize ualign dalign dsize cbytes n : nat) : layout :=
  let work_off := align_as dalign (szt (n * usize)) in
  let count_off := align_as ualign (szt (work_off + szt (2 * n * dsize))) in
  Layout (szt (count_off + cbytes)) [(0, n * usize); (work_off, 2 * n * dsize); (count_off, cbytes)].
End Mem.
