(** Model of src/sort_imp.h : merge sort, radix sort, heap sort, sortv, sortp.

    Conventions and simplifications:
    - A strided input (A, n, stride) is the list of its n elements in order
      (INC_PTR / INDEX_PTR, sort_imp.h:27-28, address element k at byte k*stride).
    - Work areas are lists whose initial contents are arguments of the model
      (theorems quantify over them).
    - The element type T of the integer sorts is modelled by N, with the number of
      8-bit digits [DIGITS] (sort_imp.h:60) a parameter: 4 for unsigned int, 8 for
      64-bit unsigned long (long) (src/sort.c:11-31).
    - uint counters and indices are nat (n is a uint, so they do not overflow). *)
From Verif Require Import Base.

(* ------------------------------------------------------------------------- *)
(** * Merge sort (sort_imp.h:259-388) *)
(* ------------------------------------------------------------------------- *)
Section MergeSort.
Context {D : Type}.
Variable ltb : D -> D -> bool.          (** VAL(x)<VAL(y) *)

(** MERGE_2 (sort_imp.h:264-266): the two outputs, in order. *)
Definition merge_2 (v0 v1 : D) : D * D :=
  if ltb v1 v0 then (v1, v0) else (v0, v1).

(** MERGE_3 (sort_imp.h:267-276). *)
Definition merge_3 (v0 v1 v2 : D) : D * D * D :=
  if ltb v1 v0 then
    if ltb v2 v1 then (v2, v1, v0)
    else if ltb v2 v0 then (v1, v2, v0)
         else (v1, v0, v2)
  else
    if ltb v2 v0 then (v2, v0, v1)
    else if ltb v2 v1 then (v0, v2, v1)
         else (v0, v1, v2).

(** Local variables i,n,odd,c,b,base of MERGE_SORT (sort_imp.h:282-283) and the two
    buffers buf[0], buf[1].  [b] is the C variable b as a boolean (true = 1). *)
Record mstate := MS {
  m_i : nat; m_n : nat; m_odd : nat; m_c : nat; m_b : bool; m_base : Z;
  m_buf0 : list D; m_buf1 : list D }.

(** while(n>3) odd<<=1,odd|=(n&1),n>>=1,c<<=1,b^=1;   (sort_imp.h:288). *)
Fixpoint ms_descend (fuel n odd c : nat) (b : bool) : nat * nat * nat * bool :=
  match fuel with
  | O => (n, odd, c, b)
  | S f =>
      if 3 <? n then ms_descend f (n / 2) (2 * odd + n mod 2) (2 * c) (negb b)
      else (n, odd, c, b)
  end.

(** The if/else at the top of the loop body (sort_imp.h:286-290). *)
Definition ms_select (s : mstate) : mstate :=
  let odd1 := m_odd s mod 2 in
  if m_c s mod 2 =? 0 then
    let base := (m_base s + Z.of_nat (m_n s))%Z in
    let n := m_n s + odd1 in
    let '(n', odd', c', b') := ms_descend n n (m_odd s) (m_c s + 1) (negb (m_b s)) in
    MS (m_i s) n' odd' c' b' base (m_buf0 s) (m_buf1 s)
  else
    let base := (m_base s - (Z.of_nat (m_n s) - Z.of_nat odd1))%Z in
    let n := 2 * m_n s - odd1 in
    MS (m_i s) n (m_odd s / 2) (m_c s / 2) (m_b s) base (m_buf0 s) (m_buf1 s).

(** do *p++=*ap++; while(ap!=ae);   (sort_imp.h:309). *)
Fixpoint ms_copy_tail (fuel : nat) (ba bb : list D) (p ap ae : nat) : res (list D) :=
  match fuel with
  | O => OutOfFuel
  | S f =>
      x <- rd ba ap ;;
      bb' <- wr bb p x ;;
      if S ap =? ae then Ok bb' else ms_copy_tail f ba bb' (S p) (S ap) ae
  end.

(** The merging loop (sort_imp.h:302-315); [ba] = buf[b^1] (left run),
    [bb] = buf[b] (right run and destination). *)
Fixpoint ms_merge (fuel : nat) (ba bb : list D) (p ap ae bp be : nat) : res (list D) :=
  match fuel with
  | O => OutOfFuel
  | S f =>
      y <- rd bb bp ;;
      x <- rd ba ap ;;
      if ltb y x then
        bb' <- wr bb p y ;;
        if S bp =? be then ms_copy_tail (ae - ap) ba bb' (S p) ap ae
        else ms_merge f ba bb' (S p) ap ae (S bp) be
      else
        bb' <- wr bb p x ;;
        if S ap =? ae then Ok bb' else ms_merge f ba bb' (S p) (S ap) ae bp be
  end.

(** The rest of the loop body (sort_imp.h:292-316); [setval i] is SETVAL(v,i).
    A negative base would make buf[b]+base an invalid pointer. *)
Definition ms_process (setval : nat -> res D) (s : mstate) : res mstate :=
  let '(MS i n odd c b zbase buf0 buf1) := s in
  if (zbase <? 0)%Z then UB else
  let base := Z.to_nat zbase in
  let bb := if b then buf1 else buf0 in
  let ba := if b then buf0 else buf1 in
  let put bb' i' := if b then MS i' n odd c b zbase buf0 bb'
                    else MS i' n odd c b zbase bb' buf1 in
  if n =? 2 then
    v0 <- setval i ;; v1 <- setval (i+1) ;;
    let '(p0, p1) := merge_2 v0 v1 in
    bb <- wr bb base p0 ;; bb <- wr bb (base+1) p1 ;;
    Ok (put bb (i + 2))
  else if n =? 3 then
    v0 <- setval i ;; v1 <- setval (i+1) ;; v2 <- setval (i+2) ;;
    let '(p0, p1, p2) := merge_3 v0 v1 v2 in
    bb <- wr bb base p0 ;; bb <- wr bb (base+1) p1 ;; bb <- wr bb (base+2) p2 ;;
    Ok (put bb (i + 3))
  else
    let na := n / 2 in
    let nb := (n + 1) / 2 in
    bb <- ms_merge (na + nb) ba bb base base (base + na) (base + na) (base + na + nb) ;;
    Ok (put bb i).

(** for(;;) { select; if(c==0) break; process }  (sort_imp.h:284-317). *)
Fixpoint ms_loop (fuel : nat) (setval : nat -> res D) (s : mstate) : res mstate :=
  match fuel with
  | O => OutOfFuel
  | S f =>
      let s := ms_select s in
      if m_c s =? 0 then Ok s
      else s' <- ms_process setval s ;; ms_loop f setval s'
  end.

(** MERGE_SORT() (sort_imp.h:280-318); returns the final buf[0]. *)
Definition merge_sort (setval : nat -> res D) (An : nat) (buf0 buf1 : list D)
  : res (list D) :=
  s <- ms_loop (2 * An + 2) setval
         (MS 0 An 0 0 true (- Z.of_nat An) buf0 buf1) ;;
  Ok (m_buf0 s).
End MergeSort.

Section MergeSortEntry.
Context {T : Type}.
Variable ltb : T -> T -> bool.

(** typedef struct { T v; uint i; } sort_data;   (sort_imp.h:25) *)
Record sort_data := SD { sd_v : T; sd_i : nat }.
Definition sd_ltb (x y : sort_data) : bool := ltb (sd_v x) (sd_v y).

(** merge_sortv (sort_imp.h:320-333): buf[0]=out, buf[1]=work. *)
Definition merge_sortv (out A work : list T) : res (list T) :=
  merge_sort ltb (rd A) (length A) out work.

(** The copy statements *idx++ = (p++)->i executed by merge_copy_perm, [k] = number
    already done (sort_imp.h:341-350). *)
Fixpoint mcp_copies (idx : list nat) (p : list sort_data) (k n : nat) : res (list nat) :=
  match n with
  | O => Ok idx
  | S n' => d <- rd p k ;; idx <- wr idx k (sd_i d) ;; mcp_copies idx p (S k) n'
  end.

(** merge_copy_perm (sort_imp.h:335-352), Duff's device: the switch enters the loop so
    that the first round does n%8 copies (8 when n%8 is 0), and the loop body, 8 copies,
    is repeated while --n_by_8 > 0.  For n = 0 the counter would wrap. *)
Definition merge_copy_perm (idx : list nat) (p : list sort_data) (n : nat) : res (list nat) :=
  let n_by_8 := (n + 7) / 8 in
  if n_by_8 =? 0 then UB else
  mcp_copies idx p 0 ((if n mod 8 =? 0 then 8 else n mod 8) + 8 * (n_by_8 - 1)).

(** merge_sortp0 (sort_imp.h:354-368): buf[0]=work+An, buf[1]=work. *)
Definition merge_sortp0 (idx : list nat) (A : list T) (work0 work1 : list sort_data)
  : res (list nat) :=
  r <- merge_sort sd_ltb (fun ai => v <- rd A ai ;; Ok (SD v ai)) (length A) work1 work0 ;;
  merge_copy_perm idx r (length A).

(** merge_sortp (sort_imp.h:370-384). *)
Definition merge_sortp (idx : list nat) (A : list T) (work0 work1 : list sort_data)
  : res (list nat) :=
  r <- merge_sort sd_ltb (fun ai => j <- rd idx ai ;; v <- rd A j ;; Ok (SD v j))
         (length A) work1 work0 ;;
  merge_copy_perm idx r (length A).
End MergeSortEntry.
Arguments sort_data : clear implicits.

(* ------------------------------------------------------------------------- *)
(** * Heap sort (sort_imp.h:390-421) *)
(* ------------------------------------------------------------------------- *)
Section HeapSort.
Context {T : Type}.
Variables (ltb geb : T -> T -> bool).   (** x < y   and   x >= y *)

(** do A[h]=A[p], h=p, p=(p-1)>>1; while(h && A[p] < item); A[h]=item
    (sort_imp.h:405-406).  When h becomes 0 the unsigned p-1 wraps, but then
    A[p] is not evaluated; nat subtraction truncates instead. *)
Fixpoint hs_up (fuel : nat) (A : list T) (item : T) (h p : nat) : res (list T) :=
  match fuel with
  | O => OutOfFuel
  | S f =>
      ap <- rd A p ;;
      A <- wr A h ap ;;
      let h' := p in
      let p' := (p - 1) / 2 in
      if h' =? 0 then wr A h' item
      else ap' <- rd A p' ;;
           if ltb ap' item then hs_up f A item h' p' else wr A h' item
  end.

(** Body of the build loop (sort_imp.h:402-406). *)
Definition hs_insert (A : list T) (i : nat) : res (list T) :=
  item <- rd A i ;;
  let p := (i - 1) / 2 in
  ap <- rd A p ;;
  if geb ap item then Ok A else hs_up (S i) A item i p.

(** for(i=1;i<n;++i)   (sort_imp.h:401). *)
Definition hs_build (A : list T) (n : nat) : res (list T) :=
  foldM hs_insert (seq 1 (n - 1)) A.

(** Inner for(;;) of the extraction and A[h]=item (sort_imp.h:413-419). *)
Fixpoint hs_down (fuel : nat) (A : list T) (item : T) (i h : nat) : res (list T) :=
  match fuel with
  | O => OutOfFuel
  | S f =>
      let ch := 1 + 2 * h in
      let r := ch + 1 in
      ch <- (if r <? i then
               ac <- rd A ch ;; ar <- rd A r ;; Ok (if ltb ac ar then r else ch)
             else Ok ch) ;;
      if i <=? ch then wr A h item
      else ac <- rd A ch ;;
           if geb item ac then wr A h item
           else A <- wr A h ac ;; hs_down f A item i ch
  end.

(** Body of the extraction loop (sort_imp.h:410-419). *)
Definition hs_extract (A : list T) (i : nat) : res (list T) :=
  item <- rd A i ;;
  a0 <- rd A 0 ;;
  A <- wr A i a0 ;;
  hs_down (S i) A item i 0.

(** heap_sortv (sort_imp.h:397-421), for(i=n-1;i;--i) in the second half. *)
Definition heap_sortv (A : list T) : res (list T) :=
  let n := length A in
  A <- hs_build A n ;;
  foldM hs_extract (rev (seq 1 (n - 1))) A.
End HeapSort.

(* ------------------------------------------------------------------------- *)
(** * Radix sort (sort_imp.h:54-257) *)
(* ------------------------------------------------------------------------- *)
Section RadixSort.
Variable DIGITS : nat.

(** (v>>sh)&DIGIT_MASK  with DIGIT_BITS = 8 (sort_imp.h:56-58). *)
Definition digit_at (sh : N) (v : N) : nat := N.to_nat (N.land (N.shiftr v sh) 255).

(** count[i][val&DIGIT_MASK]++, val>>=DIGIT_BITS for i=0..DIGITS-1
    (sort_imp.h:65-72, 82). *)
Fixpoint count_digits (count : list (list nat)) (val : N) : res (list (list nat)) :=
  match count with
  | [] => Ok []
  | row :: rows =>
      let d := N.to_nat (N.land val 255) in
      x <- rd row d ;; row' <- wr row d (S x) ;;
      rows' <- count_digits rows (N.shiftr val 8) ;;
      Ok (row' :: rows')
  end.

(** radix_count (sort_imp.h:74-92): fills the table and returns the bitwise or. *)
Definition radix_count (A : list N) : res (N * list (list nat)) :=
  foldM (fun '(bitor, count) val =>
           count' <- count_digits count val ;; Ok (N.lor bitor val, count'))
        A (0%N, repeat (repeat 0 256) DIGITS).

(** radix_offsets (sort_imp.h:102-113): four counters per iteration, replaced by
    their exclusive prefix sums.  A length that is not a multiple of 4 would run
    past the end. *)
Fixpoint radix_offsets (fuel : nat) (c : list nat) (sum : nat) : res (list nat) :=
  match fuel with
  | O => OutOfFuel
  | S f =>
      match c with
      | [] => Ok []
      | c0 :: c1 :: c2 :: c3 :: rest =>
          let o1 := sum + c0 in let o2 := o1 + c1 in let o3 := o2 + c2 in
          rest' <- radix_offsets f rest (o3 + c3) ;;
          Ok (sum :: o1 :: o2 :: o3 :: rest')
      | _ => UB
      end
  end.

(** radix_zeros (sort_imp.h:115-125): the list of (shift, offset table) for the digit
    positions that are not zero in every key. *)
Fixpoint radix_zeros (bitorkey sh : N) (count : list (list nat))
  : res (list (N * list nat)) :=
  match count with
  | [] => Ok []
  | c :: count' =>
      if (N.land bitorkey 255 =? 0)%N then
        radix_zeros (N.shiftr bitorkey 8) (sh + 8) count'
      else
        off <- radix_offsets (S (length c)) c 0 ;;
        tl <- radix_zeros (N.shiftr bitorkey 8) (sh + 8) count' ;;
        Ok ((sh, off) :: tl)
  end.

(** out[off[d]++] = y : the common step of all passes. *)
Definition bucket_put {Y} (d : nat) (off : list nat) (out : list Y) (y : Y)
  : res (list nat * list Y) :=
  o <- rd off d ;; off' <- wr off d (S o) ;; out' <- wr out o y ;; Ok (off', out').

(** radix_passv (sort_imp.h:127-132). *)
Fixpoint radix_passv (A : list N) (sh : N) (off : list nat) (out : list N)
  : res (list N) :=
  match A with
  | [] => Ok out
  | v :: A' => '(off, out) <- bucket_put (digit_at sh v) off out v ;;
               radix_passv A' sh off out
  end.

(** The loop  for(d=1;d!=digits;++d) radix_passv(src,..,dst), swap(src,dst)
    (sort_imp.h:149-153).  Returns (src, dst). *)
Fixpoint radix_passesv (ps : list (N * list nat)) (src dst : list N)
  : res (list N * list N) :=
  match ps with
  | [] => Ok (src, dst)
  | (sh, off) :: ps' => dst' <- radix_passv src sh off dst ;; radix_passesv ps' dst' src
  end.

(** radix_sortv (sort_imp.h:134-156).  [alias] : out==A.  Writing the first pass into out
    while reading A==out would violate the restrict qualifiers of radix_passv, hence UB.
    After the digits-1 swaps, [src_is_out] says whether src is out; the result is copied
    to out when it is not (line 154).  (n = 0 never reaches this function; the do-while
    loops would run off the array.) *)
Definition radix_sortv (alias : bool) (out A work : list N) : res (list N) :=
  match A with [] => UB | _ =>
  '(bitorkey, count) <- radix_count A ;;
  ps <- radix_zeros bitorkey 0 count ;;
  match ps with
  | [] => Ok (repeat 0%N (length A))
  | (sh, off) :: ps' =>
      let digits := length ps in
      let out_is_dst := alias || (digits mod 2 =? 0) in
      if alias && negb out_is_dst then UB else
      let '(dst, src) := if out_is_dst then (out, work) else (work, out) in
      src <- radix_passv A sh off src ;;
      '(src, dst) <- radix_passesv ps' src dst ;;
      let src_is_out := xorb (negb out_is_dst) (Nat.odd (length ps')) in
      let out := if src_is_out then src else dst in
      let out := if negb src_is_out then src else out in
      Ok out
  end end.

(** radix_passp0_b (sort_imp.h:158-169). *)
Fixpoint radix_passp0_b (A : list N) (i : nat) (sh : N) (off : list nat)
  (out : list (sort_data N)) : res (list (sort_data N)) :=
  match A with
  | [] => Ok out
  | v :: A' => '(off, out) <- bucket_put (digit_at sh v) off out (SD v i) ;;
               radix_passp0_b A' (S i) sh off out
  end.

(** radix_passp_b (sort_imp.h:171-184). *)
Fixpoint radix_passp_b (p : list nat) (A : list N) (sh : N) (off : list nat)
  (out : list (sort_data N)) : res (list (sort_data N)) :=
  match p with
  | [] => Ok out
  | j :: p' => v <- rd A j ;;
               '(off, out) <- bucket_put (digit_at sh v) off out (SD v j) ;;
               radix_passp_b p' A sh off out
  end.

(** radix_passp_m (sort_imp.h:186-195). *)
Fixpoint radix_passp_m (src : list (sort_data N)) (sh : N) (off : list nat)
  (out : list (sort_data N)) : res (list (sort_data N)) :=
  match src with
  | [] => Ok out
  | d :: src' => '(off, out) <- bucket_put (digit_at sh (sd_v d)) off out d ;;
                 radix_passp_m src' sh off out
  end.

(** radix_passp_e (sort_imp.h:197-203). *)
Fixpoint radix_passp_e (src : list (sort_data N)) (sh : N) (off : list nat)
  (out : list nat) : res (list nat) :=
  match src with
  | [] => Ok out
  | d :: src' => '(off, out) <- bucket_put (digit_at sh (sd_v d)) off out (sd_i d) ;;
                 radix_passp_e src' sh off out
  end.

(** radix_passp0_be (sort_imp.h:205-212). *)
Fixpoint radix_passp0_be (out : list nat) (A : list N) (i : nat) (sh : N) (off : list nat)
  : res (list nat) :=
  match A with
  | [] => Ok out
  | v :: A' => '(off, out) <- bucket_put (digit_at sh v) off out i ;;
               radix_passp0_be out A' (S i) sh off
  end.

(** radix_passp_be (sort_imp.h:214-228): the work area is reused as an array w of uint,
    then copied over p. *)
Fixpoint radix_passp_be_loop (q : list nat) (A : list N) (sh : N) (off : list nat)
  (w : list nat) : res (list nat) :=
  match q with
  | [] => Ok w
  | j :: q' => v <- rd A j ;;
               '(off, w) <- bucket_put (digit_at sh v) off w j ;;
               radix_passp_be_loop q' A sh off w
  end.

(** The loop for(d=1;d!=digits-1;++d) radix_passp_m, swap and the final radix_passp_e
    (sort_imp.h:250-255). *)
Fixpoint radix_passesp (ps : list (N * list nat)) (src dst : list (sort_data N))
  (idx : list nat) : res (list nat) :=
  match ps with
  | [] => UB
  | [(sh, off)] => radix_passp_e src sh off idx
  | (sh, off) :: ps' => dst' <- radix_passp_m src sh off dst ;; radix_passesp ps' dst' src idx
  end.

(** radix_sortp (sort_imp.h:230-257).  [idx] is the permutation array of length n,
    work[0..n) and work[n..2n) are [wlo], [whi]; [w] is the uint view of work. *)
Definition radix_sortp (perm_start : bool) (idx : list nat) (A : list N)
  (wlo whi : list (sort_data N)) (w : list nat) : res (list nat) :=
  match A with [] => UB | _ =>
  '(bitorkey, count) <- radix_count A ;;
  ps <- radix_zeros bitorkey 0 count ;;
  match ps with
  | [] => Ok (if perm_start then idx else seq 0 (length A))
  | [(sh, off)] =>
      if perm_start then radix_passp_be_loop idx A sh off w
      else radix_passp0_be idx A 0 sh off
  | (sh, off) :: ps' =>
      let digits := length ps in
      let '(dst, src) := if digits mod 2 =? 0 then (wlo, whi) else (whi, wlo) in
      src <- (if perm_start then radix_passp_b idx A sh off src
              else radix_passp0_b A 0 sh off src) ;;
      radix_passesp ps' src dst idx
  end end.
End RadixSort.

(* ------------------------------------------------------------------------- *)
(** * Entry points (sort_imp.h:447-551) *)
(* ------------------------------------------------------------------------- *)
Definition N_geb (x y : N) : bool := (y <=? x)%N.

(** sortv for integer types (sort_imp.h:448-477).  [alias]: out==A (then [out] is
    ignored and A is overwritten); [unit_stride]: stride==sizeof(T); [work] is the
    buffer after buffer_reserve. The result is the contents of out. *)
Definition sortv (DIGITS : nat) (alias unit_stride : bool) (out A work : list N)
  : res (list N) :=
  let n := length A in
  if n <? 256 then
    match A with
    | [] => Ok (if alias then A else out)
    | [a] => if alias then Ok A else wr out 0 a
    | _ =>
        if alias then
          if unit_stride then heap_sortv N.ltb N_geb A else Abort
        else merge_sortv N.ltb out A work
    end
  else radix_sortv DIGITS alias (if alias then A else out) A work.

(** sortp for integer types (sort_imp.h:479-509).  [perm] is the contents of the first
    n uints of the buffer after buffer_reserve. *)
Definition sortp (DIGITS : nat) (start_perm : bool) (perm : list nat) (A : list N)
  (wlo whi : list (sort_data N)) (w : list nat) : res (list nat) :=
  let n := length A in
  if n <? 256 then
    match A with
    | [] => Ok perm
    | [_] => wr perm 0 0
    | _ => if start_perm then merge_sortp N.ltb perm A wlo whi
           else merge_sortp0 N.ltb perm A wlo whi
    end
  else radix_sortp DIGITS start_perm perm A wlo whi w.

(** sortv for float and double, REALSORT (sort_imp.h:511-528). *)
Definition sortv_real {T} (ltb geb : T -> T -> bool) (alias unit_stride : bool)
  (out A work : list T) : res (list T) :=
  match A with
  | [] => Ok (if alias then A else out)
  | [a] => if alias then Ok A else wr out 0 a
  | _ =>
      if alias then
        if unit_stride then heap_sortv ltb geb A else Abort
      else merge_sortv ltb out A work
  end.

(** sortp for float and double, REALSORT (sort_imp.h:530-550). *)
Definition sortp_real {T} (ltb : T -> T -> bool) (start_perm : bool) (perm : list nat)
  (A : list T) (wlo whi : list (sort_data T)) : res (list nat) :=
  match A with
  | [] => Ok perm
  | [_] => wr perm 0 0
  | _ => if start_perm then merge_sortp ltb perm A wlo whi
         else merge_sortp0 ltb perm A wlo whi
  end.
