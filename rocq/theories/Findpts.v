(** Model of the search of points in elements: src/findpts_local.c, src/findpts_local_imp.h,
    src/findpts.c and src/findpts_imp.h.

    Doubles that are stored, compared or sent are values of an abstract type with their
    numerical value (a rational); the arithmetic of the hash tables is done on rationals, every
    operation followed by the rounding [rnd].  The dimension D is the length of the lists of
    coordinates (2 or 3 in the code); nested loops over dimensions are recursions over these
    lists.  Strided user arrays are lists of records, one per point.
    Simplifications: allocation always succeeds; fresh memory contains 0; infinities and NaNs
    occur only as the factor n/0 (None below); -0 is not distinguished from 0. *)
From Verif Require Import Base Sort Sarray Net NetWords Comm Crystal Transfer GsTop.
From Coq Require Import QArith Qround.
Open Scope nat_scope.

(** The finite doubles, with their bytes in memory; DBL_MAX and -DBL_MAX bound them. *)
Record doubles : Type := Doubles {
  dbl : Type;
  val : dbl -> Q;
  dsize : nat;
  dbl_bytes : dbl -> list byte;
  bytes_dbl : list byte -> dbl;
  dbl_max : dbl;
  dbl_lowest : dbl;
  val_inj : forall a b, (val a == val b)%Q -> a = b;
  dsize_pos : 1 <= dsize;
  dbl_bytes_length : forall a, length (dbl_bytes a) = dsize;
  dbl_bytes_lt : forall a b, In b (dbl_bytes a) -> b < 256;
  dbl_bytes_back : forall a, bytes_dbl (dbl_bytes a) = a;
  dbl_max_top : forall a, (val a <= val dbl_max)%Q;
  dbl_lowest_bot : forall a, (val dbl_lowest <= val a)%Q }.

Section Hash.
Variable F : doubles.
Notation dbl := (dbl F).
Notation val := (val F).
Variable rnd : Q -> Q.        (** the result of a double operation, given the exact result *)

(** a < b. *)
Definition dlt (a b : dbl) : bool := negb (Qle_bool (val b) (val a)).

(** struct dbl_range; the bounding box of an element (the member x of struct obbox) and of a
    hash table (the member bnd). *)
Definition box : Type := list (dbl * dbl).

(** dbl_range_merge (findpts_local.c:21-27). *)
Definition dbl_range_merge (a b : dbl * dbl) : dbl * dbl :=
  (if dlt (fst b) (fst a) then fst b else fst a, if dlt (snd b) (snd a) then snd a else snd b).

Section Width.
Variable w : nat.             (** bytes of the integers used for cell indices *)

(** Unsigned arithmetic. *)
Definition wrap (n : nat) : nat := n mod 256 ^ w.
Definition usub (a b : nat) : nat := wrap (a + 256 ^ w - b).
(** Conversion of an integral double to the signed type: undefined out of range. *)
Definition cvt (z : Z) : res Z :=
  let h := (2 ^ (8 * Z.of_nat w - 1))%Z in if (- h <=? z)%Z && (z <? h)%Z then Ok z else UB.
(** Conversion of the signed to the unsigned type. *)
Definition to_unsigned (z : Z) : nat := Z.to_nat (z mod 2 ^ (8 * Z.of_nat w))%Z.

(** (x-low)*fac; converting the result to an integer is undefined when fac is infinite. *)
Definition scaled (low : dbl) (fac : option Q) (x : dbl) : res Q :=
  match fac with
  | Some f => Ok (rnd (rnd (val x - val low)%Q * f)%Q)
  | None => UB
  end.

(** hash_index_aux (findpts_local.c:29-36, findpts.c:35-42) with ifloor, lfloor; n >= 1. *)
Definition hash_index_aux (low : dbl) (fac : option Q) (n : nat) (x : dbl) : res nat :=
  s <- scaled low fac x ;;
  i <- cvt (Qfloor s) ;;
  Ok (if (i <? 0)%Z then 0 else if n - 1 <? Z.to_nat i then n - 1 else Z.to_nat i).

(** hash_index (findpts_local_imp.h:74-80, findpts_imp.h:50-56). *)
Fixpoint hash_index (n : nat) (bnd : box) (fac : list (option Q)) (x : list dbl) : res nat :=
  match bnd, fac, x with
  | b :: bnd', f :: fac', x0 :: x' =>
      hi <- hash_index n bnd' fac' x' ;;
      i <- hash_index_aux (fst b) f n x0 ;;
      Ok (wrap (hi * n + i))
  | _, _, _ => Ok 0
  end.

(** hash_setfac (findpts_local_imp.h:82-87, findpts_imp.h:58-63); None: division by 0. *)
Definition hash_fac (n : nat) (b : dbl * dbl) : option Q :=
  let d := rnd (val (snd b) - val (fst b))%Q in
  if Qeq_bool d 0 then None else Some (rnd (inject_Z (Z.of_nat n) / d)%Q).
Definition hash_setfac (bnd : box) (n : nat) : list (option Q) := map (hash_fac n) bnd.

(** hash_range (findpts_local_imp.h:89-99, findpts_imp.h:65-75). *)
Definition hash_range (n : nat) (low : dbl) (fac : option Q) (r : dbl * dbl) : res (nat * nat) :=
  s0 <- scaled low fac (fst r) ;;
  i0 <- cvt (Qfloor s0) ;;
  s1 <- scaled low fac (snd r) ;;
  i1 <- cvt (Qceiling s1) ;;
  let mn := if (i0 <? 0)%Z then 0 else Z.to_nat i0 in
  let mx := if to_unsigned i1 <? n then to_unsigned i1 else n in
  Ok (mn, if mx =? mn then wrap (mx + 1) else mx).

(** The ranges of a box in all dimensions. *)
Fixpoint hash_ranges (n : nat) (bnd : box) (fac : list (option Q)) (b : box) : res (list (nat * nat)) :=
  match bnd, fac, b with
  | b0 :: bnd', f :: fac', r :: b' =>
      ir <- hash_range n (fst b0) f r ;;
      irs <- hash_ranges n bnd' fac' b' ;;
      Ok (ir :: irs)
  | _, _, _ => Ok []
  end.

(** for(i=ir.min;i<ir.max;++i). *)
Definition loop_range (ir : nat * nat) : list nat := seq (fst ir) (snd ir - fst ir).
(** The cells visited by FOR_LOOP (findpts_local_imp.h:163-168, 183-191) in this order. *)
Fixpoint cells (n : nat) (irs : list (nat * nat)) : list nat :=
  match irs with
  | [] => [0]
  | ir :: irs' => flat_map (fun o => map (fun i => wrap (o * n + i)) (loop_range ir)) (cells n irs')
  end.
(** hn*hn, times hn in 3D. *)
Fixpoint power (n D : nat) : nat := match D with O => 1 | S D' => wrap (n * power n D') end.

(** hash_count (findpts_local_imp.h:101-115). *)
Definition hash_count (bnd : box) (obb : list box) (n : nat) : res nat :=
  foldM (fun count b =>
    irs <- hash_ranges n bnd (hash_setfac bnd n) b ;;
    Ok (wrap (count + fold_left (fun ci ir => wrap (ci * usub (snd ir) (fst ir))) irs 1))) obb 0.

(** The loop of hash_opt_size (findpts_local_imp.h:123-128): nl and size_low. *)
Fixpoint opt_loop (fuel : nat) (bnd : box) (obb : list box) (max_size nl nu size_low : nat)
    : res (nat * nat) :=
  if usub nu nl <=? 1 then Ok (nl, size_low)
  else match fuel with
       | O => OutOfFuel
       | S f =>
           let nm := wrap (nl + usub nu nl / 2) in
           count <- hash_count bnd obb nm ;;
           let size := wrap (power nm (length bnd) + 1 + count) in
           if size <=? max_size then opt_loop f bnd obb max_size nm nu size
           else opt_loop f bnd obb max_size nl nm size_low
       end.
(** hash_opt_size (findpts_local_imp.h:117-131); [nu] is ceil(pow(max_size-nel,1.0/D)). *)
Definition hash_opt_size (bnd : box) (obb : list box) (max_size nu : nat) : res (nat * nat) :=
  opt_loop (8 * w) bnd obb max_size 1 nu (wrap (2 + length obb)).
End Width.

(** struct hash_data (findpts_local_imp.h:66-72, findpts_imp.h:42-48). *)
Record hash_data : Type := HD {
  hash_n : nat; bnd : box; fac : list (option Q); offset : list nat; hash_max : nat }.

Section Local.
Variable usize : nat.
Variable dzero : dbl.         (** the double 0 *)
Notation wrap := (wrap usize).

(** hash_bb (findpts_local_imp.h:133-147); D is the dimension. *)
Definition hash_bb (D : nat) (obb : list box) : box :=
  match obb with
  | b :: rest => fold_left (fun acc b => map (fun '(x, y) => dbl_range_merge x y) (combine acc b)) rest b
  | [] => repeat (dzero, dzero) D
  end.

(** One pass over all cells of the box of every element (findpts_local_imp.h:160-171, 180-194). *)
Definition for_cells {S} (n : nat) (bd : box) (fc : list (option Q)) (obb : list box)
    (body : nat -> nat -> S -> res S) (s : S) : res S :=
  foldM (fun s '(el, b) =>
    irs <- hash_ranges usize n bd fc b ;;
    foldM (fun s c => body el c s) (cells usize n irs) s) (combine (seq 0 (length obb)) obb) s.

(** hash_build (findpts_local_imp.h:149-196). *)
Definition hash_build (D : nat) (obb : list box) (max_size nu : nat) : res hash_data :=
  let bd := hash_bb D obb in
  '(hn, size) <- hash_opt_size usize bd obb max_size nu ;;
  let fc := hash_setfac bd hn in
  let hnd := power usize hn D in
  count <- for_cells hn bd fc obb (fun el c count => k <- rd count c ;; wr count c (wrap (k + 1)))
             (repeat 0 hnd) ;;
  mx <- rd count 0 ;;
  let sum := wrap (hnd + 1) in
  offs <- wr (repeat 0 size) 0 sum ;;
  '(offs, sum, mx) <- foldM (fun '(offs, sum, mx) i =>
      k <- rd count i ;;
      let sum := wrap (sum + k) in
      offs <- wr offs (i + 1) sum ;;
      Ok (offs, sum, if mx <? k then k else mx)) (seq 0 hnd) (offs, sum, mx) ;;
  '(offs, count) <- for_cells hn bd fc obb (fun el c '(offs, count) =>
      e <- rd offs (c + 1) ;;
      k <- rd count c ;;
      offs <- wr offs (usub usize e k) el ;;
      count <- wr count c (usub usize k 1) ;;
      Ok (offs, count)) (offs, count) ;;
  Ok (HD hn bd fc offs mx).

(** hash_index on a table. *)
Definition table_index (w : nat) (h : hash_data) (x : list dbl) : res nat :=
  hash_index w (hash_n h) (bnd h) (fac h) x.

(** *** Search on one process *)

(** What the user keeps for one point: code, el, r, dist2; disti and elsid are internal to
    findptsms; proc is set by findptsms only. *)
Record result : Type := Res {
  code : nat; proc : nat; el : nat; r : list dbl; dist2 : dbl; disti : dbl; elsid : nat }.

(** CODE_INTERNAL, CODE_BORDER, CODE_NOT_FOUND (findpts_local.c:38-40). *)
Definition INTERNAL : nat := 0.
Definition BORDER : nat := 1.
Definition NOT_FOUND : nat := 2.
Definition set_code (c : nat) (o : result) : result :=
  Res c (proc o) (el o) (r o) (dist2 o) (disti o) (elsid o).

(** What findpts_el, and findpts_el_eval of distfint, compute for one point in one element:
    flags==(1u<<(2*D)), r, dist2, disti. *)
Record found : Type := Found { f_internal : bool; f_r : list dbl; f_dist2 : dbl; f_disti : dbl }.

(** struct findpts_local_data (findpts_local_imp.h:200-211).  Simplification: the box test
    obbox_test(&obb[el],x)>=0 and the Newton solver of findpts_el (findpts_el_2.c,
    findpts_el_3.c) are functions of the element and the point. *)
Record local_data : Type := LD {
  hd : hash_data;
  box_test : nat -> list dbl -> bool;
  solve : nat -> list dbl -> found;
  npt_max : nat;
  ims : bool;
  nsid : nat }.

(** A point with its session_id. *)
Record point : Type := Pt { px : list dbl; psid : nat }.

(** The two continue statements of map_points_to_els (findpts_local_imp.h:279-280). *)
Definition skip (fd : local_data) (sessm sid : nat) : bool :=
  ims fd && (if sessm =? 1 then negb (nsid fd =? sid) else nsid fd =? sid).

(** The elements listed for a point: offset[offset[hi]], ..., offset[offset[hi+1]-1]
    (findpts_local_imp.h:273-278). *)
Definition listed (h : hash_data) (x : list dbl) : res (list nat) :=
  hi <- table_index usize h x ;;
  b <- rd (offset h) hi ;;
  e <- rd (offset h) (hi + 1) ;;
  mapM (rd (offset h)) (seq b (e - b)).

(** map_points_to_els (findpts_local_imp.h:256-303): the pairs (index,el) grouped by el.
    The sentinel behind them has an el different from all others. *)
Definition map_points_to_els (fd : local_data) (sessm : nat) (pts : list point)
    : res (list (nat * nat)) :=
  m <- mapM (fun '(index, p) =>
         els <- listed (hd fd) (px p) ;;
         Ok (map (fun e => (index, e))
               (filter (fun e => negb (skip fd sessm (psid p)) && box_test fd e (px p)) els)))
       (combine (seq 0 (length pts)) pts) ;;
  sort_by usize usize [KU snd] (concat m).

(** The first loop of a batch (findpts_local_imp.h:335-340): up to k points of the element
    that are not internal yet. *)
Fixpoint gather (pts : list point) (st : list result) (e k : nat) (q : list (nat * nat))
    : res (list (list dbl)) :=
  match q with
  | (index, e') :: q' =>
      if k =? 0 then Ok []
      else if e' =? e then
        o <- rd st index ;;
        if code o =? INTERNAL then gather pts st e k q'
        else p <- rd pts index ;; xs <- gather pts st e (k - 1) q' ;; Ok (px p :: xs)
      else Ok []
  | [] => Ok []
  end.

(** The update of one point (findpts_local_imp.h:355-367). *)
Definition better (fd : local_data) (e : nat) (f : found) (o : result) : result :=
  if (code o =? NOT_FOUND) || f_internal f || dlt (f_dist2 f) (dist2 o) then
    Res (if f_internal f then INTERNAL else BORDER) (proc o) e (f_r f) (f_dist2 f)
        (if ims fd then f_disti f else dzero) (if ims fd then nsid fd else 0)
  else o.

(** The second loop of a batch (findpts_local_imp.h:348-369): the results [fs] of the points
    gathered are stored; also the rest of the map. *)
Fixpoint scatter (fd : local_data) (st : list result) (e k : nat) (fs : list found)
    (q : list (nat * nat)) : res (list result * list (nat * nat)) :=
  match q with
  | (index, e') :: q' =>
      if k =? 0 then Ok (st, q)
      else if e' =? e then
        o <- rd st index ;;
        if code o =? INTERNAL then scatter fd st e k fs q'
        else match fs with
             | f :: fs' => st' <- wr st index (better fd e f o) ;; scatter fd st' e (k - 1) fs' q'
             | [] => UB
             end
      else Ok (st, q)
  | [] => Ok (st, [])
  end.

(** The loops over elements and batches (findpts_local_imp.h:325-372); the outer loop and the
    do-while loop are one: both go on with the element of the next entry. *)
Fixpoint batches (fuel : nat) (fd : local_data) (pts : list point) (st : list result)
    (p : list (nat * nat)) : res (list result) :=
  match p with
  | [] => Ok st
  | (_, e) :: _ =>
      match fuel with
      | O => OutOfFuel
      | S f =>
          xs <- gather pts st e (npt_max fd) p ;;
          '(st, q) <- scatter fd st e (npt_max fd) (map (solve fd e) xs) p ;;
          batches f fd pts st q
      end
  end.

(** findptsms_local (findpts_local_imp.h:305-375); [st] the user's arrays. *)
Definition findptsms_local (fd : local_data) (sessm : nat) (pts : list point) (st : list result)
    : res (list result) :=
  m <- map_points_to_els fd sessm pts ;;
  batches (length m) fd pts (map (set_code NOT_FOUND) st) m.

(** The counting loop of findptsms_local_eval (findpts_local_imp.h:393): up to k points of
    element e. *)
Fixpoint eval_batch (e k : nat) (q : list (nat * list dbl)) : list (list dbl) * list (nat * list dbl) :=
  match q with
  | (e', x) :: q' =>
      if k =? 0 then ([], q)
      else if e' =? e then let '(xs, rest) := eval_batch e (k - 1) q' in (x :: xs, rest)
      else ([], q)
  | [] => ([], [])
  end.
(** findptsms_local_eval (findpts_local_imp.h:378-400): points (el,r) grouped by element;
    [eval e r] is the value of the field at r in element e.  Simplification: findpts_el_eval is
    a function of the element and the point.  As above, one loop for the two. *)
Fixpoint local_eval {V} (fuel : nat) (fd : local_data) (eval : nat -> list dbl -> V)
    (p : list (nat * list dbl)) : res (list V) :=
  match p with
  | [] => Ok []
  | (e, _) :: _ =>
      match fuel with
      | O => OutOfFuel
      | S f =>
          let '(xs, q) := eval_batch e (npt_max fd) p in
          out <- local_eval f fd eval q ;;
          Ok (map (eval e) xs ++ out)
      end
  end.
End Local.
End Hash.
