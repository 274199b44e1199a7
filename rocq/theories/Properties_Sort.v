(** C01-C08: sorting and permuting.  Specifications: SortSpec.v.  Models: Sort.v, Sarray.v.
    Every conclusion "= Ok r" includes termination and that no array is accessed out of range. *)
From Coq Require Import String.
From Verif Require Import Base Sort SortSpec Sarray SarraySpec SortProof SarrayProof SarrayExtra.
Local Open Scope list_scope.
Local Notation length := List.length.

(** ** C01.  D is the number of bytes of the key type; [us] says whether the stride is the
    element size. *)
Theorem C01_sortv : forall (D : nat) (us : bool) (out A work : list N),
  length out = length A -> length work = length A ->
  (forall v, In v A -> (v < 2 ^ (8 * N.of_nat D))%N) ->
  exists r, sortv D false us out A work = Ok r /\ Permutation A r /\ sorted_by N.ltb r.
Proof. exact sortv_sorted. Qed.
Print Assumptions C01_sortv.

Example C01_case : exists A out work, length A = 300 /\ length out = length A /\ length work = length A /\
  (forall v, In v A -> (v < 2 ^ (8 * N.of_nat 4))%N) /\
  sortv 4 false true out A work = Ok (map N.of_nat (seq 0 300)).
Proof. exact ex_sortv_300. Qed.

(** ** C02 *)
Theorem C02_sortv_inplace : forall (D : nat) (A out work : list N),
  length work = length A -> (forall v, In v A -> (v < 2 ^ (8 * N.of_nat D))%N) ->
  exists r, sortv D true true out A work = Ok r /\ Permutation A r /\ sorted_by N.ltb r.
Proof. exact (fun D A => sortv_inplace_ok D A). Qed.
Print Assumptions C02_sortv_inplace.

Theorem C02_sortv_inplace_strided_rejected : forall (D : nat) (A out work : list N),
  2 <= length A < 256 -> sortv D true false out A work = Abort.
Proof. exact (fun D A => sortv_inplace_stride D A). Qed.
Print Assumptions C02_sortv_inplace_strided_rejected.

Example C02_case : sortv 4 true true [] [5;3;9;3;1;7;2]%N [0;0;0;0;0;0;0]%N = Ok [1;2;3;3;5;7;9]%N.
Proof. vm_compute. reflexivity. Qed.

(** In place or not, the sorted array is the same one. *)
Theorem C01_C02_unique : forall (A r1 r2 : list N),
  Permutation A r1 -> sorted_by N.ltb r1 -> Permutation A r2 -> sorted_by N.ltb r2 -> r1 = r2.
Proof. exact sorted_N_unique. Qed.
Print Assumptions C01_C02_unique.

(** ** C03.  In positions: a permutation of 0..n-1; for a < b the key at p[b] is not less than
    the key at p[a], and if the keys are equal then p[a] < p[b]. *)
Theorem C03_sortp : forall (D : nat) (perm : list nat) (A : list N) wlo whi w,
  length perm = length A -> length wlo = length A -> length whi = length A -> length w = length A ->
  (forall v, In v A -> (v < 2 ^ (8 * N.of_nat D))%N) ->
  exists p, sortp D false perm A wlo whi w = Ok p /\ is_perm (length A) p /\
    forall a b pa pb ka kb, a < b -> nth_error p a = Some pa -> nth_error p b = Some pb ->
      nth_error A pa = Some ka -> nth_error A pb = Some kb ->
      (ka <= kb)%N /\ (ka = kb -> pa < pb).
Proof. exact sortp_explicit. Qed.
Print Assumptions C03_sortp.

(** ** C04.  The stable re-arrangement of the starting permutation. *)
Theorem C04_sortp_start : forall (D : nat) (perm : list nat) (A : list N) wlo whi w,
  length wlo = length A -> length whi = length A -> length w = length A ->
  (forall v, In v A -> (v < 2 ^ (8 * N.of_nat D))%N) ->
  is_perm (length A) perm ->
  exists p, sortp D true perm A wlo whi w = Ok p /\ stably_sorts (index_lt N.ltb A) perm p.
Proof. exact sortp_start_ok. Qed.
Print Assumptions C04_sortp_start.

Example C03_case : exists A perm wlo whi w, length A = 5 /\ is_perm 5 perm /\
  sortp 8 false perm A wlo whi w = Ok [1;3;0;2;4] /\ sortp 8 true perm A wlo whi w = Ok [3;1;4;2;0].
Proof. exact ex_sortp. Qed.

(** ** C05.  The second component is the final contents of the permutation array. *)
Theorem C05_sarray_permute : forall (T : Type) (A : list T) (perm : list nat),
  is_perm (length A) perm ->
  exists B, sarray_permute A perm = Ok (B, map Z.of_nat perm) /\ rearranged A perm B.
Proof. exact (fun T A perm => sarray_permute_ok A perm). Qed.
Print Assumptions C05_sarray_permute.

Theorem C05_sarray_perm_invert : forall n pinv perm, is_perm n perm -> length pinv = n ->
  exists q, sarray_perm_invert pinv perm = Ok q /\ length q = n /\
    forall i j, nth_error perm i = Some j -> nth_error q j = Some i.
Proof. exact sarray_perm_invert_ok. Qed.
Print Assumptions C05_sarray_perm_invert.

Example C05_case : is_perm 5 [2;0;1;4;3] /\
  sarray_permute [10;11;12;13;14] [2;0;1;4;3] = Ok ([12;10;11;14;13], [2;0;1;4;3]%Z).
Proof. exact ex_permute. Qed.

(** ** C06.  [fs] lists the keys, most significant first; [key_lt f] compares two structs by key f. *)
Theorem C06_sarray_sort : forall (T : Type) (A : list T) (perm0 : list nat) (fs : list (field T)),
  fs <> [] -> (forall f, In f fs -> field_ok A f) -> length perm0 = length A ->
  exists B, sarray_sort A perm0 fs = Ok B /\ stably_sorts (lexicographic (map key_lt fs)) A B.
Proof. exact (fun T A => sarray_sort_ok A). Qed.
Print Assumptions C06_sarray_sort.

Example C06_case : exists A f1 f2 perm0, length A = 4 /\ field_ok A f1 /\ field_ok A f2 /\ length perm0 = length A /\
  key_lt f1 = (fun x y => (fst x <? fst y)%N) /\ key_lt f2 = (fun x y => (snd (A:=N) x <? snd y)%N) /\
  sarray_sort A perm0 [f1; f2] = Ok [(1,7);(1,9);(2,3);(2,4)]%N.
Proof. exact ex_sarray_sort. Qed.

(** ** C07.  Floating-point keys: [ltb] is the C comparison <, [geb] is >=. *)
Theorem C07_sortv_real : forall (R : Type) (ltb geb : R -> R -> bool) out A work us,
  strict_weak ltb -> length out = length A -> length work = length A ->
  exists r, sortv_real ltb geb false us out A work = Ok r /\ stably_sorts ltb A r.
Proof. exact (fun R => @sortv_real_ok R). Qed.
Print Assumptions C07_sortv_real.

Theorem C07_sortv_real_inplace : forall (R : Type) (ltb geb : R -> R -> bool) out A work,
  strict_weak ltb -> (forall a b, geb a b = negb (ltb a b)) ->
  exists r, sortv_real ltb geb true true out A work = Ok r /\ Permutation A r /\ sorted_by ltb r.
Proof. exact (fun R => @sortv_real_inplace_ok R). Qed.
Print Assumptions C07_sortv_real_inplace.

Theorem C07_sortp_real : forall (R : Type) (ltb : R -> R -> bool) start perm A wlo whi,
  strict_weak ltb ->
  length perm = length A -> length wlo = length A -> length whi = length A ->
  (start = true -> is_perm (length A) perm) ->
  exists p, sortp_real ltb start perm A wlo whi = Ok p /\
    stably_sorts (index_lt ltb A) (if start then perm else seq 0 (length A)) p.
Proof. exact (fun R => @sortp_real_ok R). Qed.
Print Assumptions C07_sortp_real.

Example C07_case : strict_weak Z.ltb /\ (forall a b, Z.geb a b = negb (Z.ltb a b)) /\
  sortv_real Z.ltb Z.geb true true [] [3;-1;2]%Z [] = Ok [-1;2;3]%Z.
Proof. exact ex_real. Qed.

(** ** C08.  Tuple i is column i of the three arrays; [tuple_lts mi keys] compares tuples by
    the keys (1-based rows; rows beyond mi are rows of vl). *)
Theorem C08_tuple_sort : forall (R : Type) (DI DL mi ml md : nat)
  (Ai Al : list (list N)) (Ad : list (list R)) keys perm0 wlo whi w n,
  length Ai = n -> length Al = n -> length Ad = n -> length perm0 = n ->
  length wlo = n -> length whi = n -> length w = n ->
  (forall c, In c Ai -> length c = mi) -> (forall c, In c Al -> length c = ml) ->
  (forall c, In c Ad -> length c = md) ->
  keys <> [] -> (forall k, In k keys -> (1 <= k <= Z.of_nat (mi + ml))%Z) ->
  (forall c v, In c Ai -> In v c -> (v < 2 ^ (8 * N.of_nat DI))%N) ->
  (forall c v, In c Al -> In v c -> (v < 2 ^ (8 * N.of_nat DL))%N) ->
  exists p Bi Bl Bd, tuple_sort DI DL mi ml md Ai Al Ad keys perm0 wlo whi w = Ok (Bi, Bl, Bd) /\
    is_perm n p /\ rearranged Ai p Bi /\ rearranged Al p Bl /\ rearranged Ad p Bd /\
    stably_sorts (lexicographic (tuple_lts mi keys)) (combine Ai Al) (combine Bi Bl).
Proof. exact (fun R DI DL mi ml md => tuple_sort_ok DI DL mi ml md). Qed.
Print Assumptions C08_tuple_sort.

Theorem C08_tuple_sort_bad_key : forall (R : Type) (DI DL mi ml md : nat)
  (Ai Al : list (list N)) (Ad : list (list R)) keys1 k keys2 perm0 wlo whi w n,
  length Ai = n -> length Al = n -> length perm0 = n ->
  length wlo = n -> length whi = n -> length w = n ->
  (forall c v, In c Ai -> In v c -> (v < 2 ^ (8 * N.of_nat DI))%N) ->
  (forall c v, In c Al -> In v c -> (v < 2 ^ (8 * N.of_nat DL))%N) ->
  ~ (1 <= k <= Z.of_nat (mi + ml))%Z ->
  tuple_sort DI DL mi ml md Ai Al Ad (keys1 ++ k :: keys2) perm0 wlo whi w = Abort.
Proof. exact (fun R DI DL mi ml md => tuple_sort_any_bad_key DI DL mi ml md). Qed.
Print Assumptions C08_tuple_sort_bad_key.

Theorem C08_tuple_sort_no_key : forall (R : Type) (DI DL mi ml md : nat)
  (Ai Al : list (list N)) (Ad : list (list R)) perm0 wlo whi w,
  tuple_sort DI DL mi ml md Ai Al Ad [] perm0 wlo whi w = Ok (Ai, Al, Ad).
Proof. exact (fun R DI DL mi ml md Ai Al Ad perm0 wlo whi w => eq_refl). Qed.
Print Assumptions C08_tuple_sort_no_key.

(** crystal_ituple_sort: one integer array, keys not range-checked by the code. *)
Theorem C08_ituple_sort : forall (DI mi : nat) (Ai : list (list N)) keys perm0 wlo whi w n,
  length Ai = n -> length perm0 = n -> length wlo = n -> length whi = n -> length w = n ->
  (forall c, In c Ai -> length c = mi) ->
  keys <> [] -> (forall k, In k keys -> 1 <= k <= mi) ->
  (forall c v, In c Ai -> In v c -> (v < 2 ^ (8 * N.of_nat DI))%N) ->
  exists Bi, ituple_sort DI Ai keys perm0 wlo whi w = Ok Bi /\
    stably_sorts (lexicographic (map (fun k x y => (nth (k - 1) x 0 <? nth (k - 1) y 0)%N) keys)) Ai Bi.
Proof. exact ituple_sort_ok. Qed.
Print Assumptions C08_ituple_sort.

Example C08_case :
  exists wlo whi w, length wlo = 3 /\ length whi = 3 /\ length w = 3 /\
  tuple_sort 4 8 2 1 1 [[5;1];[3;2];[5;3]]%N [[7];[8];[6]]%N [["a"];["b"];["c"]]%string [1;3]%Z [0;0;0] wlo whi w
  = Ok ([[3;2];[5;3];[5;1]], [[8];[6];[7]], [["b"];["c"];["a"]]%string)%N.
Proof. exact ex_tuple_sort. Qed.
