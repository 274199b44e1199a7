(** C09, C10: dynamic arrays, alignment and scratch areas (mem.h). *)
From Verif Require Import Base Mem MemSpec MemProof.

(** C09: array_reserve gives the capacity asked for, never less than before, and keeps the items
    and all bytes of the block; nothing overflows when twice the bytes asked for fit size_t. *)
Theorem C09_reserve : forall M size a min, 1 <= size -> wf M size a -> 2 * min * size < M ->
  let a' := array_reserve M a min size in
  wf M size a' /\ min <= amax a' /\ amax a <= amax a' /\ an a' = an a /\ firstn (amax a * size) (ptr a') = ptr a.
Proof. intros M size a min Hs W Hm. destruct (reserve_ok M size a min Hs W Hm) as (H1 & H2 & H3 & H4 & H5 & _). cbv zeta. auto. Qed.
Print Assumptions C09_reserve.

(** array_cat appends exactly the items given. *)
Theorem C09_cat : forall M size a s n bytes, 1 <= size -> wf M size a -> 2 * (an a + n) * size < M -> n * size <= length s ->
  holds size a bytes ->
  exists a', array_cat M size a s n = Ok a' /\ wf M size a' /\ an a' = an a + n /\ holds size a' (bytes ++ firstn (n * size) s).
Proof. intros M size a s n bytes Hs W Hm Hl B. destruct (cat_ok M size a s n bytes Hs W Hm Hl B) as (a' & H1 & H2 & H3 & _ & H4 & _). eauto 10. Qed.
Print Assumptions C09_cat.

(** Every history of reserve and cat, from an empty array or one made by array_init: no access out
    of the block, the array contains what was appended, in order, and k reallocations need more
    than (3/2)^(k-1) items. *)
Theorem C09_histories : forall M size N max0 ops, 1 <= size -> 2 * N * size < M -> max0 <= N ->
  within size N ops -> items ops <= N ->
  exists a', run M size (array_init M max0 size) ops = Ok a' /\ wf M size a' /\ an a' = items ops /\
    holds size a' (appended size ops) /\
    (reallocs M size (array_init M max0 size) ops = 0 \/
     exists r, reallocs M size (array_init M max0 size) ops = S r /\ 3 ^ r * (max0 + 1) <= 2 ^ r * N).
Proof.
  intros M size N max0 ops Hs HN Hm Hw Hi.
  destruct (run_ok M size N ops (array_init M max0 size) [] Hs HN) as (a' & H1 & H2 & H3 & _ & H4 & H5); auto.
  - unfold wf, array_init. cbn [an amax ptr]. rewrite repeat_length, szt_small by nia. repeat split; nia.
  - split; reflexivity.
  - exists a'. auto 10.
Qed.
Print Assumptions C09_histories.
Theorem C09_null_array : forall M size, array_init M 0 size = null_array.
Proof. intros M size. unfold array_init, null_array, szt. rewrite Nat.mul_0_l. destruct M; [reflexivity|]. rewrite Nat.mod_0_l by lia. reflexivity. Qed.

Example append3 :
  run 100 2 (array_init 100 0 2) [Cat [1; 2] 1; Cat [3; 4; 9] 1; Reserve 3; Cat [5; 6; 7; 8] 2] =
    Ok (Arr (map Some [1; 2; 3; 4; 5; 6; 7; 8]) 4 4) /\
  within 2 4 [Cat [1; 2] 1; Cat [3; 4; 9] 1; Reserve 3; Cat [5; 6; 7; 8] 2] /\
  reallocs 100 2 (array_init 100 0 2) [Cat [1; 2] 1; Cat [3; 4; 9] 1; Reserve 3; Cat [5; 6; 7; 8] 2] = 3.
Proof.
  split; [vm_compute; reflexivity|]. split; [|vm_compute; reflexivity].
  intros o [<-|[<-|[<-|[<-|[]]]]]; cbn; lia.
Qed.
(** Without the bound the sizes wrap around: the block is smaller than the capacity claims. *)
Theorem C09_overflow_refuted : let a := array_reserve 256 (array_init 256 100 2) 130 2 in
  amax a = 151 /\ length (ptr a) = 46 /\ array_cat 256 2 a (repeat 7 260) 130 = Ok (Arr (map Some (repeat 7 4) ++ repeat None 42) 130 151).
Proof. vm_compute. auto. Qed.

(** C10: align_as(a,n) is the least multiple of a that is at least n. *)
Theorem C10_align : forall M a n, 1 <= a -> n + a < M ->
  Nat.divide a (align_as M a n) /\ n <= align_as M a n /\ (forall k, Nat.divide a k -> n <= k -> align_as M a n <= k).
Proof. intros M a n Ha H. destruct (align_spec M a n Ha H) as (H1 & [H2 _] & H3). auto. Qed.
Print Assumptions C10_align.

(** The scratch areas are aligned, inside the buffer that was reserved, and do not overlap. *)
Theorem C10_permute : forall M usize align size n, 1 <= align -> Nat.divide align size -> n * usize + size + 2 * align < M ->
  let l := permute_layout M usize align size n in
  fits l /\ Forall2 (fun al a => Nat.divide al (fst a)) [usize; align] (areas l) /\ map snd (areas l) = [n * usize; size].
Proof.
  intros M usize align size n Ha [k ->] H. cbv zeta. unfold permute_layout, fits. cbn [reserved areas in_order map fst snd].
  rewrite (szt_small M (n * usize)) by lia. rewrite (szt_small M (n * usize + _)) by lia.
  destruct (align_spec M align (n * usize) Ha ltac:(lia)) as (D1 & L1 & G1).
  destruct (align_spec M align (n * usize + k * align) Ha ltac:(lia)) as ([j Hj] & L2 & G2).
  assert (E : align_as M align (n * usize) + k * align <= align_as M align (n * usize + k * align)).
  { rewrite Hj in *. assert (k <= j) by (destruct (Nat.le_gt_cases k j); auto; nia).
    assert (align_as M align (n * usize) <= (j - k) * align); [|nia]. apply G1; [exists (j - k); auto|]. rewrite Nat.mul_sub_distr_r. lia. }
  split; [repeat split; try lia|]. split; [|auto]. repeat constructor; auto. apply Nat.divide_0_r.
Qed.
Print Assumptions C10_permute.

Theorem C10_sortv : forall M usize ualign tsize cbytes n, 1 <= ualign -> n * tsize + ualign + cbytes < M -> 
  let l := sortv_layout M ualign tsize cbytes n in
  fits l /\ Forall2 (fun al a => Nat.divide al (fst a)) [usize; ualign] (areas l) /\ map snd (areas l) = [n * tsize; cbytes].
Proof.
  intros M usize ualign tsize cbytes n Hu H. cbv zeta. unfold sortv_layout, fits. cbn [reserved areas in_order map fst snd].
  rewrite (szt_small M (n * tsize)) by lia. destruct (align_spec M ualign (n * tsize) Hu ltac:(lia)) as (D1 & L1 & G1).
  rewrite szt_small by lia. split; [repeat split; lia|]. split; [|auto]. repeat constructor; auto. apply Nat.divide_0_r.
Qed.
Print Assumptions C10_sortv.

Theorem C10_sortp_merge : forall M usize dalign dsize n, 1 <= dalign -> n * usize + dalign + 2 * n * dsize < M ->
  let l := sortp_merge_layout M usize dalign dsize n in
  fits l /\ Forall2 (fun al a => Nat.divide al (fst a)) [usize; dalign] (areas l) /\ map snd (areas l) = [n * usize; 2 * n * dsize].
Proof.
  intros M usize dalign dsize n Hd H. cbv zeta. unfold sortp_merge_layout, fits. cbn [reserved areas in_order map fst snd].
  rewrite (szt_small M (n * usize)) by lia. destruct (align_spec M dalign (n * usize) Hd ltac:(lia)) as (D1 & L1 & G1).
  rewrite (szt_small M (2 * n * dsize)) by lia. rewrite szt_small by lia. split; [repeat split; lia|]. split; [|auto]. repeat constructor; auto. apply Nat.divide_0_r.
Qed.
Print Assumptions C10_sortp_merge.

Theorem C10_sortp_radix : forall M usize ualign dalign dsize cbytes n, 1 <= dalign -> 1 <= ualign ->
  n * usize + dalign + 2 * n * dsize + ualign + cbytes < M ->
  let l := sortp_radix_layout M usize ualign dalign dsize cbytes n in
  fits l /\ Forall2 (fun al a => Nat.divide al (fst a)) [usize; dalign; ualign] (areas l) /\
  map snd (areas l) = [n * usize; 2 * n * dsize; cbytes].
Proof.
  intros M usize ualign dalign dsize cbytes n Hd Hu H. cbv zeta. unfold sortp_radix_layout, fits. cbn [reserved areas in_order map fst snd].
  rewrite (szt_small M (n * usize)) by lia. destruct (align_spec M dalign (n * usize) Hd ltac:(lia)) as (D1 & L1 & G1).
  rewrite (szt_small M (2 * n * dsize)) by lia. rewrite (szt_small M (align_as M dalign (n * usize) + 2 * n * dsize)) by lia.
  destruct (align_spec M ualign (align_as M dalign (n * usize) + 2 * n * dsize) Hu ltac:(lia)) as (D2 & L2 & G2).
  rewrite szt_small by lia. split; [repeat split; lia|]. split; [|auto]. repeat constructor; auto. apply Nat.divide_0_r.
Qed.
Print Assumptions C10_sortp_radix.

Example layouts : permute_layout 1000 4 8 24 3 = Layout 40 [(0, 12); (16, 24)] /\
  sortp_radix_layout 10000 4 4 8 16 256 3 = Layout 368 [(0, 12); (16, 96); (112, 256)].
Proof. vm_compute. auto. Qed.
(** The item area of sarray_permute_buf_ needs sizes that are multiples of the alignment (as for
    all C types): otherwise it may end behind the buffer. *)
Theorem C10_unaligned_size_refuted : permute_layout 1000 4 8 4 1 = Layout 8 [(0, 4); (8, 4)] /\ ~ fits (permute_layout 1000 4 8 4 1).
Proof. split; [vm_compute; reflexivity|]. intros H. vm_compute in H. lia. Qed.
