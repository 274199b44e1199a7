(** C20-C24: transfer of arrays of structs between processes. *)
From Verif Require Import Base Sort Net NetProof Transfer TransferSpec TransferProof TransferProof4.

(** In all theorems: uints of usize bytes, np processes, fewer than INT_MAX bytes in
    messages altogether; [A s] (or [T s]) is what process s passes, [sc s] the old contents
    of its scratch buffers. *)

(** C20: every process ends up with exactly the structs that any process held with
    this process in the uint field at p_off, each as often as it was held; all bytes are
    unchanged except that, with set_src, the field holds the process the struct came from. *)
Theorem C20_sarray_transfer usize INT_MAX np size p_off (set_src : bool)
    (A : nat -> list row) (sc : nat -> scratch) :
  1 <= usize -> np < 256 ^ usize -> INT_MAX <= 256 ^ usize ->
  p_off + usize <= size -> usize < size ->
  (forall s, s < np -> rows_of size (A s)) ->
  (forall s r, s < np -> In r (A s) -> field usize p_off r < np) ->
  (forall s, s < np -> scratch_for usize (length (A s)) (words_for usize (size - usize)) (sc s)) ->
  total np A * (words_for usize (size - usize) + 3) * usize < INT_MAX ->
  exists out : nat -> list row,
    (forall r, r < np -> Permutation (out r)
       (sent_to np r (field usize p_off)
          (fun s x => if set_src then set_field usize p_off s x else x) A)) /\
    always_returns
      (map (fun s => sarray_transfer usize INT_MAX np s size p_off set_src (A s) (sc s)) (seq 0 np))
      (map out (seq 0 np)).
Proof.
  intros H1 H2 H3 H4 H5 H6 H7 H8 H9.
  destruct (transfer_goes usize INT_MAX np size p_off H1 H2 H3 H4 H5 set_src A sc H6 H7 H8 H9) as (out & Ho & G).
  exists out. split; [exact Ho|]. exact (goes_always_fun _ np out G).
Qed.
Print Assumptions C20_sarray_transfer.

(** Reading the field of a struct whose field was set gives the value set; all bytes
    outside the field are unchanged. *)
Theorem C20_set_field usize p_off v r : p_off + usize <= length r -> v < 256 ^ usize ->
  field usize p_off (set_field usize p_off v r) = v /\
  length (set_field usize p_off v r) = length r /\
  forall i, i < p_off \/ p_off + usize <= i -> nth_error (set_field usize p_off v r) i = nth_error r i.
Proof.
  intros H1 H2. split; [apply field_set; auto|]. split; [apply set_field_length; auto|].
  intros i Hi. unfold set_field.
  assert (L1 : length (firstn p_off r) = p_off) by (rewrite firstn_length; lia).
  rewrite <- (firstn_skipn p_off r) at 3. destruct (Nat.lt_ge_cases i p_off).
  - rewrite !nth_error_app1 by lia. auto.
  - assert (p_off + usize <= i) by lia.
    rewrite app_assoc, nth_error_app2 by (rewrite app_length, L1, enc_length; lia).
    rewrite (nth_error_app2 _ (skipn p_off r)) by lia. rewrite app_length, L1, enc_length.
    assert (L2 : length (firstn usize (skipn p_off r)) = usize) by (rewrite firstn_length, skipn_length; lia).
    rewrite <- (firstn_skipn usize (skipn p_off r)).
    rewrite nth_error_app2 by lia. rewrite L2, skipn_skipn_add. f_equal. lia.
Qed.
Print Assumptions C20_set_field.

(** C21: a second transfer with set_src brings every struct back: every process has the
    array it started with, up to order. *)
Theorem C21_transfer_twice usize INT_MAX np size p_off
    (A : nat -> list row) (sc1 : nat -> scratch) (sc2 : nat -> nat -> scratch) :
  1 <= usize -> np < 256 ^ usize -> INT_MAX <= 256 ^ usize ->
  p_off + usize <= size -> usize < size ->
  (forall s, s < np -> rows_of size (A s)) ->
  (forall s r, s < np -> In r (A s) -> field usize p_off r < np) ->
  (forall s, s < np -> scratch_for usize (length (A s)) (words_for usize (size - usize)) (sc1 s)) ->
  (forall s n, s < np -> scratch_for usize n (words_for usize (size - usize)) (sc2 s n)) ->
  total np A * (words_for usize (size - usize) + 3) * usize < INT_MAX ->
  exists out : nat -> list row,
    (forall r, r < np -> Permutation (out r) (A r)) /\
    always_returns
      (map (fun s => pbind (sarray_transfer usize INT_MAX np s size p_off true (A s) (sc1 s)) (fun A1 =>
                     sarray_transfer usize INT_MAX np s size p_off true A1 (sc2 s (length A1)))) (seq 0 np))
      (map out (seq 0 np)).
Proof.
  intros H1 H2 H3 H4 H5 H6 H7 H8 H9 H10.
  destruct (transfer_twice_goes usize INT_MAX np size p_off H1 H2 H3 H4 H5 A sc1 sc2 H6 H7 H8 H9 H10) as (out & Ho & G).
  exists out. split; [exact Ho|]. exact (goes_always_fun _ np out G).
Qed.
Print Assumptions C21_transfer_twice.

(** C22: sarray_transfer_ext: struct i of process s goes to process proc_s[i], all bytes
    unchanged. *)
Theorem C22_sarray_transfer_ext usize INT_MAX np size (A : nat -> list row)
    (proc : nat -> list nat) (sc : nat -> scratch) :
  1 <= usize -> np < 256 ^ usize -> INT_MAX <= 256 ^ usize -> 1 <= size ->
  (forall s, s < np -> rows_of size (A s)) ->
  (forall s, s < np -> length (proc s) = length (A s)) ->
  (forall s p, s < np -> In p (proc s) -> p < np) ->
  (forall s, s < np -> scratch_for usize (length (A s)) (words_for usize size) (sc s)) ->
  total np A * (words_for usize size + 3) * usize < INT_MAX ->
  exists out : nat -> list row,
    (forall r, r < np -> Permutation (out r)
       (sent_to np r fst (fun _ x => snd x) (fun s => combine (proc s) (A s)))) /\
    always_returns
      (map (fun s => sarray_transfer_ext usize INT_MAX np s size (proc s) (A s) (sc s)) (seq 0 np))
      (map out (seq 0 np)).
Proof.
  intros H1 H2 H3 H4 H5 H6 H7 H8 H9.
  destruct (transfer_ext_goes usize INT_MAX np size A proc sc H1 H2 H3 H4 H5 H6 H7 H8 H9) as (out & Ho & G).
  exists out. split; [exact Ho|]. exact (goes_always_fun _ np out G).
Qed.
Print Assumptions C22_sarray_transfer_ext.

(** C23: sarray_transfer_many with any number of arrays, given by their columns (a column
    is struct i of every array, with its target): what arrives are whole columns, and the
    value returned is their number.  For ext = 0 the uint at p_off of the first struct of
    the column is the target (and is the source on arrival if set_src is set). *)
Theorem C23_columns_stay_together usize INT_MAX np sizes (maxs : nat -> list nat) fixed ext set_src p_off
    (T : nat -> list (nat * list row)) (sc : nat -> scratch) :
  1 <= usize -> np < 256 ^ usize -> INT_MAX <= 256 ^ usize -> sizes <> [] ->
  1 <= payload usize ext sizes ->
  (ext = false -> p_off + usize <= hd 0 sizes) ->
  (forall s, s < np -> columns_ok usize np ext p_off sizes (T s)) ->
  (forall s, s < np -> scratch_for usize (length (T s)) (words_for usize (payload usize ext sizes)) (sc s)) ->
  total np T * (words_for usize (payload usize ext sizes) + 3) * usize < INT_MAX ->
  (fixed = true -> forall r, r < np -> length (maxs r) = length sizes /\
    (forall m, In m (maxs r) -> length (sent_to np r fst (fun _ c => c) T) <= m) /\
    exists m, In m (maxs r) /\ m * words_for usize (payload usize ext sizes) < 256 ^ usize) ->
  exists out : nat -> list (list row),
    (forall r, r < np -> Permutation (out r) (sent_to np r fst (retag usize ext set_src p_off) T)) /\
    always_returns
      (map (fun s => sarray_transfer_many usize INT_MAX np s sizes (maxs s) fixed ext set_src p_off
                (map fst (T s)) (arrays (length sizes) (map snd (T s))) (sc s)) (seq 0 np))
      (map (fun r => (length (out r), arrays (length sizes) (out r))) (seq 0 np)).
Proof.
  intros H1 H2 H3 H4 H5 H6 H7 H8 H9 H10.
  destruct (many_goes usize INT_MAX np sizes maxs fixed ext set_src p_off T sc H1 H2 H3 H4 H5 H6 H7 H8 H9 H10)
    as (out & Ho & G).
  exists out. split; [exact Ho|]. exact (goes_always_fun _ np _ G).
Qed.
Print Assumptions C23_columns_stay_together.

(** C24, as documented in fcrystal.c for the Fortran routine crystal_tuple_transfer: the
    value returned in n is the number of columns that arrived; the first max of them are
    in the arrays, the others are lost. *)
Definition tuple_sizes (usize lsize dsize mi ml md : nat) : list nat := [mi * usize; ml * lsize; md * dsize].

Definition C24_as_documented : Prop :=
  forall usize INT_MAX np lsize dsize mi ml md max key (T : nat -> list (list row)) (sc : nat -> scratch),
  let sizes := tuple_sizes usize lsize dsize mi ml md in
  let p_off := (key - 1) * usize in
  let target c := field usize p_off (nth 0 c []) in
  1 <= usize -> np < 256 ^ usize -> INT_MAX <= 256 ^ usize ->
  1 <= key <= mi -> 1 <= payload usize false sizes ->
  (forall s c, s < np -> In c (T s) -> target c < np /\ Forall2 (fun r k => length r = k) c sizes) ->
  (forall s, s < np -> scratch_for usize (length (T s)) (words_for usize (payload usize false sizes)) (sc s)) ->
  total np T * (words_for usize (payload usize false sizes) + 3) * usize < INT_MAX ->
  max * words_for usize (payload usize false sizes) < 256 ^ usize ->
  exists out : nat -> list (list row),
    (forall r, r < np -> Permutation (out r)
       (sent_to np r target (fun s c => set_field usize p_off s (nth 0 c []) :: tl c) T)) /\
    always_returns
      (map (fun s => tuple_transfer usize INT_MAX np s lsize dsize mi ml md max key
                       (map (fun c => nth 0 c []) (T s)) (map (fun c => nth 1 c []) (T s))
                       (map (fun c => nth 2 c []) (T s)) (sc s)) (seq 0 np))
      (map (fun r => (length (out r), arrays 3 (firstn max (out r)))) (seq 0 np)).

(** This is false: one process that sends two columns to itself with capacity 1
    overruns its arrays ([Stop]: undefined behaviour). *)
Theorem C24_refuted : ~ C24_as_documented.
Proof.
  intros H.
  set (T := fun s : nat => [[[0; 7]; []; []]; [[0; 8]; []; []]] : list (list row)).
  set (sc := fun s : nat => Scratch [0; 0] [SD 0%N 0; SD 0%N 0] [SD 0%N 0; SD 0%N 0] [0; 0] (repeat 0 20)).
  destruct (H 1 200 1 1 1 2 0 0 1 1 T sc) as (out & _ & n & Hn).
  - lia.
  - simpl; lia.
  - vm_compute. lia.
  - lia.
  - vm_compute. lia.
  - intros s c Hs [<-|[<-|[]]]; (split; [vm_compute; lia|repeat constructor]).
  - intros s Hs. vm_compute. repeat split; lia.
  - vm_compute. lia.
  - vm_compute. lia.
  - destruct (Hn [] _ eq_refl) as (rest & fin & He & Hf & _).
    cbn [seq map] in He.
    assert (E : tuple_transfer 1 200 1 0 1 1 2 0 0 1 1
      (map (fun c => nth 0 c []) (T 0)) (map (fun c => nth 1 c []) (T 0)) (map (fun c => nth 2 c []) (T 0)) (sc 0) = Stop)
      by (vm_compute; reflexivity).
    rewrite E in He. clear -He Hf.
    destruct rest as [|p rest].
    + cbn in He. injection He as <-. discriminate.
    + cbn in He. destruct p as [|[|p]]; cbn in He; discriminate.
Qed.
Print Assumptions C24_refuted.

(** It holds whenever at most max columns arrive at every process. *)
Theorem C24_within_capacity usize INT_MAX np lsize dsize mi ml md max key
    (T : nat -> list (list row)) (sc : nat -> scratch) :
  let sizes := tuple_sizes usize lsize dsize mi ml md in
  let p_off := (key - 1) * usize in
  let target c := field usize p_off (nth 0 c []) in
  1 <= usize -> np < 256 ^ usize -> INT_MAX <= 256 ^ usize ->
  1 <= key <= mi -> 1 <= payload usize false sizes ->
  (forall s c, s < np -> In c (T s) -> target c < np /\ Forall2 (fun r k => length r = k) c sizes) ->
  (forall s, s < np -> scratch_for usize (length (T s)) (words_for usize (payload usize false sizes)) (sc s)) ->
  total np T * (words_for usize (payload usize false sizes) + 3) * usize < INT_MAX ->
  max * words_for usize (payload usize false sizes) < 256 ^ usize ->
  (forall r, r < np -> length (sent_to np r target (fun _ c => c) T) <= max) ->
  exists out : nat -> list (list row),
    (forall r, r < np -> Permutation (out r)
       (sent_to np r target (fun s c => set_field usize p_off s (nth 0 c []) :: tl c) T)) /\
    always_returns
      (map (fun s => tuple_transfer usize INT_MAX np s lsize dsize mi ml md max key
                       (map (fun c => nth 0 c []) (T s)) (map (fun c => nth 1 c []) (T s))
                       (map (fun c => nth 2 c []) (T s)) (sc s)) (seq 0 np))
      (map (fun r => (length (out r), arrays 3 (firstn max (out r)))) (seq 0 np)).
Proof.
  intros sizes p_off target H1 H2 H3 H4 H5 H6 H7 H8 H9 H10.
  destruct (tuple_transfer_goes usize INT_MAX np lsize dsize mi ml md max key H1 H2 H3 H4 H5 T sc H6 H7 H8 H9 H10)
    as (out & Ho & G).
  exists out. split; [exact Ho|].
  replace (map (fun r => (length (out r), arrays 3 (firstn max (out r)))) (seq 0 np))
     with (map (fun r => (length (out r), arrays 3 (out r))) (seq 0 np)).
  - exact (goes_always_fun _ np _ G).
  - apply map_ext_in. intros r Hr. apply in_seq in Hr. rewrite firstn_all2; auto.
    rewrite (Permutation_length (Ho r ltac:(lia))). rewrite (sent_to_length (fun _ c => c)). apply H10. lia.
Qed.
Print Assumptions C24_within_capacity.

(** sarray_transfer of structs that consist of the uint field only divides by zero. *)
Theorem C20_needs_payload_refuted :
  exists A sc, rows_of 1 A /\ (forall r, In r A -> field 1 0 r < 1) /\
    scratch_for 1 (length A) 0 sc /\
    forall rest fin, exec (start [sarray_transfer 1 200 1 0 1 0 true A sc]) rest = Some fin ->
      forall r, ~ finished fin r.
Proof.
  exists [[0]], (Scratch [0] [SD 0%N 0] [SD 0%N 0] [0] (repeat 0 3)).
  split; [intros r [<-|[]]; split; auto; intros b [<-|[]]; lia|].
  split; [intros r [<-|[]]; vm_compute; lia|].
  split; [vm_compute; repeat split; lia|].
  intros rest fin He r Hf.
  assert (E : sarray_transfer 1 200 1 0 1 0 true [[0]] (Scratch [0] [SD 0%N 0] [SD 0%N 0] [0] (repeat 0 3)) = Stop)
    by (vm_compute; reflexivity).
  rewrite E in He. clear -He Hf.
  destruct rest as [|[p b] rest].
  + cbn in He. injection He as <-. destruct r as [|? [|]]; discriminate.
  + cbn in He. destruct p as [|[|p]]; cbn in He; discriminate.
Qed.
Print Assumptions C20_needs_payload_refuted.

(** Two processes, structs of a 1-byte uint at offset 1 between other bytes. *)
Example C20_example :
  let A := fun s : nat => match s with
     | 0 => [[10; 1; 11]; [12; 0; 13]; [14; 1; 15]] | _ => [[20; 0; 21]; [22; 0; 23]] end in
  let sc := fun s => Scratch (repeat 0 (length (A s))) (repeat (SD 0%N 0) (length (A s))) (repeat (SD 0%N 0) (length (A s)))
     (repeat 0 (length (A s))) (repeat 0 (length (A s) * 5)) in
  (forall s, s < 2 -> rows_of 3 (A s)) /\
  (forall s r, s < 2 -> In r (A s) -> field 1 1 r < 2) /\
  (forall s, s < 2 -> scratch_for 1 (length (A s)) (words_for 1 (3 - 1)) (sc s)) /\
  total 2 A * (words_for 1 (3 - 1) + 3) * 1 < 200 /\
  exists fin, exec (start (map (fun s => sarray_transfer 1 200 2 s 3 1 true (A s) (sc s)) (seq 0 2)))
     (unbuffered [0;1;0;1;0;1;0;1]) = Some fin /\
    finished fin [ [[12; 0; 13]; [20; 1; 21]; [22; 1; 23]]; [[10; 0; 11]; [14; 0; 15]] ].
Proof.
  cbv zeta. split; [|split; [|split; [|split]]].
  - intros [|[|s]] Hs r Hr; try lia; simpl in Hr; intuition subst; simpl; auto; intuition lia.
  - intros [|[|s]] r Hs Hr; try lia; simpl in Hr; intuition subst; vm_compute; lia.
  - intros [|[|s]] Hs; try lia; vm_compute; repeat split; lia.
  - vm_compute. lia.
  - eexists. split; [vm_compute; reflexivity|]. reflexivity.
Qed.

(** Two arrays (structs of 2 bytes and of 1 byte), fixed capacity 3, target in the first. *)
Example C23_example :
  let T := fun s : nat => match s with
     | 0 => [(1, [[10; 1]; [30]]); (0, [[12; 0]; [31]])] | _ => [(1, [[20; 1]; [32]])] end in
  let sc := fun s => Scratch (repeat 0 (length (T s))) (repeat (SD 0%N 0) (length (T s))) (repeat (SD 0%N 0) (length (T s)))
     (repeat 0 (length (T s))) (repeat 0 (length (T s) * 5)) in
  (forall s, s < 2 -> columns_ok 1 2 false 1 [2; 1] (T s)) /\
  exists fin, exec (start (map (fun s => sarray_transfer_many 1 200 2 s [2; 1] [3; 3] true false false 1
       (map fst (T s)) (arrays 2 (map snd (T s))) (sc s)) (seq 0 2)))
     (unbuffered [0;1;0;1;0;1;0;1]) = Some fin /\
    finished fin [(1, [ [[12; 0]]; [[31]] ]); (2, [ [[20; 1]; [10; 1]]; [[32]; [30]] ])].
Proof.
  cbv zeta. split.
  - intros [|[|s]] Hs c Hc; try lia; simpl in Hc; intuition subst; simpl; repeat constructor.
  - eexists. split; [vm_compute; reflexivity|]. reflexivity.
Qed.
