(** C61: comm_scan with any operation. *)
From Verif Require Import Base Net NetProof CommProof Comm BracketSpec HalvingSpec HalvingRound ScanSpec ScanProof ScanRound.
From Coq Require Import Permutation Reals Lra.

(** Process p gets, in every execution and for every operation, a combination of the values of the processes before it
    and then the combination of all (the same on every process). *)
Theorem C61_comm_scan {T} (op : T -> T -> T) (e : T) np vn (v scan buffer : nat -> list T) : 1 <= np ->
  (forall p, p < np -> length (v p) = vn /\ length (scan p) = 2 * vn /\ length (buffer p) = 2 * vn) ->
  let element i x := eval op e (fun q _ _ => nth i (v q) e) x in
  always_returns (map (fun p => comm_scan op e np p vn (v p) (scan p) (buffer p)) (seq 0 np))
    (map (fun p => map (fun i => element i (prefix np 0 np p Identity)) (seq 0 vn) ++
                   map (fun i => element i (halving np 0 np)) (seq 0 vn)) (seq 0 np)).
Proof. intros Hnp Hl. exact (goes_always_fun _ np _ (scan_goes_any op e np vn v scan buffer Hnp Hl)). Qed.
Print Assumptions C61_comm_scan.

(** It uses every process before p once, and passes each value through at most 2 log2 np - 1 operations (log2 rounded up, np > 1). *)
Theorem C61_scan_order np p : p < np -> Permutation (map (fun c => fst (fst c)) (leaves (prefix np 0 np p Identity))) (seq 0 p).
Proof. intros H. pose proof (prefix_leaves np 0 np p Identity (le_n np) ltac:(lia)) as P. rewrite Nat.sub_0_r in P. exact P. Qed.
Theorem C61_scan_depth np p : depth (prefix np 0 np p Identity) <= Nat.log2_up np + (Nat.log2_up np - 1).
Proof. pose proof (prefix_depth _ np 0 np p Identity (log2_up_pow np)) as P. cbn [depth] in P. lia. Qed.
Print Assumptions C61_scan_order.
Print Assumptions C61_scan_depth.
(** But not in the order of the processes: with four, the last gets v2 (v0 v1), and an associative operation that does not
    commute does not give the scan. *)
Theorem C61_scan_in_order_refuted :
  always_returns (map (fun p => comm_scan (@app nat) [] 4 p 1 [[p]] [[]; []] [[]; []]) (seq 0 4))
    [[[]; [0; 1; 2; 3]]; [[0]; [0; 1; 2; 3]]; [[0; 1]; [0; 1; 2; 3]]; [[2; 0; 1]; [0; 1; 2; 3]]].
Proof. exact (C61_comm_scan (@app nat) [] 4 1 (fun p => [[p]]) (fun _ => [[]; []]) (fun _ => [[]; []]) ltac:(lia) (fun _ _ => conj eq_refl (conj eq_refl eq_refl))). Qed.
Print Assumptions C61_scan_in_order_refuted.

(** Rounded addition with relative error at most eps. *)
Theorem C61_scan_rounding (op : R -> R -> R) (eps : R) np vn (v scan buffer : nat -> list R) :
  (0 <= eps)%R -> (forall a b, Rabs (op a b - (a + b)) <= eps * Rabs (a + b))%R -> 1 <= np ->
  (forall p, p < np -> length (v p) = vn /\ length (scan p) = 2 * vn /\ length (buffer p) = 2 * vn) ->
  exists s t, always_returns (map (fun p => comm_scan op 0%R np p vn (v p) (scan p) (buffer p)) (seq 0 np)) (map (fun p => s p ++ t) (seq 0 np)) /\
  length t = vn /\
  forall p i, p < np -> i < vn -> length (s p) = vn /\
    let V := map (fun q => nth i (v q) 0%R) (seq 0 p) in let W := map (fun q => nth i (v q) 0%R) (seq 0 np) in let l := Nat.log2_up np in
    (Rabs (nth i (s p) 0 - fold_right Rplus 0 V) <= ((1 + eps) ^ (l + (l - 1)) - 1) * fold_right Rplus 0 (map Rabs V))%R /\
    (Rabs (nth i t 0 - fold_right Rplus 0 W) <= ((1 + eps) ^ l - 1) * fold_right Rplus 0 (map Rabs W))%R.
Proof.
  intros He Ho Hnp Hl. do 2 eexists. split; [exact (C61_comm_scan op 0%R np vn v scan buffer Hnp Hl)|]. split; [rewrite map_length, seq_length; auto|].
  intros p i Hp Hi. split; [rewrite map_length, seq_length; auto|]. intros V W l. set (x := fun q => nth i (v q) 0%R).
  assert (N : forall y, nth i (map (fun i => eval op 0%R (fun q _ _ : nat => nth i (v q) 0%R) y) (seq 0 vn)) 0%R = eval op 0%R (fun q _ _ => x q) y).
  { intros y. set (f := fun i => eval op 0%R (fun q _ _ : nat => nth i (v q) 0%R) y). rewrite (nth_indep _ 0%R (f 0)) by (rewrite map_length, seq_length; auto).
    rewrite map_nth, seq_nth by auto. reflexivity. }
  rewrite !N. unfold V, W. rewrite !map_map. split.
  - assert (Z : near eps 0 (eval op 0%R (fun q _ _ => x q) Identity) 0%R 0%R). { pose proof (near_exact eps 0%R) as Z. rewrite Rabs_R0 in Z. exact Z. }
    pose proof (prefix_near eps He op Ho 0%R x l np 0 np p Identity 0 0%R 0%R (le_n np) (log2_up_pow np) ltac:(lia) Z) as [_ B].
    rewrite !Rplus_0_l, Nat.max_0_r, Nat.sub_0_r in B. exact B.
  - pose proof (halving_near eps He op Ho 0%R x x (fun q => Rabs (x q)) 0 l np 0 np Hnp (le_n np) (log2_up_pow np) (fun q _ => near_exact eps _)) as [_ B].
    rewrite Nat.add_0_r in B. exact B.
Qed.
Print Assumptions C61_scan_rounding.

(** Five processes: the fourth gets v2 (v0 v1). *)
Example ex_prefix : prefix 5 0 5 3 Identity = Combine (Value 2 0 0) (Combine (Combine (Value 0 0 0) (Value 1 0 0)) Identity).
Proof. reflexivity. Qed.
Example ex_scan : always_returns (map (fun p => comm_scan Z.sub 0%Z 3 p 1 [Z.of_nat p + 1]%Z [9; 9]%Z [9; 9]%Z) (seq 0 3)) [[0; 2]; [1; 2]; [1; 2]]%Z.
Proof.
  exact (C61_comm_scan Z.sub 0%Z 3 1 (fun p => [Z.of_nat p + 1]%Z) (fun _ => [9; 9]%Z) (fun _ => [9; 9]%Z) ltac:(lia) (fun _ _ => conj eq_refl (conj eq_refl eq_refl))).
Qed.
