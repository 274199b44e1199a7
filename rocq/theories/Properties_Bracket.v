(** C60: gather-scatter with any operation, associative and commutative or not, such as the addition of doubles. *)
From Coq Require Import Reals Lra.
From Verif Require Import Base BaseLemmas Net NetProof GsTop GsSpec GsExec Gs GsUserSpec GsUserProof BracketSpec BracketProof2 BracketRound BracketFew.
From Coq Require Import Permutation.

(** Settings as for C25-C33 (Properties_Gs.v), but nothing is assumed of op and e.  The expressions tr do not depend
    on the type, the operation or the values: they depend on the ids, the handles and transpose only. *)
Section Properties.
Variable usize lsize INT_MAX np : nat.
Variable ids : nat -> list Z.

(** gs returns on every process and in every execution, and entry i of process p is then the value of an expression
    that combines each of the contributors' values exactly once (and possibly identities). *)
Theorem C60_gs m hs transpose : setup_fits usize lsize INT_MAX np ids -> setup_gives usize lsize INT_MAX np ids false m hs ->
  exists tr : nat -> nat -> expr,
  (forall p i, p < np -> i < length (ids p) -> Permutation (leaves (tr p i)) (map (fun c => (fst c, snd c, 0)) (contributors np ids transpose p i))) /\
  forall (T : Type) (op : T -> T -> T) (e : T) u, (forall p, p < np -> length (u p) = length (ids p)) ->
    gs_gives usize np op e transpose hs u (fun p => map (fun i => eval op e (fun q j _ => nth j (u q) e) (tr p i)) (seq 0 (length (ids p)))).
Proof. intros F G. exact (bracket_gs usize np ids hs (setup_handle _ _ _ _ _ _ _ F G) transpose). Qed.
(** The same for gs_vec, component by component. *)
Theorem C60_gs_vec m hs transpose vn : setup_fits usize lsize INT_MAX np ids -> setup_gives usize lsize INT_MAX np ids false m hs -> 1 <= vn ->
  exists tr : nat -> nat -> nat -> expr,
  (forall p i k, p < np -> i < length (ids p) -> k < vn -> Permutation (leaves (tr p i k)) (map (fun c => (fst c, snd c, k)) (contributors np ids transpose p i))) /\
  forall (T : Type) (op : T -> T -> T) (e : T) u, (forall p, p < np -> length (u p) = length (ids p) * vn) ->
    gs_vec_gives usize np op e vn transpose hs u (fun p => map (fun m => eval op e (fun q j k => nth (j * vn + k) (u q) e) (tr p (m / vn) (m mod vn))) (seq 0 (length (ids p) * vn))).
Proof. intros F G. exact (bracket_vec usize np ids hs (setup_handle _ _ _ _ _ _ _ F G) transpose vn). Qed.
(** And for gs_many. *)
Theorem C60_gs_many m hs transpose vn : setup_fits usize lsize INT_MAX np ids -> setup_gives usize lsize INT_MAX np ids false m hs -> 1 <= vn ->
  exists tr : nat -> nat -> nat -> expr,
  (forall p i k, p < np -> i < length (ids p) -> k < vn -> Permutation (leaves (tr p i k)) (map (fun c => (fst c, snd c, k)) (contributors np ids transpose p i))) /\
  forall (T : Type) (op : T -> T -> T) (e : T) u, (forall p, p < np -> length (u p) = vn /\ forall l, In l (u p) -> length l = length (ids p)) ->
    gs_many_gives usize np op e vn transpose hs u (fun p => map (fun k => map (fun i => eval op e (fun q j k => nth j (nth k (u q) []) e) (tr p i k)) (seq 0 (length (ids p)))) (seq 0 vn)).
Proof. intros F G. exact (bracket_many usize np ids hs (setup_handle _ _ _ _ _ _ _ F G) transpose vn). Qed.

(** On one process the entries of a group come out identical, whatever the operation: for transpose = 0 all of them,
    for transpose = 1 the unflagged ones. *)
Theorem C60_copies_on_one_process {T} (op : T -> T -> T) (e : T) m hs transpose u w p i j :
  setup_fits usize lsize INT_MAX np ids -> setup_gives usize lsize INT_MAX np ids false m hs ->
  (forall p, p < np -> length (u p) = length (ids p)) -> gs_gives usize np op e transpose hs u w ->
  p < np -> i < length (ids p) -> j < length (ids p) -> nth i (ids p) 0%Z <> 0%Z ->
  (if transpose then nth i (ids p) 0%Z = nth j (ids p) 0%Z /\ (0 < nth i (ids p) 0)%Z
   else Z.abs (nth i (ids p) 0%Z) = Z.abs (nth j (ids p) 0%Z)) ->
  nth_error (w p) i = nth_error (w p) j.
Proof. intros F G Hu Gw Hp Hi Hj N S. apply (copies_gs usize np ids hs (setup_handle _ _ _ _ _ _ _ F G) transpose op e u w); auto. split; auto. Qed.
Theorem C60_copies_on_one_process_vec {T} (op : T -> T -> T) (e : T) m hs transpose vn u w p i j k :
  setup_fits usize lsize INT_MAX np ids -> setup_gives usize lsize INT_MAX np ids false m hs -> 1 <= vn ->
  (forall p, p < np -> length (u p) = length (ids p) * vn) -> gs_vec_gives usize np op e vn transpose hs u w ->
  p < np -> i < length (ids p) -> j < length (ids p) -> k < vn -> nth i (ids p) 0%Z <> 0%Z ->
  (if transpose then nth i (ids p) 0%Z = nth j (ids p) 0%Z /\ (0 < nth i (ids p) 0)%Z
   else Z.abs (nth i (ids p) 0%Z) = Z.abs (nth j (ids p) 0%Z)) ->
  nth_error (w p) (i * vn + k) = nth_error (w p) (j * vn + k).
Proof. intros F G Hv Hu Gw Hp Hi Hj Hk N S. apply (copies_vec usize np ids hs (setup_handle _ _ _ _ _ _ _ F G) transpose op e vn u w p i j k); auto. split; auto. Qed.
Theorem C60_copies_on_one_process_many {T} (op : T -> T -> T) (e : T) m hs transpose vn u w p i j k :
  setup_fits usize lsize INT_MAX np ids -> setup_gives usize lsize INT_MAX np ids false m hs -> 1 <= vn ->
  (forall p, p < np -> length (u p) = vn /\ forall l, In l (u p) -> length l = length (ids p)) -> gs_many_gives usize np op e vn transpose hs u w ->
  p < np -> i < length (ids p) -> j < length (ids p) -> k < vn -> nth i (ids p) 0%Z <> 0%Z ->
  (if transpose then nth i (ids p) 0%Z = nth j (ids p) 0%Z /\ (0 < nth i (ids p) 0)%Z
   else Z.abs (nth i (ids p) 0%Z) = Z.abs (nth j (ids p) 0%Z)) ->
  nth_error (nth k (w p) []) i = nth_error (nth k (w p) []) j.
Proof. intros F G Hv Hu Gw Hp Hi Hj Hk N S. apply (copies_many usize np ids hs (setup_handle _ _ _ _ _ _ _ F G) transpose op e vn u w p i j k); auto. split; auto. Qed.

(** Rounded addition: if op a b differs from a + b by at most eps times |a + b| and adding 0 is exact, then a gs with op
    differs from the exact sum of n contributions by at most ((1 + eps)^(n-1) - 1) times the sum of their absolute values,
    for every method. *)
Theorem C60_rounding (op : R -> R -> R) (eps : R) m hs transpose u :
  (0 <= eps)%R -> (forall a b, Rabs (op a b - (a + b)) <= eps * Rabs (a + b))%R -> (forall x, op 0%R x = x /\ op x 0%R = x) ->
  setup_fits usize lsize INT_MAX np ids -> setup_gives usize lsize INT_MAX np ids false m hs ->
  (forall p, p < np -> length (u p) = length (ids p)) ->
  exists w, gs_gives usize np op 0%R transpose hs u w /\
  forall p i, p < np -> i < length (ids p) ->
    let V := map (fun c => nth (snd c) (u (fst c)) 0%R) (contributors np ids transpose p i) in
    length (w p) = length (ids p) /\
    (Rabs (nth i (w p) 0 - fold_right Rplus 0 V) <= ((1 + eps) ^ (length V - 1) - 1) * fold_right Rplus 0 (map Rabs V))%R.
Proof.
  intros He Ho H0 F G Hu. destruct (C60_gs m hs transpose F G) as (tr & P & R). eexists. split; [exact (R _ op 0%R u Hu)|].
  intros p i Hp Hi V. cbv beta. split; [rewrite map_length, seq_length; auto|].
  set (f := fun i => eval op 0%R (fun q j _ : nat => nth j (u q) 0%R) (tr p i)).
  rewrite (nth_indep _ 0%R (f 0)) by (rewrite map_length, seq_length; auto). rewrite map_nth, seq_nth by auto. cbn [Nat.add]. unfold f.
  pose proof (bracket_bound op eps He Ho (fun x => proj1 (H0 x)) (fun x => proj2 (H0 x)) (fun q j _ => nth j (u q) 0%R) _ _ (P p i Hp Hi)) as B.
  rewrite !map_map in B. cbn [fst snd] in B. unfold V. rewrite !map_length in *. rewrite map_map. exact B.
Qed.
(** With at most two contributions and an operation that commutes and has e as neutral element, associative or not (addition of
    doubles, up to the sign of a zero), nothing is left to the bracketing: an entry without contributions becomes e, one with one gets
    that value, one with two gets op of them, on every process and with every method.  So copies shared by two entries agree exactly. *)
Theorem C60_one_or_two {T} (op : T -> T -> T) (e : T) m hs transpose u : (forall a b, op a b = op b a) -> (forall a, op e a = a) ->
  setup_fits usize lsize INT_MAX np ids -> setup_gives usize lsize INT_MAX np ids false m hs ->
  (forall p, p < np -> length (u p) = length (ids p)) ->
  exists w, gs_gives usize np op e transpose hs u w /\
  forall p i, p < np -> i < length (ids p) -> let value c := nth (snd c) (u (fst c)) e in
    match contributors np ids transpose p i with
    | [] => nth_error (w p) i = Some e
    | [c] => nth_error (w p) i = Some (value c)
    | [c; d] => nth_error (w p) i = Some (op (value c) (value d))
    | _ => True
    end.
Proof.
  intros C N F G Hu. destruct (C60_gs m hs transpose F G) as (tr & P & R). eexists. split; [exact (R _ op e u Hu)|].
  intros p i Hp Hi value. cbv beta. specialize (P p i Hp Hi). rewrite nth_error_map, seq_nth_error by auto. cbn [option_map Nat.add].
  destruct (contributors np ids transpose p i) as [|c [|d [|d' l]]]; cbn [map] in P; auto; f_equal.
  - apply eval_none; auto.
  - exact (eval_one op e C N _ _ _ P).
  - exact (eval_two op e C N _ _ _ _ P).
Qed.
Theorem C60_one_or_two_vec {T} (op : T -> T -> T) (e : T) m hs transpose vn u : (forall a b, op a b = op b a) -> (forall a, op e a = a) ->
  setup_fits usize lsize INT_MAX np ids -> setup_gives usize lsize INT_MAX np ids false m hs -> 1 <= vn ->
  (forall p, p < np -> length (u p) = length (ids p) * vn) ->
  exists w, gs_vec_gives usize np op e vn transpose hs u w /\
  forall p i k, p < np -> i < length (ids p) -> k < vn -> let value c := nth (snd c * vn + k) (u (fst c)) e in
    match contributors np ids transpose p i with
    | [] => nth_error (w p) (i * vn + k) = Some e
    | [c] => nth_error (w p) (i * vn + k) = Some (value c)
    | [c; d] => nth_error (w p) (i * vn + k) = Some (op (value c) (value d))
    | _ => True
    end.
Proof.
  intros C N F G Hv Hu. destruct (C60_gs_vec m hs transpose vn F G Hv) as (tr & P & R). eexists. split; [exact (R _ op e u Hu)|].
  intros p i k Hp Hi Hk value. cbv beta. specialize (P p i k Hp Hi Hk).
  assert (L : i * vn + k < length (ids p) * vn) by nia. rewrite nth_error_map, seq_nth_error by auto. cbn [option_map Nat.add].
  rewrite (Nat.div_add_l i vn k), (Nat.div_small k vn Hk), Nat.add_0_r, (Nat.add_comm (i * vn) k), Nat.mod_add, (Nat.mod_small k vn Hk) by lia.
  destruct (contributors np ids transpose p i) as [|c [|d [|d' l]]]; cbn [map] in P; auto; f_equal.
  - apply eval_none; auto.
  - exact (eval_one op e C N _ _ _ P).
  - exact (eval_two op e C N _ _ _ _ P).
Qed.
Theorem C60_one_or_two_many {T} (op : T -> T -> T) (e : T) m hs transpose vn u : (forall a b, op a b = op b a) -> (forall a, op e a = a) ->
  setup_fits usize lsize INT_MAX np ids -> setup_gives usize lsize INT_MAX np ids false m hs -> 1 <= vn ->
  (forall p, p < np -> length (u p) = vn /\ forall l, In l (u p) -> length l = length (ids p)) ->
  exists w, gs_many_gives usize np op e vn transpose hs u w /\
  forall p i k, p < np -> i < length (ids p) -> k < vn -> let value c := nth (snd c) (nth k (u (fst c)) []) e in
    match contributors np ids transpose p i with
    | [] => nth_error (nth k (w p) []) i = Some e
    | [c] => nth_error (nth k (w p) []) i = Some (value c)
    | [c; d] => nth_error (nth k (w p) []) i = Some (op (value c) (value d))
    | _ => True
    end.
Proof.
  intros C N F G Hv Hu. destruct (C60_gs_many m hs transpose vn F G Hv) as (tr & P & R). eexists. split; [exact (R _ op e u Hu)|].
  intros p i k Hp Hi Hk value. cbv beta. specialize (P p i k Hp Hi Hk).
  set (f := fun k => map (fun i => eval op e (fun q j k => nth j (nth k (u q) []) e) (tr p i k)) (seq 0 (length (ids p)))).
  rewrite (nth_indep _ [] (f 0)) by (rewrite map_length, seq_length; auto). rewrite map_nth, seq_nth by auto. cbn [Nat.add]. unfold f.
  rewrite nth_error_map, seq_nth_error by auto. cbn [option_map Nat.add].
  destruct (contributors np ids transpose p i) as [|c [|d [|d' l]]]; cbn [map] in P; auto; f_equal.
  - apply eval_none; auto.
  - exact (eval_one op e C N _ _ _ P).
  - exact (eval_two op e C N _ _ _ _ P).
Qed.
End Properties.
Print Assumptions C60_gs.
Print Assumptions C60_gs_vec.
Print Assumptions C60_gs_many.
Print Assumptions C60_copies_on_one_process.
Print Assumptions C60_copies_on_one_process_vec.
Print Assumptions C60_copies_on_one_process_many.
Print Assumptions C60_rounding.
Print Assumptions C60_one_or_two.
Print Assumptions C60_one_or_two_vec.
Print Assumptions C60_one_or_two_many.

(** The entries of a group on different processes need not come out identical when op is not associative, even if
    it is commutative with identity e: addition that drops the last digit of results of 10 or more, three processes with one entry of id 1
    each and the values 6, 4 and 10, the pairwise method. *)
Definition add10 (a b : nat) : nat := if a + b <? 10 then a + b else 10 * ((a + b) / 10).
Definition ids1 (p : nat) : list Z := [1%Z].
Definition u3 (p : nat) : list nat := [nth p [6; 4; 10] 0].
Definition h3 (p : nat) : gs_data :=
  let c := PC (map (fun q => (q, 1)) (filter (fun q => negb (q =? p)) (seq 0 3))) 2 in
  GS [255] [255] [255] (RPw (PW c c [0; 0; 1; 255; 255] [0; 0; 1; 255; 255])).
Lemma ids1_fits : setup_fits 1 1 255 3 ids1.
Proof. constructor; try (vm_compute; lia). intros [|[|[|p]]] Hp; try lia; (split; [vm_compute; lia|]); intros [|i] Hi; cbn in Hi; try lia; vm_compute; lia. Qed.
Lemma h3_setup : setup_gives 1 1 255 3 ids1 false gs_pairwise h3.
Proof.
  eapply (one_schedule_decides _ [0; 1; 2; 2; 2; 0; 0; 0; 0; 1; 1; 1; 1; 1; 1; 2; 2; 0; 0; 0; 0; 1; 1; 1; 1; 1; 1; 2; 2; 0; 0; 0; 0; 1; 1; 1; 1; 2; 2; 2; 2; 0; 0; 0; 0; 1; 1; 1; 1; 1; 1; 2; 0; 0; 0; 1]).
  - lazy. reflexivity.
  - lazy. reflexivity.
Qed.
Theorem C60_copies_on_processes_refuted : (forall a b, add10 a b = add10 b a) /\ (forall a, a < 10 \/ a mod 10 = 0 -> add10 0 a = a) /\
  exists w, gs_gives 1 3 add10 0 false h3 u3 w /\ nth_error (w 0) 0 = Some 20 /\ nth_error (w 1) 0 = Some 20 /\ nth_error (w 2) 0 = Some 10.
Proof.
  split; [intros; unfold add10; rewrite Nat.add_comm; auto|]. split; [intros a Ha; unfold add10; rewrite Nat.add_0_l; destruct (Nat.ltb_spec a 10); auto; pose proof (Nat.div_mod a 10); lia|].
  destruct (C60_gs 1 1 255 3 ids1 gs_pairwise h3 false ids1_fits h3_setup) as (tr & _ & R).
  specialize (R nat add10 0 u3 ltac:(intros; reflexivity)). eexists. split; [exact R|].
  pose proof (R _ (buffers_exist 0 3 h3 1)) as V. set (w := fun p => map _ _) in *. clearbody w.
  assert (V' : always_returns (map (fun p => gs add10 0 (UINT_MAX 1) 3 p false (h3 p) (u3 p) (repeat 0 (1 * buffer_size (g_r (h3 p))))) (seq 0 3))
    (map (fun p => UFlat [nth p [20; 20; 10] 0]) (seq 0 3))).
  { eapply (one_schedule_decides _ [0; 1; 2; 2; 0; 1]); lazy; reflexivity. }
  pose proof (returns_fun_at 3 _ _ _ V V') as E.
  pose proof (E 0 ltac:(lia)) as E0. pose proof (E 1 ltac:(lia)) as E1. pose proof (E 2 ltac:(lia)) as E2. cbn in E0, E1, E2.
  injection E0 as ->. injection E1 as ->. injection E2 as ->. auto.
Qed.
Print Assumptions C60_copies_on_processes_refuted.

(** The hypotheses are met: two processes, ids 1 2 0 2 and -2 3 -1 (ids_ex in Properties_Gs.v meets setup_fits); here 1 and -1 on
    one process; an addition that is not exact. *)
Definition ids_b (p : nat) : list Z := match p with 0 => [1; 2; 0; 2]%Z | _ => [-2; 3; -1]%Z end.
Example ex_bracket_fits : setup_fits 1 1 255 2 ids_b.
Proof. constructor; try (vm_compute; lia). intros [|[|p]] Hp; [| |lia]; (split; [vm_compute; lia|]); intros [|[|[|[|i]]]] Hi; cbn in Hi; try lia; vm_compute; lia. Qed.
(** Entry 3 of process 0 gets the values at entries 1 and 3 of process 0 with transpose = 0, and also that at
    entry 0 of process 1 with transpose = 1. *)
Example ex_contributors : contributors 2 ids_b false 0 3 = [(0, 1); (0, 3)] /\ contributors 2 ids_b true 0 3 = [(0, 1); (0, 3); (1, 0)] /\ contributors 2 ids_b true 1 0 = [(1, 0)] /\ contributors 2 ids_b false 1 0 = [(0, 1); (0, 3)] /\ contributors 2 ids_b false 0 2 = [(0, 2)].
Proof. repeat split; reflexivity. Qed.
(** Each result one eighth too large. *)
Definition add8 (a b : R) : R := if Req_EM_T a 0 then b else if Req_EM_T b 0 then a else ((a + b) * (1 + / 8))%R.
Example ex_rounded : (forall a b, Rabs (add8 a b - (a + b)) <= / 8 * Rabs (a + b))%R /\ (forall x, add8 0%R x = x /\ add8 x 0%R = x).
Proof.
  split.
  - intros a b. unfold add8. destruct (Req_EM_T a 0) as [->|]; [|destruct (Req_EM_T b 0) as [->|]].
    + replace (b - (0 + b))%R with 0%R by ring. rewrite Rabs_R0. apply Rmult_le_pos; [lra|apply Rabs_pos].
    + replace (a - (a + 0))%R with 0%R by ring. rewrite Rabs_R0. apply Rmult_le_pos; [lra|apply Rabs_pos].
    + replace ((a + b) * (1 + / 8) - (a + b))%R with (/ 8 * (a + b))%R by ring. rewrite Rabs_mult, (Rabs_pos_eq (/ 8)) by lra. lra.
  - intros x. unfold add8. destruct (Req_EM_T 0 0); [|lra]. split; auto. destruct (Req_EM_T x 0); auto.
Qed.
(** An operation that commutes and has 0 as neutral element but is not associative, and two entries with two contributions each. *)
Definition mean (a b : nat) : nat := if a =? 0 then b else if b =? 0 then a else (a + b) / 2.
Example ex_two : (forall a b, mean a b = mean b a) /\ (forall a, mean 0 a = a) /\ mean (mean 2 4) 9 <> mean 2 (mean 4 9) /\
  contributors 2 ids_b false 0 3 = [(0, 1); (0, 3)] /\ contributors 2 ids_b false 1 0 = [(0, 1); (0, 3)].
Proof.
  split; [|split; [reflexivity|split; [discriminate|split; reflexivity]]].
  intros a b. unfold mean. destruct (Nat.eqb_spec a 0), (Nat.eqb_spec b 0); subst; auto. rewrite Nat.add_comm. auto.
Qed.
