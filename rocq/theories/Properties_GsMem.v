(** C69: gs_free frees what gs_setup allocated, but for one block whenever the all-reduce method was set up. *)
From Verif Require Import Base GsMem GsMemSpec GsMemProof.
Local Open Scope nat_scope.

(** From any heap, after any history of setups and frees: setting up never fails for memory reasons of its own, and freeing a
    handle that exists is defined: no block is freed twice, no pointer that was not set is used (so the number of stages counted
    is the number of maps stored, for every process and number of processes). *)
Theorem C69_defined h0 h w a : heap_ok h0 -> history h0 h w -> respects w a -> exists w', step w a = Ok w'.
Proof.
  intros O H R. destruct (history_inv h0 h w O H) as (L & I & _). destruct (step_ok h0 w L a I R) as (w' & L' & E & _). eauto.
Qed.
(** What is allocated is the program's own, which is never touched, the blocks of the live handles, and one lost block for each
    setup that set up or tried the all-reduce method and is not a live handle with that method. *)
Theorem C69_balance h0 h w : heap_ok h0 -> history h0 h w ->
  exists lost, Permutation (live (hp w)) (all_blocks w ++ lost ++ live h0) /\
    length lost + ar_handles w = length (filter tries_all_reduce h).
Proof. intros O H. destruct (history_inv h0 h w O H) as (L & (_ & P & _) & N). exists L. auto. Qed.
(** No two live handles share a block, and none has one of the program's. *)
Theorem C69_separate h0 h w : heap_ok h0 -> history h0 h w -> NoDup (all_blocks w ++ live h0).
Proof.
  intros O H. destruct (history_inv h0 h w O H) as (L & ([N _] & P & _) & _). apply (Permutation_NoDup P) in N.
  assert (Q : Permutation (all_blocks w ++ L ++ live h0) (L ++ all_blocks w ++ live h0)).
  { rewrite !app_assoc. apply Permutation_app_tail. apply Permutation_app_comm. }
  apply (Permutation_NoDup Q) in N. revert N. generalize (all_blocks w ++ live h0). clear. intros l. induction L; simpl; auto.
  intros N. inversion N; auto.
Qed.
(** If the all-reduce method was never set up or tried, freeing all handles restores the heap. *)
Theorem C69_all_freed h0 h w : heap_ok h0 -> history h0 h w -> (forall a, In a h -> tries_all_reduce a = false) ->
  (forall x, In x (handles w) -> x = None) -> Permutation (live (hp w)) (live h0).
Proof.
  intros O H T F. destruct (C69_balance h0 h w O H) as (L & P & N).
  assert (Z : filter tries_all_reduce h = []).
  { clear - T. induction h as [|a h IH]; simpl; auto. rewrite (T a (or_introl eq_refl)). apply IH. intros b I. apply T. right. auto. }
  rewrite Z in N. destruct L; [|discriminate N].
  assert (E : all_blocks w = []).
  { unfold all_blocks. clear - F. induction (handles w) as [|x l IH]; simpl; auto. rewrite (F x (or_introl eq_refl)). simpl. apply IH.
    intros y I. apply F. right. auto. }
  now rewrite E in P.
Qed.
(** If it was, one block per such setup is never freed, whatever the program calls, and whatever method gs_auto picks. *)
Theorem C69_all_reduce_refuted h0 h w : heap_ok h0 -> history h0 h w -> (forall x, In x (handles w) -> x = None) ->
  length (live (hp w)) = length (live h0) + length (filter tries_all_reduce h).
Proof.
  intros O H F. destruct (C69_balance h0 h w O H) as (L & P & N).
  assert (E : all_blocks w = [] /\ ar_handles w = 0).
  { unfold all_blocks, ar_handles. clear - F. induction (handles w) as [|x l IH]; simpl; auto. rewrite (F x (or_introl eq_refl)). simpl. apply IH.
    intros y I. apply F. right. auto. }
  destruct E as [E1 E2]. rewrite E2 in N. rewrite (Permutation_length P), E1. cbn [app]. rewrite app_length. lia.
Qed.
(** In particular gs_setup with gs_auto (the only method of the Fortran gs_setup) on more than one process, with fewer than 100000
    shared ids, followed by gs_free, leaves one block more, for all outcomes of the timings. *)
Theorem C69_auto_refuted h0 id np t x y g h1 : heap_ok h0 -> 1 < np -> (t < 100000)%Z ->
  gs_setup gs_auto id np t x y h0 = Ok (g, h1) -> exists h2, gs_free g h1 = Ok h2 /\ length (live h2) = S (length (live h0)).
Proof.
  intros O N T E.
  assert (H1 : history h0 [Setup gs_auto id np t x y] (World h1 [Some g])).
  { apply (h_call h0 [] _ (Setup gs_auto id np t x y) _ (h_nil h0)). cbn [step hp handles]. rewrite E. reflexivity. }
  destruct (C69_defined h0 _ _ (Free 0) O H1) as (w' & S); [exists g; reflexivity|].
  pose proof (h_call h0 _ _ _ _ H1 S) as H2. cbn [step handles nth_error hp] in S.
  destruct (gs_free g h1) as [h2| | |] eqn:F; try discriminate. cbn [bind upd] in S. inversion S; subst. exists h2. split; [reflexivity|].
  change (length (live h2)) with (length (live (hp (World h2 [None])))). rewrite (C69_all_reduce_refuted h0 _ _ O H2); [|intros z [<-|[]]; auto].
  assert (Q : tries_all_reduce (Setup gs_auto id np t x y) = true) by (simpl; apply Nat.ltb_lt in N; apply Z.ltb_lt in T; now rewrite N, T).
  cbn [app filter]. rewrite Q. cbn [tries_all_reduce length]. lia.
Qed.
Print Assumptions C69_defined.
Print Assumptions C69_balance.
Print Assumptions C69_separate.
Print Assumptions C69_all_freed.
Print Assumptions C69_all_reduce_refuted.
Print Assumptions C69_auto_refuted.

(** Two handles of the crystal router (process 3 of 7) and pairwise, freed in the other order, leave the program's block 5. *)
Example ex_crystal : exists w, history (Heap [5] 6) [Setup gs_crystal_router 3 7 10 false false; Setup gs_pairwise 3 7 10 false false; Free 1; Free 0] w /\
  live (hp w) = [5] /\ handles w = [None; None].
Proof.
  eexists. split; [|split].
  - eapply (h_call _ [Setup gs_crystal_router 3 7 10 false false; Setup gs_pairwise 3 7 10 false false; Free 1] _ (Free 0)).
    + eapply (h_call _ [Setup gs_crystal_router 3 7 10 false false; Setup gs_pairwise 3 7 10 false false] _ (Free 1)).
      * eapply (h_call _ [Setup gs_crystal_router 3 7 10 false false] _ (Setup gs_pairwise 3 7 10 false false)).
        -- eapply (h_call _ [] _ (Setup gs_crystal_router 3 7 10 false false)); [apply h_nil|vm_compute; reflexivity].
        -- vm_compute. reflexivity.
      * vm_compute. reflexivity.
    + vm_compute. reflexivity.
  - reflexivity.
  - reflexivity.
Qed.
(** gs_auto on 2 processes, pairwise fastest. *)
Example ex_auto : match gs_setup gs_auto 0 2 10 false false (Heap [] 0) with
  | Ok (g, h) => match gs_free g h with Ok h => length (live h) = 1 | _ => False end | _ => False end.
Proof. vm_compute. reflexivity. Qed.
