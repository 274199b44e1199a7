(** C36: the table of outstanding non-blocking operations. *)
From Verif Require Import Base BaseLemmas Nonblock NonblockSpec NonblockProof.

(** For any sequence of igs and gs_wait calls in which every gs_wait uses the handle of an earlier
    igs that was not waited for yet (in any order, any number outstanding): no call is undefined, and
    the wait for the k-th igs completes exactly the k-th igs, with the arguments given to it. *)
Theorem C36_wait_completes_its_igs : forall (P : Type) (INT_MAX : nat) (cs : list (call P)),
  let n := length (issued_ops cs) in
  n + n / 2 + 1 <= INT_MAX ->
  proper 0 [] cs ->
  exists t, run_calls INT_MAX table0 [] cs = Ok (t, map (nth_error (issued_ops cs)) (waits cs)).
Proof.
  intros P M cs n B Hp. destruct (run_calls_ok M cs table0 [] [] []) as (t & E & _); auto.
  - constructor; auto.
    + apply table0_ok.
    + intros [|k] op E; discriminate.
    + intros k1 k2 h L; inversion L.
    + split; [constructor|intros k []].
  - exists t. auto.
Qed.
Print Assumptions C36_wait_completes_its_igs.

(** When everything was waited for, the table is back in its initial state: no memory is kept, and
    the numbers start from 0 again. *)
Theorem C36_all_waited_resets : forall (P : Type) (INT_MAX : nat) (cs : list (call P)),
  let n := length (issued_ops cs) in
  n + n / 2 + 1 <= INT_MAX ->
  proper 0 [] cs -> length (waits cs) = n ->
  run_calls INT_MAX table0 [] cs = Ok (table0, map (nth_error (issued_ops cs)) (waits cs)).
Proof.
  intros P M cs n B Hp L. destruct (run_calls_ok M cs table0 [] [] []) as (t & E & F); auto.
  - constructor; auto.
    + apply table0_ok.
    + intros [|k] op E; discriminate.
    + intros k1 k2 h L'; inversion L'.
    + split; [constructor|intros k []].
  - cbn [length plus] in F. rewrite (F L) in E. auto.
Qed.
Print Assumptions C36_all_waited_resets.

(** A number at or above the ones handed out completes nothing and, on a table in use, changes
    nothing. *)
Theorem C36_unknown_number_ignored : forall (P : Type) (t : table P) (h : Z),
  (Z.of_nat (nn t) <= h)%Z -> count t <> 0 -> gs_wait_table t h = Ok (t, None).
Proof.
  intros P t h L C. unfold gs_wait_table. destruct (Z.ltb_spec h (Z.of_nat (nn t))); [lia|]. cbn [bind].
  destruct (Nat.eqb_spec (count t) 0); [lia|]. auto.
Qed.
Print Assumptions C36_unknown_number_ignored.

(** What a user might hope for: that waiting for any number is defined. *)
Definition any_wait_defined (INT_MAX : nat) : Prop :=
  forall (cs : list (call nat)) t out h, run_calls INT_MAX table0 [] cs = Ok (t, out) ->
  exists r, gs_wait_table t h = Ok r.
(** It is false: waiting twice for the same operation while another is outstanding dereferences a
    null pointer, and a negative number reads in front of the table. *)
Theorem C36_any_wait_defined_refuted : forall INT_MAX, 8 <= INT_MAX -> ~ any_wait_defined INT_MAX.
Proof.
  intros M L H. replace M with (8 + (M - 8)) in H by lia.
  specialize (H [Igs 7; Igs 8; Wait_for 0] _ _ 0%Z eq_refl). destruct H as [r E]. discriminate.
Qed.
Theorem C36_negative_number_refuted : forall INT_MAX, 8 <= INT_MAX -> ~ any_wait_defined INT_MAX.
Proof.
  intros M L H. replace M with (8 + (M - 8)) in H by lia.
  specialize (H [Igs 7] _ _ (-1)%Z eq_refl). destruct H as [r E]. discriminate.
Qed.
Print Assumptions C36_any_wait_defined_refuted.
(** Worse, once the table was reset a stale number completes an unrelated later operation. *)
Theorem C36_stale_number_completes_another_refuted : forall INT_MAX, 8 <= INT_MAX ->
  exists t out t', run_calls INT_MAX table0 [] [Igs 7; Wait_for 0; Igs 8] = Ok (t, out) /\
    gs_wait_table t 0%Z = Ok (t', Some 8).
Proof.
  intros M L. replace M with (8 + (M - 8)) by lia. do 3 eexists. split; reflexivity.
Qed.
Print Assumptions C36_stale_number_completes_another_refuted.

(** A non-trivial history: three outstanding at once, waited for out of order, a new one started
    in between, then everything reset and used again. *)
Definition cs_ex : list (call nat) :=
  [Igs 10; Igs 11; Igs 12; Wait_for 1; Igs 13; Wait_for 0; Wait_for 3; Wait_for 2; Igs 14; Wait_for 4].
Example ex_proper : forall INT_MAX, 8 <= INT_MAX -> proper 0 [] cs_ex /\
  length (issued_ops cs_ex) + length (issued_ops cs_ex) / 2 + 1 <= INT_MAX /\
  length (waits cs_ex) = length (issued_ops cs_ex).
Proof.
  intros M B. split; [cbn; repeat split; try lia; intuition congruence|]. split; [|reflexivity].
  change (length (issued_ops cs_ex) + length (issued_ops cs_ex) / 2 + 1) with 8. auto.
Qed.
Example ex_run : map (nth_error (issued_ops cs_ex)) (waits cs_ex) = [Some 11; Some 10; Some 13; Some 12; Some 14].
Proof. reflexivity. Qed.
