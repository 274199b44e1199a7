(** The kernels, uniformly in the mode of a gather-scatter. *)
From Verif Require Import Base BaseLemmas Kernels KernelSpec KernelProof GsTop GsExec GsCr.

(** The user data hold f i k as component k of entry i, for i < n, k < vn. *)
Definition data_ok {T} (mode : gs_mode) (vn : nat) (u : udata T) (n : nat) (f : nat -> nat -> T) : Prop :=
  vn <> 0 /\
  match mode, u with
  | mode_plain, UFlat l => vn = 1 /\ holds l n (fun i => f i 0)
  | mode_vec, UFlat l => holds_vec l n vn f
  | mode_many, UMany ls => holds_many ls n vn f
  | _, _ => False
  end.

Section Modes.
Context {T : Type}.
Variable op : T -> T -> T.
Variable ident : T.
Variable SENT : nat.
Variable mode : gs_mode.
Variable vn : nat.
Notation data_ok := (@data_ok T mode vn).

Lemma holds_vec_1 (l : list T) n f : holds_vec l n 1 f <-> holds l n (fun i => f i 0).
Proof.
  unfold holds_vec, holds. split; intros [L H]; (split; [lia|]).
  - intros i Hi. rewrite <- (H i 0) by lia. f_equal. lia.
  - intros i k Hi Hk. assert (k = 0) by lia. subst. rewrite <- (H i) by auto. f_equal. lia.
Qed.

Lemma holds_vec_ext (l : list T) n (f g : nat -> nat -> T) :
  holds_vec l n vn f -> (forall i k, i < n -> k < vn -> f i k = g i k) -> holds_vec l n vn g.
Proof. intros [L H] E. split; auto. intros i k Hi Hk. rewrite H, E; auto. Qed.

Lemma data_ok_ext u n f g : data_ok u n f -> (forall i k, i < n -> k < vn -> f i k = g i k) -> data_ok u n g.
Proof.
  intros [V H] E. split; auto. destruct mode, u; try contradiction.
  - destruct H as [-> H]. split; auto. eapply holds_ext; [exact H|]. intros i Hi. apply E; lia.
  - eapply holds_vec_ext; eauto.
  - destruct H as [L H]. split; auto. intros k Hk. destruct (H k Hk) as (l' & E1 & E2). exists l'. split; auto.
    eapply holds_ext; [exact E2|]. intros i Hi. apply E; auto.
Qed.

Lemma data_ok_unique u u' n f : data_ok u n f -> data_ok u' n f -> u = u'.
Proof.
  intros [V H] [_ H']. destruct mode, u, u'; try contradiction; f_equal.
  - destruct H as [_ H], H' as [_ H']. eapply holds_unique; eauto.
  - destruct H as [L H], H' as [L' H']. apply nth_error_ext. intros i.
    destruct (Nat.lt_ge_cases i (n * vn)) as [Hi|Hi].
    + assert (i / vn < n) by (apply Nat.div_lt_upper_bound; lia).
      assert (Em : i mod vn < vn) by (apply Nat.mod_upper_bound; auto).
      specialize (H (i / vn) (i mod vn) H0 Em). specialize (H' (i / vn) (i mod vn) H0 Em).
      replace (i / vn * vn + i mod vn) with i in * by (rewrite (Nat.div_mod i vn) at 1 by auto; lia). congruence.
    + rewrite !(proj2 (nth_error_None _ _)); auto; lia.
  - destruct H as [L H], H' as [L' H']. apply nth_error_ext. intros k.
    destruct (Nat.lt_ge_cases k vn) as [Hk|Hk].
    + destruct (H k Hk) as (a & Ea & Ha), (H' k Hk) as (b & Eb & Hb). rewrite Ea, Eb. f_equal.
      eapply holds_unique; eauto.
    + rewrite !(proj2 (nth_error_None _ _)); auto; lia.
Qed.

Lemma local_gather_ok gs n u f : valid_map SENT n n gs -> apart gs -> data_ok u n f ->
  exists u', local_gather op SENT mode vn (encode SENT gs) u = Ok u' /\
    data_ok u' n (fun i k => gathered op gs (fun j => f j k) i (f i k)).
Proof.
  intros V A [Vn H]. unfold local_gather, data_ok. destruct mode, u as [l|ls]; try contradiction.
  - destruct H as [-> H]. destruct (gather_in_place op SENT gs n l _ V A H) as (l' & -> & H'). eexists. split; [reflexivity|]. auto.
  - destruct (gather_vec_in_place op SENT gs n vn l f Vn V A H) as (l' & -> & H'). eexists. split; [reflexivity|]. auto.
  - destruct (gather_many_in_place op SENT gs n vn ls f V A H) as (l' & -> & H'). eexists. split; [reflexivity|]. auto.
Qed.
Lemma local_scatter_ok gs n u f : valid_map SENT n n gs -> apart gs -> data_ok u n f ->
  exists u', local_scatter SENT mode vn (encode SENT gs) u = Ok u' /\
    data_ok u' n (fun i k => scattered gs (fun j => f j k) i (f i k)).
Proof.
  intros V A [Vn H]. unfold local_scatter, data_ok. destruct mode, u as [l|ls]; try contradiction.
  - destruct H as [-> H]. destruct (scatter_in_place SENT gs n l _ V A H) as (l' & -> & H'). eexists. split; [reflexivity|]. auto.
  - destruct (scatter_vec_in_place SENT gs n vn l f V A H) as (l' & -> & H'). eexists. split; [reflexivity|]. auto.
  - destruct (scatter_many_in_place SENT gs n vn ls f V A H) as (l' & -> & H'). eexists. split; [reflexivity|]. auto.
Qed.
Lemma init_ok is n u f : n <= SENT -> (forall i, In i is -> i < n) -> data_ok u n f ->
  exists u', init ident SENT mode vn (is ++ [SENT]) u = Ok u' /\
    data_ok u' n (fun i k => if existsb (Nat.eqb i) is then ident else f i k).
Proof.
  intros V A [Vn H]. unfold init, data_ok. destruct mode, u as [l|ls]; try contradiction.
  - destruct H as [-> H]. destruct (init_correct ident SENT is n l _ V A H) as (l' & -> & H'). eexists. split; [reflexivity|]. auto.
  - destruct (init_vec_correct ident SENT is n vn l f Vn V A H) as (l' & -> & H'). eexists. split; [reflexivity|]. auto.
  - destruct (init_many_correct ident SENT is n vn ls f V A H) as (l' & -> & H'). eexists. split; [reflexivity|]. auto.
Qed.
Lemma scatter_to_buf_ok gs n m u f (buf : list T) b : valid_map SENT n m gs -> data_ok u n f -> holds_vec buf m vn b ->
  exists buf', scatter_to_buf SENT mode vn (encode SENT gs) u buf = Ok buf' /\
    holds_vec buf' m vn (fun i k => scattered gs (fun j => f j k) i (b i k)).
Proof.
  intros V [Vn H] B. unfold scatter_to_buf. destruct mode, u as [l|ls]; try contradiction.
  - destruct H as [-> H]. apply holds_vec_1 in B. destruct (scatter_correct SENT gs m n l _ buf _ V H B) as (l' & -> & H').
    eexists. split; [reflexivity|]. apply holds_vec_1. auto.
  - destruct (scatter_vec_correct SENT gs m n vn l f buf b V H B) as (l' & -> & H'). eexists. split; [reflexivity|]. auto.
  - destruct (scatter_many_to_vec_correct SENT gs m n vn ls f buf b V H B) as (l' & -> & H'). eexists. split; [reflexivity|]. auto.
Qed.
Lemma gather_from_buf_ok gs n m u f buf b : valid_map SENT n m gs -> data_ok u n f -> holds_vec buf m vn b ->
  exists u', gather_from_buf op SENT mode vn (encode SENT gs) u buf = Ok u' /\
    data_ok u' n (fun i k => gathered op gs (fun j => b j k) i (f i k)).
Proof.
  intros V [Vn H] B. unfold gather_from_buf, data_ok. destruct mode, u as [l|ls]; try contradiction.
  - destruct H as [-> H]. apply holds_vec_1 in B. destruct (gather_correct op SENT gs n m buf _ l _ V B H) as (l' & -> & H').
    eexists. split; [reflexivity|]. auto.
  - destruct (gather_vec_correct op SENT gs n m vn buf b l f Vn V B H) as (l' & -> & H'). eexists. split; [reflexivity|]. auto.
  - destruct (gather_vec_to_many_correct op SENT gs n m vn buf b ls f V B H) as (l' & -> & H'). eexists. split; [reflexivity|]. auto.
Qed.
Lemma scatter_from_buf_ok gs n m u f buf b : valid_map SENT m n gs -> data_ok u n f -> holds_vec buf m vn b ->
  exists u', scatter_from_buf SENT mode vn (encode SENT gs) u buf = Ok u' /\
    data_ok u' n (fun i k => scattered gs (fun j => b j k) i (f i k)).
Proof.
  intros V [Vn H] B. unfold scatter_from_buf, data_ok. destruct mode, u as [l|ls]; try contradiction.
  - destruct H as [-> H]. apply holds_vec_1 in B. destruct (scatter_correct SENT gs n m buf _ l _ V B H) as (l' & -> & H').
    eexists. split; [reflexivity|]. auto.
  - destruct (scatter_vec_correct SENT gs n m vn buf b l f V B H) as (l' & -> & H'). eexists. split; [reflexivity|]. auto.
  - destruct (scatter_vec_to_many_correct SENT gs n m vn buf b ls f V B H) as (l' & -> & H'). eexists. split; [reflexivity|]. auto.
Qed.
Lemma scatter_bb_ok gs n m (inp : list T) f buf b : (mode = mode_plain -> vn = 1) -> valid_map SENT n m gs ->
  holds_vec inp n vn f -> holds_vec buf m vn b ->
  exists buf', scatter_bb SENT mode vn (encode SENT gs) inp buf = Ok buf' /\
    holds_vec buf' m vn (fun i k => scattered gs (fun j => f j k) i (b i k)).
Proof.
  intros Vp V H B. unfold scatter_bb.
  destruct mode; try (destruct (scatter_vec_correct SENT gs m n vn inp f buf b V H B) as (l' & -> & H'); eexists; split; [reflexivity|]; auto).
  rewrite (Vp eq_refl) in *. apply holds_vec_1 in B. apply holds_vec_1 in H. destruct (scatter_correct SENT gs m n inp _ buf _ V H B) as (l' & -> & H').
  eexists. split; [reflexivity|]. apply holds_vec_1. auto.
Qed.
Lemma gather_bb_ok gs n m (inp : list T) f buf b : vn <> 0 -> (mode = mode_plain -> vn = 1) -> valid_map SENT m n gs ->
  holds_vec inp n vn f -> holds_vec buf m vn b ->
  exists buf', gather_bb op SENT mode vn (encode SENT gs) inp buf = Ok buf' /\
    holds_vec buf' m vn (fun i k => gathered op gs (fun j => f j k) i (b i k)).
Proof.
  intros Vn Vp V H B. unfold gather_bb.
  destruct mode; try (destruct (gather_vec_correct op SENT gs m n vn inp f buf b Vn V H B) as (l' & -> & H'); eexists; split; [reflexivity|]; auto).
  rewrite (Vp eq_refl) in *. apply holds_vec_1 in B. apply holds_vec_1 in H. destruct (gather_correct op SENT gs m n inp _ buf _ V H B) as (l' & -> & H').
  eexists. split; [reflexivity|]. apply holds_vec_1. auto.
Qed.
End Modes.
