(** Lemmas for C26, C28, C31, C32, C33. *)
From Verif Require Import Base BaseLemmas Net NetProof Sort SortSpec SortLemmas Transfer TransferSpec OpsSpec Comm CommSpec CommProof
  KernelSpec ListLemmas GsTop GsSpec GsSortProof GsTopProof1 GsTopProof2 GsTopProof4 GsExec GsCr Gs GsKernProof GsPwProof3 GsRunProof GsSetupProof GsSetupProof2
  GsUniqueProof2 GsUniqueProof4 GsUserSpec GsUserProof.
From Coq Require Import Permutation.

Lemma id_nth l i z : nth_error l i = Some z -> id_at l i = z /\ i < length l.
Proof. intros H. unfold id_at. split; [apply nth_error_nth; auto|]. eapply nth_error_Some_lt; eauto. Qed.
Lemma id_nth' l i : i < length l -> nth_error l i = Some (id_at l i).
Proof. intros H. unfold id_at. apply nth_error_nth'. auto. Qed.

Section Tr.
Context {T : Type}.
Variable op : T -> T -> T.
Variable e : T.
Variable np : nat.
Variable ids : nat -> list Z.
Variable u : nat -> list T.
Hypothesis Hu : forall p, p < np -> length (u p) = length (ids p).

Lemma result_at t p i : i < length (ids p) ->
  nth_error (result op e np ids t u p) i = Some (gs_result op e np ids (fun q j => nth j (u q) e) t p i).
Proof. intros Hi. unfold result. rewrite nth_error_map, seq_nth_error by auto. auto. Qed.

Lemma only_flagged_in p z : (z < 0)%Z -> only_flagged (ids p) (Z.abs_nat z) = true <-> ~ In (- z)%Z (ids p).
Proof.
  intros Hz. unfold only_flagged. rewrite Nat.eqb_eq, length_zero_iff_nil. rewrite unflagged_ids by lia. split.
  - intros E Hin. apply In_nth_error in Hin as [j Hj]. apply id_nth in Hj as [Ej Lj].
    assert (In j []); [|easy]. rewrite <- E. apply in_indices. split; auto. apply Z.eqb_eq. lia.
  - intros N. destruct (indices _ _) as [|j l] eqn:E; auto. exfalso. apply N.
    assert (Hj : In j (j :: l)) by (left; auto). rewrite <- E in Hj. apply in_indices in Hj as [Lj Ej]. apply Z.eqb_eq in Ej.
    replace (- z)%Z with (id_at (ids p) j) by lia. unfold id_at. apply nth_In. auto.
Qed.

Lemma prim_first p i z : nth_error (ids p) i = Some z -> (z < 0)%Z -> ~ In (- z)%Z (ids p) ->
  prim (ids p) (Z.abs_nat z) = i <-> forall j, j < i -> nth_error (ids p) j <> Some z.
Proof.
  intros Hi Hz N. apply only_flagged_in in N; auto. set (x := Z.abs_nat z) in *. destruct (id_nth _ _ _ Hi) as [Ei Li].
  assert (Hh : has (ids p) x = true). { replace x with (label_at (ids p) i) by (unfold label_at, x; congruence). apply has_label; auto. }
  assert (Fl : forall j, In j (flagged_at (ids p) x) <-> nth_error (ids p) j = Some z).
  { intros j. rewrite in_flagged_at. unfold label_at, is_flagged. split.
    - intros (A & B & C). apply Z.ltb_lt in C. rewrite id_nth' by auto. f_equal. unfold x in B. lia.
    - intros A. apply id_nth in A as [A B]. rewrite A. split; auto. split; auto. apply Z.ltb_lt; auto. }
  unfold prim. unfold only_flagged in N. apply Nat.eqb_eq, length_zero_iff_nil in N. rewrite N. cbn [app].
  pose proof (indices_sorted (length (ids p)) (fun i => (label_at (ids p) i =? x) && is_flagged (ids p) i)) as SS. fold (flagged_at (ids p) x) in SS.
  destruct (flagged_at (ids p) x) as [|k l] eqn:E. { exfalso. assert (In i []); [|easy]. apply Fl; auto. }
  cbn [hd]. inversion SS as [|? ? SS' F]; subst. rewrite Forall_forall in F. split.
  - intros -> j Hj Ej. apply Fl in Ej. destruct Ej as [->|Ej]; [lia|]. apply F in Ej. lia.
  - intros H. assert (Hk : nth_error (ids p) k = Some (id_at (ids p) i)) by (apply Fl; left; auto).
    destruct (Nat.lt_trichotomy k i) as [L|[E'|L]]; auto.
    + exfalso. apply (H k L). congruence.
    + exfalso. assert (In i (k :: l)) as [E'|Hin] by (apply Fl; auto); [lia|]. apply F in Hin. lia.
Qed.

Lemma transpose_at p i z a : p < np -> nth_error (ids p) i = Some z -> nth_error (u p) i = Some a ->
  let w := nth_error (result op e np ids true u p) i in
  (z = 0%Z -> w = Some a) /\
  ((0 < z)%Z -> w = Some (reduce op e (values_of (fun y => (Z.abs y =? z)%Z) (entries np ids u)))) /\
  ((z < 0)%Z -> In (- z)%Z (ids p) -> w = Some a) /\
  ((z < 0)%Z -> (exists j, j < i /\ nth_error (ids p) j = Some z) -> w = Some a) /\
  ((z < 0)%Z -> ~ In (- z)%Z (ids p) -> (forall j, j < i -> nth_error (ids p) j <> Some z) ->
     w = Some (reduce op e (values_of (fun y => (y =? z)%Z) (combine (ids p) (u p))))).
Proof.
  intros Hp Hz Ha w. destruct (id_nth _ _ _ Hz) as [Ez Li].
  assert (Ew : w = Some (gs_transpose op e np ids (fun q j => nth j (u q) e) p i)) by (apply result_at; auto).
  assert (Ea : nth i (u p) e = a) by (apply nth_error_nth; auto).
  unfold gs_transpose, label_at, is_flagged in Ew. rewrite Ez, Ea in Ew.
  assert (Z0 : z <> 0%Z -> (Z.abs_nat z =? 0) = false) by (intros; apply Nat.eqb_neq; lia).
  assert (Zn : (z < 0)%Z -> (z <? 0)%Z = true) by (intros; apply Z.ltb_lt; lia).
  repeat split; intros Hs.
  - rewrite Hs in Ew. exact Ew.
  - rewrite Z0 in Ew by lia. replace (z <? 0)%Z with false in Ew by (symmetry; apply Z.ltb_ge; lia). cbn [negb] in Ew.
    rewrite Ew. f_equal. apply total_values; auto. intros l. rewrite all_ids. apply filter_ext. intros j. f_equal. lia.
  - intros Hin. rewrite Z0, Zn in Ew by lia. cbn [negb] in Ew.
    destruct (only_flagged (ids p) (Z.abs_nat z)) eqn:F; [|exact Ew]. apply only_flagged_in in F; auto. contradiction.
  - intros (j & Lj & Hj). rewrite Z0, Zn in Ew by lia. cbn [negb] in Ew.
    destruct (only_flagged (ids p) (Z.abs_nat z)) eqn:F; [|exact Ew]. apply only_flagged_in in F; auto.
    destruct (Nat.eqb_spec (prim (ids p) (Z.abs_nat z)) i) as [E|E]; [|exact Ew]. apply (prim_first p i z Hz Hs F) with (j := j) in E; auto. contradiction.
  - intros N F. rewrite Z0, Zn in Ew by lia. cbn [negb] in Ew. rewrite (proj2 (only_flagged_in p z Hs) N) in Ew.
    rewrite (proj2 (prim_first p i z Hz Hs N) F), Nat.eqb_refl in Ew. cbn [andb] in Ew. rewrite Ew. f_equal. unfold local_over, reduce. f_equal.
    rewrite all_ids, <- (values_indices e) by auto. f_equal. apply filter_ext_in. intros j Hj. apply in_seq in Hj.
    destruct (Z.eqb_spec (Z.abs (id_at (ids p) j)) (Z.of_nat (Z.abs_nat z))), (Z.eqb_spec (id_at (ids p) j) z); auto; try lia.
    exfalso. apply N. replace (- z)%Z with (id_at (ids p) j) by lia. apply nth_In. lia.
Qed.

Lemma zero_kept t p i : nth_error (ids p) i = Some 0%Z -> p < np -> nth_error (result op e np ids t u p) i = nth_error (u p) i.
Proof.
  intros H Hp. destruct (id_nth _ _ _ H) as [E L]. rewrite result_at by auto. rewrite (nth_error_nth' _ e) by (rewrite Hu; auto). f_equal.
  unfold gs_result, gs_forward, gs_transpose, label_at. destruct t; rewrite E; auto.
Qed.
End Tr.

Lemma zero_ignored {T} op (e : T) np ids t (u1 u2 : nat -> list T) : (forall q j, q < np -> id_at (ids q) j <> 0%Z -> nth j (u1 q) e = nth j (u2 q) e) ->
  forall p i, p < np -> id_at (ids p) i <> 0%Z ->
  gs_result op e np ids (fun q j => nth j (u1 q) e) t p i = gs_result op e np ids (fun q j => nth j (u2 q) e) t p i.
Proof.
  intros H p i Hp Hi. assert (Hx : label_at (ids p) i <> 0) by (unfold label_at; lia).
  assert (Tt : forall sel, (forall l j, In j (sel l) -> label_at l j <> 0) ->
     total_over op e np ids (fun q j => nth j (u1 q) e) sel = total_over op e np ids (fun q j => nth j (u2 q) e) sel).
  { intros sel Hs. unfold total_over. f_equal. apply flat_map_ext_in. intros q Hq. apply in_seq in Hq. apply map_ext_in. intros j Hj.
    apply H; [lia|]. apply Hs in Hj. unfold label_at in Hj. lia. }
  assert (Tl : local_over op e ids (fun q j => nth j (u1 q) e) (fun l => all_at l (label_at (ids p) i)) p =
               local_over op e ids (fun q j => nth j (u2 q) e) (fun l => all_at l (label_at (ids p) i)) p).
  { unfold local_over. f_equal. apply map_ext_in. intros j Hj. apply in_all_at in Hj. apply H; auto. unfold label_at in *. lia. }
  unfold gs_result, gs_transpose, gs_forward. destruct t; cbn zeta; destruct (Nat.eqb_spec (label_at (ids p) i) 0); try lia.
  - rewrite Tl, !(H p i) by auto. rewrite Tt; auto. intros l j Hj. apply in_all_at in Hj. lia.
  - apply Tt. intros l j Hj. apply in_unflagged_at in Hj. lia.
Qed.

(** ** gs_unique *)
Section Un.
Variable usize lsize INT_MAX np : nat.
Variable ids : nat -> list Z.
Hypothesis fits : setup_fits usize lsize INT_MAX np ids.
Notation ids' := (unique_ids_of np ids).

Lemma positive_iff p i z : (0 < z)%Z -> nth_error (ids' p) i = Some z <->
  In i (unflagged_at (ids' p) (Z.abs_nat z)).
Proof.
  intros Hz. rewrite unflagged_ids by lia. rewrite in_indices, Z.eqb_eq. split.
  - intros H. apply id_nth in H as [E L]. split; auto. lia.
  - intros [L E]. rewrite id_nth' by auto. f_equal. lia.
Qed.
Lemma holder_in p z : (0 < z)%Z -> only_flagged (ids p) (Z.abs_nat z) = false <-> In z (ids p).
Proof.
  intros Hz. unfold only_flagged. rewrite Nat.eqb_neq, length_zero_iff_nil, unflagged_ids by lia. split.
  - intros N. destruct (indices _ _) as [|j l] eqn:E; [congruence|].
    assert (Hj : In j (j :: l)) by (left; auto). rewrite <- E in Hj. apply in_indices in Hj as [Lj Ej]. apply Z.eqb_eq in Ej.
    replace z with (id_at (ids p) j) by lia. unfold id_at. apply nth_In. auto.
  - intros Hin E. apply In_nth_error in Hin as [j Hj]. apply id_nth in Hj as [Ej Lj].
    assert (In j []); [|easy]. rewrite <- E. apply in_indices. split; auto. apply Z.eqb_eq. lia.
Qed.
Lemma unique_pos z : (0 < z)%Z -> (exists p, p < np /\ In z (ids p)) ->
  exists p i, p < np /\ nth_error (ids' p) i = Some z /\
    forall q j, q < np -> nth_error (ids' q) j = Some z -> q = p /\ j = i.
Proof.
  intros Hz (p0 & Hp0 & Hin). set (x := Z.abs_nat z). assert (Hx : x <> 0) by (unfold x; lia).
  apply holder_in in Hin; auto. destruct (owner_exists np ids x p0) as (p & O); auto. assert (Hp : p < np) by (apply owns_holder in O; tauto).
  exists p, (prim (ids p) x). split; auto. split.
  - apply positive_iff; auto. fold x. rewrite unflagged_at', O by auto. left; auto.
  - intros q j Hq Hj. apply positive_iff in Hj; auto. fold x in Hj. rewrite unflagged_at' in Hj by auto.
    destruct (owns np ids x q) eqn:Oq; [|easy]. assert (q = p) by (eapply owns_unique; eauto). subst q. destruct Hj as [<-|[]]. auto.
Qed.
Lemma unique_neg z q j : q < np -> (0 < z)%Z -> nth_error (ids' q) j = Some z -> exists p, p < np /\ In z (ids p).
Proof.
  intros Hq Hz Hj. apply positive_iff in Hj; auto. rewrite unflagged_at' in Hj by lia.
  destruct (owns np ids (Z.abs_nat z) q) eqn:O; [|easy]. exists q. split; auto. apply holder_in; auto. apply owns_holder in O. tauto.
Qed.
Lemma unique_abs p i : option_map Z.abs (nth_error (ids' p) i) = option_map Z.abs (nth_error (ids p) i).
Proof.
  destruct (Nat.lt_ge_cases i (length (ids p))) as [L|L].
  - rewrite !id_nth' by (rewrite ?ids'_length; auto). cbn. f_equal. pose proof (label' np ids p i) as E. unfold label_at in E. lia.
  - rewrite !(proj2 (nth_error_None _ _)); auto. rewrite ids'_length; auto.
Qed.
End Un.

Lemma flagged_after_first l x i : flagged_after l -> x <> 0 -> In i (all_at l x) -> prim l x <= i.
Proof.
  intros FA Hx Hi. apply in_all_at in Hi as [Li El].
  assert (MU : forall j, In j (unflagged_at l x) -> hd 0 (unflagged_at l x) <= j).
  { intros j Hj. pose proof (indices_sorted (length l) (fun i => (label_at l i =? x) && negb (is_flagged l i))) as SS. fold (unflagged_at l x) in SS.
    destruct (unflagged_at l x) as [|k m]; [easy|]. cbn. inversion SS as [|? ? _ F]; subst. rewrite Forall_forall in F. destruct Hj as [->|Hj]; auto. apply F in Hj. lia. }
  unfold prim. destruct (unflagged_at l x) as [|k m] eqn:EU.
  - cbn [app]. pose proof (indices_sorted (length l) (fun i => (label_at l i =? x) && is_flagged l i)) as SS. fold (flagged_at l x) in SS.
    assert (Hi : In i (flagged_at l x)). { apply in_flagged_at. split; auto. split; auto. destruct (is_flagged l i) eqn:F; auto. exfalso.
      assert (In i []); [|easy]. rewrite <- EU. apply in_unflagged_at. auto. }
    destruct (flagged_at l x) as [|k m]; [easy|]. cbn. inversion SS as [|? ? _ F]; subst. rewrite Forall_forall in F. destruct Hi as [->|Hi]; auto. apply F in Hi. lia.
  - cbn [app hd] in *. destruct (is_flagged l i) eqn:F.
    + destruct (FA i (id_at l i)) as (j & Lj & Ej).
      * apply id_nth'; auto.
      * apply Z.ltb_lt. exact F.
      * assert (Hk : In k (k :: m)) by (left; auto). rewrite <- EU in Hk. apply in_unflagged_at in Hk as (Lk & Xk & Fk).
        replace (- id_at l i)%Z with (id_at l k); [apply nth_In; auto|]. unfold is_flagged, label_at in *. apply Z.ltb_lt in F. apply Z.ltb_ge in Fk. lia.
      * apply id_nth in Ej as [Ej Lj']. specialize (MU j). assert (k <= j); [apply MU|lia]. rewrite <- EU. apply in_unflagged_at. split; auto.
        unfold is_flagged, label_at in *. apply Z.ltb_lt in F. split; [lia|]. apply Z.ltb_ge. lia.
    + apply MU. rewrite <- EU. apply in_unflagged_at. auto.
Qed.

Lemma setup_unique_handle usize lsize INT_MAX np ids m hs : setup_fits usize lsize INT_MAX np ids ->
  (forall p, p < np -> flagged_after (ids p)) ->
  setup_gives usize lsize INT_MAX np ids true m hs -> handle_ok usize np (unique_ids_of np ids) hs.
Proof.
  intros F FA G. destruct (gs_setup_unique_goes usize lsize INT_MAX np ids F) with (m := m) as (g & H & G').
  { intros p x i Hp Hx Hi. apply flagged_after_first; auto. }
  apply goes_always_fun in G'.
  apply (handle_ok_ext usize np (unique_ids_of np ids) g hs); auto. exact (returns_fun_at np _ g hs G' G).
Qed.
