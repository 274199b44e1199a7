(** Lemmas about stable sorting: merging, composition, uniqueness. *)
From Verif Require Import Base BaseLemmas SortSpec.
From Coq Require Import Sorted.

Section Stable.
Context {D : Type} (lt : D -> D -> bool) (SW : strict_weak lt).

Definition ngt (x y : D) : Prop := lt y x = false.
Definition SS := StronglySorted ngt.

Lemma SS_sorted_by (l : list D) : SS l <-> sorted_by lt l.
Proof.
  unfold sorted_by; split.
  - induction 1 as [|a l Hl IH Hall]; intros i j x y Hij Hi Hj.
    + destruct i; discriminate.
    + destruct j as [|j]; [lia|]. destruct i as [|i]; simpl in *.
      * injection Hi as <-. rewrite Forall_forall in Hall. apply Hall.
        eapply nth_error_In; eauto.
      * eapply (IH i j); eauto; lia.
  - induction l as [|a l IH]; intros H; constructor.
    + apply IH. intros i j x y Hij Hi Hj. apply (H (S i) (S j) x y); auto; lia.
    + apply Forall_forall; intros y Hy. apply In_nth_error in Hy as [j Hj].
      apply (H 0 (S j) a y); auto; lia.
Qed.

Lemma ngt_refl x : ngt x x.
Proof. apply sw_irrefl; auto. Qed.

Lemma lt_asym x y : lt x y = true -> lt y x = false.
Proof.
  intros H; destruct (lt y x) eqn:E; auto.
  rewrite <- (sw_irrefl _ SW x). symmetry. eapply sw_trans; eauto.
Qed.

Lemma ngt_trans x y z : ngt x y -> ngt y z -> ngt x z.
Proof.
  unfold ngt; intros H1 H2; destruct (lt z x) eqn:E; auto.
  destruct (sw_weak _ SW z y x E); congruence.
Qed.

Lemma equivb_refl x : equivb lt x x = true.
Proof. unfold equivb; rewrite (sw_irrefl _ SW); auto. Qed.

Lemma equivb_sym x y : equivb lt x y = equivb lt y x.
Proof. unfold equivb; apply andb_comm. Qed.

Lemma equivb_spec x y : equivb lt x y = true <-> lt x y = false /\ lt y x = false.
Proof. unfold equivb; rewrite andb_true_iff, !negb_true_iff; tauto. Qed.

Lemma equivb_trans x y z : equivb lt x y = true -> equivb lt y z = true -> equivb lt x z = true.
Proof.
  rewrite !equivb_spec; intros [H1 H2] [H3 H4]; split.
  - apply (ngt_trans z y x); auto.
  - apply (ngt_trans x y z); auto.
Qed.

(** Internal form of [stably_sorts]. *)
Record stable (inp out : list D) : Prop := {
  st_perm : Permutation inp out;
  st_ss : SS out;
  st_filter : forall k, filter (equivb lt k) out = filter (equivb lt k) inp }.

Lemma filter_nil_all (f : D -> bool) l : (forall x, In x l -> f x = false) -> filter f l = [].
Proof.
  induction l as [|a l IH]; intros H; simpl; auto.
  rewrite H by (left; auto). apply IH; intros; apply H; right; auto.
Qed.

Lemma filter_nil_inv (f : D -> bool) l x : filter f l = [] -> In x l -> f x = false.
Proof.
  intros H Hin; destruct (f x) eqn:E; auto.
  assert (In x (filter f l)) by (apply filter_In; auto). rewrite H in *; easy.
Qed.

Lemma equivb_ext_filter k x l :
  equivb lt k x = true -> filter (equivb lt k) l = filter (equivb lt x) l.
Proof.
  intros H; apply filter_ext; intros y.
  destruct (equivb lt x y) eqn:E.
  - eapply equivb_trans; eauto.
  - destruct (equivb lt k y) eqn:E2; auto.
    rewrite <- E. symmetry. eapply equivb_trans; [|exact E2]. rewrite equivb_sym; auto.
Qed.

Lemma Permutation_In_filter_nil (f : D -> bool) l1 l2 :
  Permutation l1 l2 -> filter f l1 = [] -> filter f l2 = [].
Proof.
  intros P H; apply filter_nil_all; intros x Hx.
  eapply filter_nil_inv; eauto. eapply Permutation_in; [symmetry|]; eauto.
Qed.

Lemma stable_iff inp out : stable inp out <-> stably_sorts lt inp out.
Proof.
  split; intros [P S F]; constructor; auto.
  - apply SS_sorted_by; auto.
  - apply SS_sorted_by; auto.
  - intros k. destruct (filter (equivb lt k) inp) as [|x l] eqn:E.
    + eapply Permutation_In_filter_nil; eauto.
    + rewrite <- E.
      assert (Hx : In x (filter (equivb lt k) inp)) by (rewrite E; left; auto).
      apply filter_In in Hx as [Hin Hk].
      rewrite !(equivb_ext_filter k x) by auto. auto.
Qed.

Lemma stable_length inp out : stable inp out -> length out = length inp.
Proof. intros [P _ _]; apply Permutation_length in P; auto. Qed.

(** Reference merge: take from the right run only when strictly less. *)
Fixpoint mergeL (L : list D) : list D -> list D :=
  match L with
  | [] => fun R => R
  | x :: L' =>
      fix mergeR (R : list D) : list D :=
        match R with
        | [] => L
        | y :: R' => if lt y x then y :: mergeR R' else x :: mergeL L' R
        end
  end.

Lemma mergeL_nil_r L : mergeL L [] = L.
Proof. destruct L; auto. Qed.

Lemma mergeL_cons x L y R :
  mergeL (x :: L) (y :: R) = if lt y x then y :: mergeL (x :: L) R else x :: mergeL L (y :: R).
Proof. reflexivity. Qed.

Lemma merge_ind (P : list D -> list D -> Prop) :
  (forall R, P [] R) -> (forall L, P L []) ->
  (forall x L y R, lt y x = true -> P (x :: L) R -> P (x :: L) (y :: R)) ->
  (forall x L y R, lt y x = false -> P L (y :: R) -> P (x :: L) (y :: R)) ->
  forall L R, P L R.
Proof.
  intros H1 H2 H3 H4 L; induction L as [|x L IHL]; intros R; auto.
  induction R as [|y R IHR]; auto.
  destruct (lt y x) eqn:E; auto.
Qed.

Lemma mergeL_perm L R : Permutation (L ++ R) (mergeL L R).
Proof.
  apply (merge_ind (fun L R => Permutation (L ++ R) (mergeL L R))); clear L R.
  - intros R; simpl; auto.
  - intros L; rewrite mergeL_nil_r, app_nil_r; auto.
  - intros x L y R E IH. rewrite mergeL_cons, E.
    etransitivity; [symmetry; apply Permutation_middle|]. constructor; auto.
  - intros x L y R E IH. rewrite mergeL_cons, E. simpl. constructor; auto.
Qed.

Lemma mergeL_length L R : length (mergeL L R) = length L + length R.
Proof. rewrite <- (Permutation_length (mergeL_perm L R)), app_length; auto. Qed.

Lemma SS_inv x l : SS (x :: l) -> SS l /\ forall y, In y l -> ngt x y.
Proof. intros H; inversion H; subst; split; auto. apply Forall_forall; auto. Qed.

Lemma SS_cons x l : SS l -> (forall y, In y l -> ngt x y) -> SS (x :: l).
Proof. intros; constructor; auto. apply Forall_forall; auto. Qed.

Lemma mergeL_SS L R : SS L -> SS R -> SS (mergeL L R).
Proof.
  apply (merge_ind (fun L R => SS L -> SS R -> SS (mergeL L R))); clear L R.
  - simpl; auto.
  - intros; rewrite mergeL_nil_r; auto.
  - intros x L y R E IH HL HR. rewrite mergeL_cons, E.
    destruct (SS_inv _ _ HR) as [HR' Hy]. apply SS_cons; auto.
    intros z Hz. eapply Permutation_in in Hz; [|symmetry; apply mergeL_perm].
    apply in_app_or in Hz as [Hz|Hz]; auto.
    apply ngt_trans with x; [apply lt_asym; auto|].
    destruct Hz as [<-|Hz]; [apply ngt_refl|]. apply (SS_inv _ _ HL); auto.
  - intros x L y R E IH HL HR. rewrite mergeL_cons, E.
    destruct (SS_inv _ _ HL) as [HL' Hx]. apply SS_cons; auto.
    intros z Hz. eapply Permutation_in in Hz; [|symmetry; apply mergeL_perm].
    apply in_app_or in Hz as [Hz|Hz]; auto.
    apply ngt_trans with y; auto.
    destruct Hz as [<-|Hz]; [apply ngt_refl|]. apply (SS_inv _ _ HR); auto.
Qed.

Lemma filter_cons' (f : D -> bool) x l :
  filter f (x :: l) = if f x then x :: filter f l else filter f l.
Proof. reflexivity. Qed.

Lemma mergeL_filter L R k : SS L ->
  filter (equivb lt k) (mergeL L R) = filter (equivb lt k) (L ++ R).
Proof.
  apply (merge_ind (fun L R => SS L ->
    filter (equivb lt k) (mergeL L R) = filter (equivb lt k) (L ++ R))); clear L R.
  - auto.
  - intros; rewrite mergeL_nil_r, app_nil_r; auto.
  - intros x L y R E IH HL. rewrite mergeL_cons, E, !filter_app.
    rewrite (filter_cons' _ y (mergeL _ _)), (filter_cons' _ y R), IH, filter_app by auto.
    destruct (equivb lt k y) eqn:Ek.
    + replace (filter (equivb lt k) (x :: L)) with (@nil D).
      * auto.
      * symmetry; apply filter_nil_all. intros z Hz.
        destruct (equivb lt k z) eqn:Ez; auto.
        assert (Hzx : ngt x z) by (destruct Hz as [<-|Hz]; [apply ngt_refl|apply (SS_inv _ _ HL); auto]).
        assert (Hzy : equivb lt z y = true)
          by (eapply equivb_trans; [rewrite equivb_sym; exact Ez|auto]).
        apply equivb_spec in Hzy as [_ Hyz].
        assert (ngt x y) by (apply ngt_trans with z; auto). unfold ngt in *; congruence.
    + auto.
  - intros x L y R E IH HL. rewrite mergeL_cons, E. simpl.
    destruct (SS_inv _ _ HL) as [HL' _]. rewrite IH by auto. auto.
Qed.

Lemma stable_merge l r L R : stable l L -> stable r R -> stable (l ++ r) (mergeL L R).
Proof.
  intros [PL SL FL] [PR SR FR]; constructor.
  - etransitivity; [|apply mergeL_perm]. apply Permutation_app; auto.
  - apply mergeL_SS; auto.
  - intros k. rewrite mergeL_filter, !filter_app, FL, FR by auto. auto.
Qed.

Lemma stable_single x : stable [x] [x].
Proof. constructor; auto. constructor; constructor. Qed.

Lemma stable_nil : stable [] [].
Proof. constructor; auto. constructor. Qed.

(** Uniqueness of the stable sort. *)
Lemma SS_unique l1 l2 : SS l1 -> SS l2 -> Permutation l1 l2 ->
  (forall k, filter (equivb lt k) l1 = filter (equivb lt k) l2) -> l1 = l2.
Proof.
  revert l2; induction l1 as [|x l1 IH]; intros l2 S1 S2 P F.
  - apply Permutation_nil in P; auto.
  - destruct l2 as [|y l2]; [symmetry in P; apply Permutation_nil in P; discriminate|].
    destruct (SS_inv _ _ S1) as [S1' H1]. destruct (SS_inv _ _ S2) as [S2' H2].
    assert (Hxy : equivb lt x y = true).
    { assert (In x (y :: l2)) by (eapply Permutation_in; [exact P|left; auto]).
      assert (In y (x :: l1)) by (eapply Permutation_in; [symmetry; exact P|left; auto]).
      apply equivb_spec; split.
      - destruct H as [<-|H]; [apply ngt_refl|]. apply H2; auto.
      - destruct H0 as [<-|H0]; [apply ngt_refl|]. apply H1; auto. }
    pose proof (F x) as Fx. simpl in Fx. rewrite equivb_refl, Hxy in Fx.
    injection Fx as <- _. f_equal. apply IH; auto.
    + eapply Permutation_cons_inv; eauto.
    + intros k. specialize (F k). simpl in F. destruct (equivb lt k x); congruence.
Qed.

Lemma stable_unique inp o1 o2 : stable inp o1 -> stable inp o2 -> o1 = o2.
Proof.
  intros [P1 S1 F1] [P2 S2 F2]; apply SS_unique; auto.
  - etransitivity; [symmetry|]; eauto.
  - intros k; rewrite F1, F2; auto.
Qed.
End Stable.

(** Sorting by a secondary key, then stably by a primary key. *)
Section Compose.
Context {D : Type} (lt1 lt2 : D -> D -> bool).

Definition lex (a b : D) : bool := lt2 a b || (equivb lt2 a b && lt1 a b).

Lemma lex_strict_weak : strict_weak lt1 -> strict_weak lt2 -> strict_weak lex.
Proof.
  intros S1 S2; unfold lex; constructor.
  - intros a. rewrite (sw_irrefl _ S1), (sw_irrefl _ S2), andb_false_r; auto.
  - intros a b c; rewrite !orb_true_iff, !andb_true_iff.
    intros [H|[H H']] [G|[G G']].
    + left; eapply sw_trans; eauto.
    + left. apply equivb_spec in G as [G1 G2]; auto.
      destruct (sw_weak _ S2 a c b H); auto; congruence.
    + left. apply equivb_spec in H as [H1 H2]; auto.
      destruct (sw_weak _ S2 b a c G); auto; congruence.
    + right; split; [eapply (equivb_trans lt2 S2); eauto | eapply sw_trans; eauto].
  - intros a b c; rewrite !orb_true_iff, !andb_true_iff. intros [H|[H H']].
    + destruct (sw_weak _ S2 a b c H); auto.
    + destruct (lt2 a b) eqn:E1; auto. destruct (lt2 b c) eqn:E2; auto.
      apply (equivb_spec lt2) in H as [Hac Hca].
      assert (Hba : lt2 b a = false).
      { destruct (lt2 b a) eqn:E; auto. destruct (sw_weak _ S2 b c a E); congruence. }
      assert (Hcb : lt2 c b = false).
      { destruct (lt2 c b) eqn:E; auto. destruct (sw_weak _ S2 c a b E); congruence. }
      destruct (sw_weak _ S1 a b c H').
      * left; right; split; auto. apply equivb_spec; auto.
      * right; right; split; auto. apply equivb_spec; auto.
Qed.

Lemma lex_equivb k x : strict_weak lt2 ->
  equivb lex k x = equivb lt2 k x && equivb lt1 k x.
Proof.
  intros S2. unfold lex. destruct (equivb lt2 k x) eqn:E; simpl.
  - pose proof E as E'. rewrite equivb_sym in E' by auto.
    apply equivb_spec in E as E1. destruct E1 as [H1 H2].
    unfold equivb at 1. rewrite H1, H2, E'. simpl. rewrite E. reflexivity.
  - unfold equivb at 1. rewrite (equivb_sym lt2 x k), E. simpl. rewrite !orb_false_r.
    exact E.
Qed.

Lemma filter_filter_andb (f g : D -> bool) l :
  filter f (filter g l) = filter (fun x => g x && f x) l.
Proof.
  induction l as [|a l IH]; simpl; auto.
  destruct (g a) eqn:E; simpl; rewrite ?IH; auto.
Qed.

Lemma SS_filter (lt : D -> D -> bool) f l : SS lt l -> SS lt (filter f l).
Proof.
  induction 1 as [|a l Hl IH Hall]; simpl; [constructor|].
  destruct (f a); auto. constructor; auto.
  rewrite Forall_forall in *. intros x Hx. apply filter_In in Hx as [Hx _]. auto.
Qed.

Lemma SS_lex o : strict_weak lt2 -> SS lt2 o ->
  (forall k, SS lt1 (filter (equivb lt2 k) o)) -> SS lex o.
Proof.
  intros SW2; induction o as [|x o IH]; intros H2 H1; [constructor|].
  destruct (SS_inv _ _ _ H2) as [H2' Hx].
  apply SS_cons.
  - apply IH; auto. intros k. specialize (H1 k). simpl in H1.
    destruct (equivb lt2 k x); auto. apply (SS_inv _ _ _ H1).
  - intros y Hy. unfold ngt, lex. specialize (Hx y Hy). unfold ngt in Hx. rewrite Hx. simpl.
    destruct (equivb lt2 y x) eqn:E; auto.
    specialize (H1 x). simpl in H1. rewrite (equivb_refl lt2 SW2) in H1.
    apply (SS_inv _ _ _ H1). apply filter_In; split; auto. rewrite equivb_sym; auto.
Qed.

Lemma stable_compose l m o : strict_weak lt1 -> strict_weak lt2 ->
  stable lt1 l m -> stable lt2 m o -> stable lex l o.
Proof.
  intros SW1 SW2 [P1 S1 F1] [P2 S2 F2]; constructor.
  - etransitivity; eauto.
  - apply SS_lex; auto. intros k. rewrite F2. apply SS_filter; auto.
  - intros k.
    assert (E : forall q, filter (equivb lex k) q = filter (equivb lt1 k) (filter (equivb lt2 k) q)).
    { intros q. rewrite filter_filter_andb. apply filter_ext. intros x. apply lex_equivb; auto. }
    rewrite !E, F2, !filter_filter_andb.
    assert (E2 : forall q, filter (fun x => equivb lt2 k x && equivb lt1 k x) q
                 = filter (equivb lt2 k) (filter (equivb lt1 k) q)).
    { intros q. rewrite filter_filter_andb. apply filter_ext. intros x. apply andb_comm. }
    rewrite !E2, F1. auto.
Qed.
End Compose.

(** A stable sort depends only on the order restricted to the elements. *)
Lemma stable_ext {D} (lt lt' : D -> D -> bool) inp out :
  strict_weak lt' ->
  (forall x y, In x inp -> In y inp -> lt x y = lt' x y) ->
  stable lt inp out -> stable lt' inp out.
Proof.
  intros SW' H [P S F].
  apply stable_iff; auto. constructor; auto.
  - apply SS_sorted_by in S; auto. intros i j x y Hij Hi Hj. rewrite <- H.
    + eapply S; eauto.
    + eapply Permutation_in; [symmetry; eauto|]. eapply nth_error_In; eauto.
    + eapply Permutation_in; [symmetry; eauto|]. eapply nth_error_In; eauto.
  - intros k Hk. specialize (F k).
    assert (E : forall q, (forall x, In x q -> In x inp) ->
              filter (equivb lt' k) q = filter (equivb lt k) q).
    { intros q Hq. apply filter_ext_in. intros x Hx. unfold equivb. rewrite !H; auto. }
    rewrite !E; auto. intros x Hx. eapply Permutation_in; [symmetry; eauto|]. auto.
Qed.

Lemma stable_trivial {D} (lt : D -> D -> bool) l :
  (forall x y, In x l -> In y l -> lt x y = false) -> stable lt l l.
Proof.
  intros H; constructor; auto.
  induction l as [|a l IH]; constructor.
  - apply IH; intros; apply H; right; auto.
  - apply Forall_forall; intros x Hx. unfold ngt. apply H; [right|left]; auto.
Qed.
