(** sarray_permute_, sarray_sort and crystal_tuple_sort. *)
From Verif Require Import Base BaseLemmas Sort SortSpec SarraySpec SortLemmas SortMergeProof SortRadixProof SortProof Sarray.
From Coq Require Import ZifyBool ZifyNat ZifyN.
Ltac Zify.zify_post_hook ::= idtac.

Section PermuteProof.
Context {T : Type} (d : T).
Variables (A0 : list T) (perm : list nat).
Let n := length A0.
Hypothesis HP : is_perm n perm.

Let p (j : nat) : nat := nth j perm 0.

Lemma perm_len : length perm = n.
Proof. apply Permutation_length in HP. rewrite seq_length in HP; auto. Qed.

Lemma p_lt j : j < n -> p j < n.
Proof.
  intros Hj. assert (In (p j) perm) by (apply nth_In; rewrite perm_len; auto).
  eapply Permutation_in in H; [|symmetry; exact HP]. apply in_seq in H; lia.
Qed.

Lemma perm_nodup : NoDup perm.
Proof. eapply Permutation_NoDup; [exact HP|]. apply seq_NoDup. Qed.

Lemma p_inj i j : i < n -> j < n -> p i = p j -> i = j.
Proof.
  intros Hi Hj E. eapply (proj1 (NoDup_nth perm 0)); eauto using perm_nodup; rewrite perm_len; auto.
Qed.

Definition mark (j : nat) : Z := (- Z.of_nat (p j) - 1)%Z.

(** State of the arrays: [vis] positions hold their final value, [neg] ones are marked,
    [hole] is the position about to be overwritten. *)
Record shape (done : list nat) (k : nat) (path : list nat) (hole : option nat)
  (A : list T) (f : list Z) : Prop := {
  sh_lenA : length A = n;
  sh_lenf : length f = n;
  sh_A : forall j, j < n -> Some j <> hole ->
     nth_error A j = nth_error A0 (if in_dec Nat.eq_dec j (done ++ path) then p j else j);
  sh_f : forall j, j < n ->
     nth_error f j = Some (if in_dec Nat.eq_dec j done then
                             if j <? k then Z.of_nat (p j) else mark j
                           else if in_dec Nat.eq_dec j (tl path) then mark j
                           else Z.of_nat (p j)) }.

Definition closed (done : list nat) : Prop := forall j, j < n -> (In j done <-> In (p j) done).

Lemma rdz_nat {B} (l : list B) (i : nat) : rdz l (Z.of_nat i) = rd l i.
Proof. unfold rdz. destruct (Z.ltb_spec (Z.of_nat i) 0); [lia|]. rewrite Nat2Z.id; auto. Qed.
Lemma wrz_nat {B} (l : list B) (i : nat) v : wrz l (Z.of_nat i) v = wr l i v.
Proof. unfold wrz. destruct (Z.ltb_spec (Z.of_nat i) 0); [lia|]. rewrite Nat2Z.id; auto. Qed.

Fixpoint chain (x : nat) (l : list nat) : Prop :=
  match l with [] => True | y :: l' => y = p x /\ chain y l' end.

Lemma last_dflt (l : list nat) a x y : last (a :: l) x = last (a :: l) y.
Proof. revert a; induction l as [|c l IH]; intros a; auto. apply (IH c). Qed.

Lemma chain_snoc l : forall x, chain x l -> chain x (l ++ [p (last l x)]).
Proof.
  induction l as [|y l IH]; intros x; simpl; auto.
  intros [-> H]. split; auto. specialize (IH _ H).
  destruct l as [|b l]; auto. rewrite (last_dflt l b x (p x)). auto.
Qed.

(** Every element of a chain after the start is the image of an element other than the last. *)
Lemma chain_in_pred l x y : chain x l -> In y l -> NoDup (x :: l) ->
  exists z, In z (x :: l) /\ y = p z /\ z <> last l x.
Proof.
  revert x; induction l as [|a l IH]; intros x H Hy ND; [easy|].
  destruct H as [-> H]. destruct Hy as [<-|Hy].
  - exists x. split; [left; auto|]. split; auto.
    assert (Hl : In (last (p x :: l) x) (p x :: l)).
    { destruct (exists_last (l:=p x :: l)) as (l' & b & E); [discriminate|].
      rewrite E, last_last. apply in_or_app; right; left; auto. }
    intros E. rewrite <- E in Hl. inversion ND; auto.
  - inversion ND; subst. destruct (IH _ H Hy) as (z & Hz & -> & Hne); auto.
    exists z. split; [right; auto|]. split; auto.
    intros E. apply Hne. rewrite E. destruct l as [|b l]; [easy|].
    change (last (p x :: b :: l) x) with (last (b :: l) x). apply last_dflt.
Qed.

Lemma chain_closed_path l k : chain k l -> p (last l k) = k ->
  (forall j, In j (k :: l) -> j < n) -> NoDup (k :: l) ->
  forall j, j < n -> (In j (k :: l) <-> In (p j) (k :: l)).
Proof.
  intros HC HL Hn ND j Hj. split; intros H.
  - clear Hn ND. revert H. 
    assert (G : forall l x, chain x l -> In j (x :: l) -> In (p j) (x :: l) \/ j = last l x).
    { clear. induction l as [|y l IH]; intros x HC Hj.
      - destruct Hj as [<-|[]]; auto.
      - destruct HC as [-> HC]. destruct Hj as [<-|Hj]; [left; right; left; auto|].
        destruct (IH _ HC Hj) as [H|H]; [left; right; auto|].
        right. rewrite H. destruct l as [|b l]; auto.
        change (last (p x :: b :: l) x) with (last (b :: l) x). apply last_dflt. }
    intros H. destruct (G _ _ HC H) as [G1|G1]; auto. rewrite G1, HL. left; auto.
  - destruct H as [H|H].
    + assert (Hlast : In (last l k) (k :: l)).
      { destruct l as [|b l]; [left; auto|]. right.
        destruct (exists_last (l:=b :: l)) as (l' & c & E); [discriminate|].
        rewrite E, last_last. apply in_or_app; right; left; auto. }
      assert (Ej : j = last l k); [apply p_inj; auto; congruence|rewrite Ej; auto].
    + destruct (chain_in_pred _ _ _ HC H ND) as (z & Hz & E & _).
      assert (Ej : j = z); [apply p_inj; auto|rewrite Ej; auto].
Qed.

Lemma cycle_ok done k : k < n -> ~ In k done -> closed done -> (forall j, j < k -> In j done) ->
  forall fuel path A f,
  (forall j, In j (k :: path) -> j < n /\ ~ In j done) -> NoDup (k :: path) -> chain k path ->
  p (last path k) <> k -> n - length path < fuel ->
  shape done k (k :: path) (Some (last path k)) A f ->
  exists path' A' f',
    permute_cycle fuel A f k (Z.of_nat (last path k)) (Z.of_nat (p (last path k))) (nth k A0 d)
      = Ok (A', f') /\
    NoDup (k :: path') /\
    (forall j, In j (k :: path') -> j < n /\ ~ In j done) /\
    (forall j, j < n -> (In j (k :: path') <-> In (p j) (k :: path'))) /\
    shape done k (k :: path') None A' f'.
Proof.
  intros Hk Hkd Hcl Hlow. induction fuel as [|fuel IH]; intros path A f Hin ND HC Hne Hf [LA Lf HA Hff]; [lia|].
  set (dst := last path k) in *. set (pi := p dst).
  assert (Hdst : In dst (k :: path)).
  { unfold dst. destruct path as [|b l]; [left; auto|]. right.
    destruct (exists_last (l:=b :: l)) as (l' & c & E); [discriminate|].
    rewrite E, last_last. apply in_or_app; right; left; auto. }
  assert (Hdst_n : dst < n) by (apply Hin; auto).
  assert (Hpi_n : pi < n) by (apply p_lt; auto).
  assert (Hpi_done : ~ In pi done).
  { intros H. apply (Hin dst Hdst). apply (proj2 (Hcl dst Hdst_n)); auto. }
  assert (Hpi_path : ~ In pi (k :: path)).
  { intros [H|H]; [apply Hne; symmetry; exact H|].
    destruct (chain_in_pred _ _ _ HC H ND) as (z & Hz & E & Hz2).
    apply Hz2. apply p_inj; auto. apply Hin; auto. }
  assert (EApi : nth_error A pi = nth_error A0 pi).
  { rewrite HA; auto.
    - destruct (in_dec _ pi (done ++ k :: path)) as [H|H]; auto.
      apply in_app_or in H. tauto.
    - intros E. injection E as E. apply Hpi_path. rewrite E. auto. }
  assert (Efpi : nth_error f pi = Some (Z.of_nat (p pi))).
  { rewrite Hff by auto. destruct (in_dec _ pi done); [tauto|].
    destruct (in_dec _ pi (tl (k :: path))) as [H|H]; auto. exfalso; apply Hpi_path; right; auto. }
  cbn [permute_cycle]. rewrite rdz_nat. fold pi.
  destruct (nth_error_lt_Some A0 pi Hpi_n) as [v Hv].
  assert (Hrd : rd A pi = Ok v) by (apply rd_ok; congruence).
  rewrite Hrd. cbn [bind]. rewrite wrz_nat, wr_ok by lia. cbn [bind].
  rewrite rdz_nat, (rd_ok _ _ _ Efpi). cbn [bind]. rewrite wrz_nat, wr_ok by lia. cbn [bind].
  assert (ND' : NoDup (k :: path ++ [pi])).
  { change (k :: path ++ [pi]) with ((k :: path) ++ [pi]).
    eapply Permutation_NoDup; [apply Permutation_app_comm|]. simpl. constructor; auto. }
  assert (HC' : chain k (path ++ [pi])) by (apply chain_snoc; auto).
  assert (Hin' : forall j, In j (k :: path ++ [pi]) -> j < n /\ ~ In j done).
  { intros j Hj. change (k :: path ++ [pi]) with ((k :: path) ++ [pi]) in Hj.
    apply in_app_or in Hj as [Hj|[<-|[]]]; auto. }
  assert (Elast : last (path ++ [pi]) k = pi) by apply last_last.
  assert (SH : shape done k (k :: path ++ [pi]) (Some pi) (upd A dst v) (upd f pi (mark pi))).
  { constructor; rewrite ?upd_length; auto.
    - intros j Hj Hjh. rewrite nth_error_upd. rewrite LA.
      destruct (Nat.eqb_spec dst j) as [<-|Hjd].
      + destruct (Nat.ltb_spec dst n); [|lia]. simpl.
        destruct (in_dec _ dst (done ++ k :: path ++ [pi])) as [H'|H'].
        * symmetry; auto.
        * exfalso; apply H'. apply in_or_app; right. change (k :: path ++ [pi]) with ((k :: path) ++ [pi]).
          apply in_or_app; left; auto.
      + simpl. rewrite HA by (auto; congruence).
        destruct (in_dec _ j (done ++ k :: path)) as [H1|H1];
          destruct (in_dec _ j (done ++ k :: path ++ [pi])) as [H2|H2]; auto.
        * exfalso; apply H2. apply in_app_or in H1. apply in_or_app. destruct H1 as [H1|H1]; auto.
          right. change (k :: path ++ [pi]) with ((k :: path) ++ [pi]). apply in_or_app; auto.
        * exfalso; apply H1. apply in_app_or in H2. apply in_or_app. destruct H2 as [H2|H2]; auto.
          right. change (k :: path ++ [pi]) with ((k :: path) ++ [pi]) in H2.
          apply in_app_or in H2 as [H2|[H2|[]]]; auto. congruence.
    - intros j Hj. rewrite nth_error_upd, Lf. cbn [tl] in *.
      destruct (Nat.eqb_spec pi j) as [<-|Hjd].
      + destruct (Nat.ltb_spec pi n); [|lia]. simpl.
        destruct (in_dec _ pi done); [tauto|].
        destruct (in_dec _ pi (path ++ [pi])) as [H'|H']; auto.
        exfalso; apply H'. apply in_or_app; right; left; auto.
      + simpl. rewrite Hff by auto. destruct (in_dec _ j done); auto.
        destruct (in_dec _ j path) as [H1|H1]; destruct (in_dec _ j (path ++ [pi])) as [H2|H2]; auto.
        * exfalso; apply H2; apply in_or_app; auto.
        * exfalso; apply in_app_or in H2 as [H2|[H2|[]]]; auto. }
  fold (mark pi).
  destruct (Z.eqb_spec (Z.of_nat (p pi)) (Z.of_nat k)) as [Ek|Ek].
  - assert (Epk : p pi = k) by lia.
    rewrite wrz_nat, wr_ok by (rewrite upd_length; lia). cbn [bind].
    exists (path ++ [pi]). eexists _, _. split; [reflexivity|]. split; auto. split; auto. split.
    + apply chain_closed_path; auto.
      * rewrite Elast; auto.
      * intros; apply Hin'; auto.
    + destruct SH as [LA' Lf' HA' Hff']. constructor; rewrite ?upd_length in *; auto.
      intros j Hj _. rewrite nth_error_upd, upd_length, LA.
      destruct (Nat.eqb_spec pi j) as [<-|Hjd].
      * destruct (Nat.ltb_spec pi n); [|lia]. simpl.
        destruct (in_dec _ pi (done ++ k :: path ++ [pi])) as [H'|H'].
        -- rewrite Epk. symmetry. apply nth_error_nth'; auto.
        -- exfalso; apply H'. apply in_or_app; right. right. apply in_or_app; right; left; auto.
      * simpl. apply HA'; auto. congruence.
  - destruct (IH (path ++ [pi]) (upd A dst v) (upd f pi (mark pi))) as (path' & A' & f' & R & H0 & H1 & H2 & H3); auto.
    + rewrite Elast. lia.
    + rewrite app_length. simpl.
      assert (length (k :: path ++ [pi]) <= length (seq 0 n)).
      { apply NoDup_incl_length; auto. intros j Hj. apply in_seq. specialize (Hin' j Hj). lia. }
      simpl in H. rewrite app_length, seq_length in H. simpl in H. lia.
    + rewrite Elast; auto.
    + rewrite Elast in R. exists path', A', f'. auto 6.
Qed.

Lemma permute_step_ok k done A f : k < n -> closed done -> (forall j, j < k -> In j done) ->
  shape done k [] None A f ->
  exists done' A' f', permute_step n (A, f) k = Ok (A', f') /\ closed done' /\
    (forall j, j < S k -> In j done') /\ shape done' (S k) [] None A' f'.
Proof.
  intros Hk Hcl Hlow SH. pose proof SH as [LA Lf HA Hf]. unfold permute_step.
  pose proof (Hf k Hk) as Hfk. cbn [tl] in Hfk.
  destruct (in_dec Nat.eq_dec k done) as [Hd|Hd].
  - destruct (Nat.ltb_spec k k); [lia|]. rewrite (rd_ok _ _ _ Hfk). cbn [bind].
    unfold mark at 1. destruct (Z.ltb_spec (- Z.of_nat (p k) - 1) 0); [|lia].
    rewrite wr_ok by lia. cbn [bind]. exists done. eexists _, _. split; [reflexivity|].
    split; auto. split.
    + intros j Hj. destruct (Nat.eq_dec j k) as [->|]; auto. apply Hlow; lia.
    + constructor; rewrite ?upd_length; auto.
      intros j Hj. rewrite nth_error_upd, Lf.
      destruct (Nat.eqb_spec k j) as [<-|Hne].
      * destruct (Nat.ltb_spec k n); [|lia]. simpl. destruct (in_dec _ k done); [|tauto].
        destruct (Nat.ltb_spec k (S k)); [|lia]. unfold mark. f_equal. lia.
      * simpl. rewrite Hf by auto. cbn [tl].
        destruct (in_dec Nat.eq_dec j done); auto. f_equal.
        destruct (Nat.ltb_spec j k); destruct (Nat.ltb_spec j (S k)); auto; lia.
  - destruct (in_dec Nat.eq_dec k []) as [[]|_]. rewrite (rd_ok _ _ _ Hfk). cbn [bind].
    destruct (Z.ltb_spec (Z.of_nat (p k)) 0); [lia|].
    destruct (Z.eqb_spec (Z.of_nat (p k)) (Z.of_nat k)) as [E|E].
    + assert (Ek : p k = k) by lia.
      exists (k :: done), A, f. split; auto. split; [|split].
      * intros j Hj. split.
        -- intros [<-|H']; [left; auto|]. right; apply (proj1 (Hcl j Hj)); auto.
        -- intros [H'|H'].
           ++ left. apply p_inj; auto. rewrite Ek; auto.
           ++ right. apply (proj2 (Hcl j Hj)); auto.
      * intros j Hj. destruct (Nat.eq_dec j k) as [->|]; [left; auto|right; apply Hlow; lia].
      * constructor; auto.
        -- intros j Hj Hh. rewrite HA by auto. rewrite !app_nil_r.
           destruct (in_dec Nat.eq_dec j done) as [H1|H1];
             destruct (in_dec Nat.eq_dec j (k :: done)) as [H2|H2]; auto.
           ++ exfalso; apply H2; right; auto.
           ++ destruct H2 as [<-|H2]; [congruence|tauto].
        -- intros j Hj. rewrite Hf by auto. cbn [tl]. destruct (in_dec Nat.eq_dec j []) as [[]|_].
           destruct (in_dec Nat.eq_dec j done) as [H1|H1];
             destruct (in_dec Nat.eq_dec j (k :: done)) as [H2|H2]; auto.
           ++ destruct (Nat.ltb_spec j k); destruct (Nat.ltb_spec j (S k)); auto; try lia.
              assert (j = k) by lia; subst; tauto.
           ++ exfalso; apply H2; right; auto.
           ++ destruct H2 as [<-|H2]; [|tauto]. destruct (Nat.ltb_spec k (S k)); auto; lia.
    + assert (EAk : nth_error A k = Some (nth k A0 d)).
      { rewrite HA by (auto; discriminate). rewrite app_nil_r.
        destruct (in_dec Nat.eq_dec k done); [tauto|]. apply nth_error_nth'; auto. }
      rewrite (rd_ok _ _ _ EAk). cbn [bind].
      destruct (cycle_ok done k Hk Hd Hcl Hlow (S n) [] A f) as (path & A' & f' & R & H0 & H1 & H2 & SH').
      * intros j [<-|[]]; auto.
      * constructor; auto. constructor.
      * simpl; auto.
      * simpl. lia.
      * simpl; lia.
      * constructor; auto.
        -- intros j Hj Hh. rewrite HA by (auto; discriminate). rewrite app_nil_r.
           destruct (in_dec Nat.eq_dec j done) as [G1|G1];
             destruct (in_dec Nat.eq_dec j (done ++ [k])) as [G2|G2]; auto.
           ++ exfalso; apply G2; apply in_or_app; auto.
           ++ exfalso. apply in_app_or in G2 as [G2|[G2|[]]]; auto.
      * simpl in R. exists (k :: path ++ done), A', f'. split; auto.
        destruct SH' as [LA' Lf' HA' Hf'].
        assert (Hsplit : forall j, In j (k :: path ++ done) <-> In j (k :: path) \/ In j done).
        { intros j. change (k :: path ++ done) with ((k :: path) ++ done). split; [apply in_app_or|apply in_or_app]. }
        split; [|split].
        -- intros j Hj. rewrite !Hsplit. rewrite (H2 j Hj), (Hcl j Hj). tauto.
        -- intros j Hj. apply Hsplit. destruct (Nat.eq_dec j k) as [->|]; [left; left; auto|right; apply Hlow; lia].
        -- constructor; auto.
           ++ intros j Hj Hh. rewrite HA' by auto. rewrite app_nil_r.
              destruct (in_dec Nat.eq_dec j (done ++ k :: path)) as [G1|G1];
                destruct (in_dec Nat.eq_dec j (k :: path ++ done)) as [G2|G2]; auto.
              ** exfalso. apply G2. apply Hsplit. apply in_app_or in G1. tauto.
              ** exfalso. apply G1. apply Hsplit in G2. apply in_or_app. tauto.
           ++ intros j Hj. rewrite Hf' by auto. cbn [tl]. destruct (in_dec Nat.eq_dec j []) as [[]|_].
              destruct (in_dec Nat.eq_dec j (k :: path ++ done)) as [G2|G2].
              ** apply Hsplit in G2.
                 destruct (in_dec Nat.eq_dec j done) as [G1|G1].
                 --- destruct (Nat.ltb_spec j k); destruct (Nat.ltb_spec j (S k)); auto; try lia.
                     assert (j = k) by lia; subst; tauto.
                 --- destruct G2 as [G2|G2]; [|tauto].
                     assert (~ j < k) by (intros C; apply G1, Hlow; auto).
                     destruct (Nat.ltb_spec j (S k)).
                     +++ assert (j = k) by lia; subst j.
                         destruct (in_dec Nat.eq_dec k path) as [G3|G3]; auto.
                         inversion H0; tauto.
                     +++ destruct G2 as [G2|G2]; [lia|].
                         destruct (in_dec Nat.eq_dec j path); [auto|tauto].
              ** destruct (in_dec Nat.eq_dec j done) as [G1|G1]; [exfalso; apply G2, Hsplit; auto|].
                 destruct (in_dec Nat.eq_dec j path) as [G3|G3]; auto.
                 exfalso; apply G2, Hsplit. left; right; auto.
Qed.

Theorem sarray_permute_ok_d :
  sarray_permute A0 perm = Ok (map (fun j => nth j A0 d) perm, map Z.of_nat perm).
Proof.
  unfold sarray_permute. fold n.
  assert (G : forall k, k <= n -> exists done A f,
     foldM (permute_step n) (seq 0 k) (A0, map Z.of_nat perm) = Ok (A, f) /\ closed done /\
     (forall j, j < k -> In j done) /\ shape done k [] None A f).
  { induction k as [|k IH]; intros Hk.
    - exists [], A0, (map Z.of_nat perm). split; auto. split; [|split].
      + intros j _; split; easy.
      + intros; lia.
      + constructor; auto.
        * rewrite map_length. apply perm_len.
        * intros j Hj. destruct (in_dec Nat.eq_dec j []) as [[]|_].
          destruct (in_dec Nat.eq_dec j (tl [])) as [[]|_].
          apply nth_error_map_Some. apply nth_error_nth'. rewrite perm_len; auto.
    - destruct IH as (done & A & f & R & H1 & H2 & H3); [lia|].
      destruct (permute_step_ok k done A f) as (done' & A' & f' & R' & H1' & H2' & H3'); auto.
      exists done', A', f'. split; auto.
      rewrite seq_S, foldM_app, R. cbn [bind foldM]. change (0 + k) with k. rewrite R'. auto. }
  destruct (G n (Nat.le_refl _)) as (done & A & f & R & H1 & H2 & [LA Lf HA Hf]).
  rewrite R. f_equal. f_equal.
  - apply nth_error_ext. intros j. destruct (lt_dec j n) as [Hj|Hj].
    + rewrite HA by (auto; discriminate). rewrite app_nil_r.
      destruct (in_dec Nat.eq_dec j done) as [_|C]; [|exfalso; auto].
      rewrite nth_error_map. rewrite (nth_error_nth' perm 0) by (rewrite perm_len; auto). simpl.
      apply nth_error_nth'. apply p_lt; auto.
    + rewrite !(proj2 (nth_error_None _ _)); rewrite ?map_length, ?perm_len; auto; lia.
  - apply nth_error_ext. intros j. destruct (lt_dec j n) as [Hj|Hj].
    + rewrite Hf by auto. destruct (in_dec Nat.eq_dec j done) as [_|C]; [|exfalso; auto].
      destruct (Nat.ltb_spec j n); [|lia]. symmetry. apply nth_error_map_Some.
      apply nth_error_nth'. rewrite perm_len; auto.
    + rewrite !(proj2 (nth_error_None _ _)); rewrite ?map_length, ?perm_len; auto; lia.
Qed.
End PermuteProof.

Lemma map_nth_rearranged {T} (A : list T) d p :
  (forall j, In j p -> j < length A) -> rearranged A p (map (fun j => nth j A d) p).
Proof.
  intros H; split; [apply map_length|].
  intros i j Hi. rewrite nth_error_map, Hi. simpl. symmetry. apply nth_error_nth'.
  apply H. eapply nth_error_In; eauto.
Qed.

Lemma is_perm_lt n p j : is_perm n p -> In j p -> j < n.
Proof. intros P Hj. eapply Permutation_in in Hj; [|symmetry; exact P]. apply in_seq in Hj; lia. Qed.

Lemma is_perm_length n p : is_perm n p -> length p = n.
Proof. intros P. apply Permutation_length in P. rewrite seq_length in P; auto. Qed.

Theorem sarray_permute_ok {T} (A : list T) perm : is_perm (length A) perm ->
  exists B, sarray_permute A perm = Ok (B, map Z.of_nat perm) /\ rearranged A perm B.
Proof.
  intros P. destruct A as [|d A'] eqn:EA.
  - exists []. simpl in P. apply Permutation_nil in P. subst perm. split; auto. split; auto.
    intros [|i] j; discriminate.
  - rewrite <- EA in *. exists (map (fun j => nth j A d) perm). split.
    + apply sarray_permute_ok_d; auto.
    + apply map_nth_rearranged. intros j; apply is_perm_lt; auto.
Qed.

Lemma key_lt_sw {T} (A : list T) f : field_ok A f -> strict_weak (key_lt f).
Proof.
  destruct f; simpl.
  - intros _. apply (sw_by key).
  - intros [[H1 H2 H3] _]; constructor; intros; eauto.
Qed.

Lemma index_lt_map {T K} (ltb : K -> K -> bool) (key : T -> K) A d i j :
  i < length A -> j < length A ->
  index_lt ltb (map key A) i j = ltb (key (nth i A d)) (key (nth j A d)).
Proof.
  intros Hi Hj. unfold index_lt. rewrite !nth_error_map, !(nth_error_nth' A d) by auto. auto.
Qed.

Lemma idx_to_elem {T K} (ltb : K -> K -> bool) (key : T -> K) A d p r :
  (forall j, In j p -> j < length A) ->
  stably_sorts (index_lt ltb (map key A)) p r ->
  stably_sorts (fun x y => ltb (key x) (key y)) (map (fun j => nth j A d) p) (map (fun j => nth j A d) r).
Proof.
  intros Hp [P S F].
  assert (Hr : forall j, In j r -> j < length A).
  { intros j Hj. apply Hp. eapply Permutation_in; [symmetry; exact P|]; auto. }
  constructor.
  - apply Permutation_map; auto.
  - intros i j x y Hij Hi Hj. rewrite nth_error_map in Hi, Hj.
    destruct (nth_error r i) as [ri|] eqn:Ei; [|discriminate].
    destruct (nth_error r j) as [rj|] eqn:Ej; [|discriminate].
    simpl in *. injection Hi as <-. injection Hj as <-.
    rewrite <- (index_lt_map ltb key A d) by (apply Hr; eapply nth_error_In; eauto).
    eapply S; eauto.
  - intros k Hk. apply in_map_iff in Hk as (k' & <- & Hk').
    assert (G : forall q, (forall j, In j q -> j < length A) ->
       filter (equivb (fun x y => ltb (key x) (key y)) (nth k' A d)) (map (fun j => nth j A d) q) =
       map (fun j => nth j A d) (filter (equivb (index_lt ltb (map key A)) k') q)).
    { induction q as [|j q IH]; intros Hq; simpl; auto.
      rewrite IH by (intros; apply Hq; right; auto).
      unfold equivb. rewrite !(index_lt_map ltb key A d) by (auto; apply Hq; left; auto).
      destruct (negb _ && negb _); auto. }
    rewrite !G by auto. rewrite F; auto.
Qed.

Lemma sort_field_ok {T} (A : list T) d keep perm f :
  field_ok A f -> length perm = length A -> (keep = true -> is_perm (length A) perm) ->
  let start := if keep then perm else seq 0 (length A) in
  exists r, sort_field A keep perm f = Ok r /\ is_perm (length A) r /\
    stable (key_lt f) (map (fun j => nth j A d) start) (map (fun j => nth j A d) r).
Proof.
  intros Hok Hlen Hk start.
  assert (Ps : is_perm (length A) start) by (unfold start; destruct keep; auto; apply Permutation_refl).
  pose proof (key_lt_sw A f Hok) as SWf.
  destruct f as [D key wlo whi w|R ltb key wlo whi]; simpl in *.
  - destruct Hok as (HD & H1 & H2 & H3).
    destruct (sortp_ok D keep perm (map key A) wlo whi w) as (r & Rr & St); rewrite ?map_length; auto.
    + intros v Hv. apply in_map_iff in Hv as (x & <- & Hx). auto.
    + exists r. rewrite map_length in St. fold start in St.
      split; auto. split.
      * destruct St as [P _ _]. eapply Permutation_trans; [exact Ps|exact P].
      * apply stable_iff; auto. apply idx_to_elem; auto. intros j; apply is_perm_lt; auto.
  - destruct Hok as (SW & H1 & H2).
    destruct (sortp_real_ok ltb keep perm (map key A) wlo whi) as (r & Rr & St); rewrite ?map_length; auto.
    exists r. rewrite map_length in St. fold start in St.
    split; auto. split.
    + destruct St as [P _ _]. eapply Permutation_trans; [exact Ps|exact P].
    + apply stable_iff; auto. apply idx_to_elem; auto. intros j; apply is_perm_lt; auto.
Qed.

Lemma lexicographic_sw {T} (lts : list (T -> T -> bool)) :
  (forall lt, In lt lts -> strict_weak lt) -> strict_weak (lexicographic lts).
Proof.
  induction lts as [|lt lts IH]; intros H.
  - constructor; simpl; auto; try discriminate.
  - simpl. apply (lex_strict_weak (lexicographic lts) lt).
    + apply IH. intros; apply H; right; auto.
    + apply H; left; auto.
Qed.

Lemma sort_fields_ok {T} (A : list T) d perm0 fs :
  fs <> [] -> (forall f, In f fs -> field_ok A f) -> length perm0 = length A ->
  exists r, sort_fields A perm0 fs = Ok r /\ is_perm (length A) r /\
    stable (lexicographic (map key_lt fs)) A (map (fun j => nth j A d) r).
Proof.
  intros Hne Hok Hlen. induction fs as [|f fs IH]; [congruence|].
  assert (SWall : forall g, In g (map key_lt (f :: fs)) -> strict_weak g).
  { intros g Hg. apply in_map_iff in Hg as (f' & <- & Hf'). eapply key_lt_sw. apply Hok; auto. }
  destruct fs as [|f2 fs].
  - cbn [sort_fields].
    destruct (sort_field_ok A d false perm0 f) as (r & R & P & St); auto; [apply Hok; left; auto|discriminate|].
    exists r. split; auto. split; auto. simpl in St. rewrite map_nth_seq in St.
    apply stable_ext with (key_lt f); auto.
    + apply lexicographic_sw; auto.
    + intros x y _ _. simpl. rewrite andb_false_r, orb_false_r. auto.
  - change (sort_fields A perm0 (f :: f2 :: fs)) with
      (perm <- sort_fields A perm0 (f2 :: fs) ;; sort_field A true perm f).
    destruct IH as (r1 & R1 & P1 & St1); [discriminate|intros; apply Hok; right; auto|].
    rewrite R1. cbn [bind].
    destruct (sort_field_ok A d true r1 f) as (r & R & P & St); auto.
    + apply Hok; left; auto.
    + apply is_perm_length; auto.
    + exists r. split; auto. split; auto. cbn [map lexicographic].
      eapply (stable_compose (lexicographic (map key_lt (f2 :: fs))) (key_lt f)); eauto.
      * apply lexicographic_sw. intros; apply SWall; right; auto.
      * apply SWall; left; auto.
Qed.

Theorem sarray_sort_ok {T} (A : list T) perm0 fs :
  fs <> [] -> (forall f, In f fs -> field_ok A f) -> length perm0 = length A ->
  exists B, sarray_sort A perm0 fs = Ok B /\ stably_sorts (lexicographic (map key_lt fs)) A B.
Proof.
  intros Hne Hok Hlen.
  assert (SWall : strict_weak (lexicographic (map key_lt fs))).
  { apply lexicographic_sw. intros g Hg. apply in_map_iff in Hg as (f' & <- & Hf').
    eapply key_lt_sw. apply Hok; auto. }
  unfold sarray_sort. destruct A as [|d A'] eqn:EA.
  - assert (E : forall f keep perm, field_ok (@nil T) f -> sort_field [] keep perm f = Ok perm).
    { intros f keep perm _. destruct f; simpl; auto. }
    assert (E2 : sort_fields [] perm0 fs = Ok perm0).
    { clear Hne SWall EA. induction fs as [|f fs IH]; auto. destruct fs as [|f2 fs].
      - simpl. apply E. apply Hok; left; auto.
      - change (sort_fields [] perm0 (f :: f2 :: fs)) with
          (perm <- sort_fields [] perm0 (f2 :: fs) ;; sort_field [] true perm f).
        rewrite IH by (intros; apply Hok; right; auto). cbn [bind]. apply E. apply Hok; left; auto. }
    rewrite E2. cbn [bind]. exists []. split; auto. apply stable_iff; auto. apply stable_nil.
  - rewrite <- EA in *. destruct (sort_fields_ok A d perm0 fs) as (r & R & P & St); auto.
    rewrite R. cbn [bind]. rewrite (sarray_permute_ok_d d A r P). cbn [bind].
    exists (map (fun j => nth j A d) r). split; auto. apply stable_iff; auto.
Qed.

(** ** crystal_tuple_sort *)
Section TupleSortProof.
Context {R : Type}.
Variables (DI DL mi ml md : nat).

Lemma tuple_sort_keys_ok (Ai Al : list (list N)) wlo whi w perm0 d :
  let A := combine Ai Al in
  length Ai = length Al -> length perm0 = length A ->
  length wlo = length A -> length whi = length A -> length w = length A ->
  (forall c v, In c Ai -> In v c -> (v < 2 ^ (8 * N.of_nat DI))%N) ->
  (forall c v, In c Al -> In v c -> (v < 2 ^ (8 * N.of_nat DL))%N) ->
  forall keys, keys <> [] -> keys_ok mi ml keys ->
  exists r, foldM (tuple_sort_key DI DL mi ml Ai Al wlo whi w) (rev keys) (false, perm0) = Ok (true, r)
    /\ is_perm (length A) r
    /\ stable (lexicographic (tuple_lts mi keys)) A (map (fun j => nth j A d) r).
Proof.
  intros A HL Hp Hlo Hhi Hw HvI HvL.
  assert (HA : length A = length Ai) by (unfold A; rewrite combine_length; lia).
  assert (EAi : map fst A = Ai).
  { unfold A. clear - HL. revert Al HL; induction Ai as [|a l IH]; intros [|b l'] H; simpl in *; try lia; auto.
    f_equal; apply IH; lia. }
  assert (EAl : map snd A = Al).
  { unfold A. clear - HL. revert Al HL; induction Ai as [|a l IH]; intros [|b l'] H; simpl in *; try lia; auto.
    f_equal; apply IH; lia. }
  assert (Hcol : forall k c D, (forall v, In v c -> (v < 2 ^ (8 * N.of_nat D))%N) ->
                 (col k c < 2 ^ (8 * N.of_nat D))%N).
  { intros k c D H. unfold col. destruct (lt_dec k (length c)).
    - apply H, nth_In; auto.
    - rewrite nth_overflow by lia. apply N.neq_0_lt_0, N.pow_nonzero. discriminate. }
  assert (Step : forall keep perm k, length perm = length A -> (keep = true -> is_perm (length A) perm) ->
    (1 <= k <= Z.of_nat (mi + ml))%Z ->
    exists r, tuple_sort_key DI DL mi ml Ai Al wlo whi w (keep, perm) k = Ok (true, r) /\
      is_perm (length A) r /\
      stable (fun x y => (tuple_key mi k x <? tuple_key mi k y)%N)
        (map (fun j => nth j A d) (if keep then perm else seq 0 (length A)))
        (map (fun j => nth j A d) r)).
  { intros keep perm k Hlen Hkeep Hk. unfold tuple_sort_key.
    destruct (Z.ltb_spec (k - 1) 0); [lia|]. destruct (Z.leb_spec (Z.of_nat (mi + ml)) (k - 1)); [lia|].
    cbn [orb]. destruct (Z.ltb_spec (k - 1) (Z.of_nat mi)) as [Hm|Hm].
    - destruct (sort_field_ok A d keep perm (FInt DI (tuple_key mi k) wlo whi w)) as (r & Rr & P & St); auto.
      + split; auto. intros x Hx. unfold tuple_key. destruct (Z.leb_spec k (Z.of_nat mi)); [|lia].
        apply Hcol. intros v Hv. apply HvI with (fst x); auto. rewrite <- EAi. apply in_map; auto.
      + exists r. simpl in Rr.
        replace (map (col (Z.to_nat (k - 1))) Ai) with (map (tuple_key mi k) A).
        * rewrite Rr. cbn [bind]. auto.
        * rewrite <- EAi, map_map. apply map_ext. intros x. unfold tuple_key.
          destruct (Z.leb_spec k (Z.of_nat mi)); [|lia]. unfold col. f_equal. lia.
    - destruct (sort_field_ok A d keep perm (FInt DL (tuple_key mi k) wlo whi w)) as (r & Rr & P & St); auto.
      + split; auto. intros x Hx. unfold tuple_key. destruct (Z.leb_spec k (Z.of_nat mi)); [lia|].
        apply Hcol. intros v Hv. apply HvL with (snd x); auto. rewrite <- EAl. apply in_map; auto.
      + exists r. simpl in Rr.
        replace (map (col (Z.to_nat (k - 1) - mi)) Al) with (map (tuple_key mi k) A).
        * rewrite Rr. cbn [bind]. auto.
        * rewrite <- EAl, map_map. apply map_ext. intros x. unfold tuple_key.
          destruct (Z.leb_spec k (Z.of_nat mi)); [lia|]. unfold col. f_equal. lia. }
  assert (SWk : forall keys, strict_weak (lexicographic (tuple_lts mi keys))).
  { intros keys. apply lexicographic_sw. intros g Hg. unfold tuple_lts in Hg.
    apply in_map_iff in Hg as (k & <- & _). apply (sw_by (tuple_key mi k)). }
  induction keys as [|k keys IH]; intros Hne Hok; [congruence|].
  destruct keys as [|k2 keys].
  - destruct (Step false perm0 k) as (r & Rr & P & St); auto; [discriminate|apply Hok; left; auto|].
    exists r. cbn [rev app foldM]. rewrite Rr. cbn [bind foldM]. split; auto. split; auto.
    rewrite map_nth_seq in St.
    eapply stable_ext; [apply SWk| |exact St]. intros x y _ _. simpl.
    rewrite andb_false_r, orb_false_r. auto.
  - destruct IH as (r1 & R1 & P1 & St1); [discriminate|intros k' Hk'; apply Hok; right; auto|].
    destruct (Step true r1 k) as (r & Rr & P & St); auto.
    + apply is_perm_length; auto.
    + apply Hok; left; auto.
    + exists r. change (rev (k :: k2 :: keys)) with (rev (k2 :: keys) ++ [k]).
      rewrite foldM_app, R1. cbn [bind foldM]. rewrite Rr. cbn [bind]. split; auto. split; auto.
      change (tuple_lts mi (k :: k2 :: keys)) with
        ((fun x y => (tuple_key mi k x <? tuple_key mi k y)%N) :: tuple_lts mi (k2 :: keys)).
      cbn [lexicographic].
      eapply (stable_compose (lexicographic (tuple_lts mi (k2 :: keys)))
                (fun x y => (tuple_key mi k x <? tuple_key mi k y)%N)); eauto.
      apply (sw_by (tuple_key mi k)).
Qed.

Lemma perm_of_Z_id p : perm_of_Z (map Z.of_nat p) = p.
Proof. unfold perm_of_Z. rewrite map_map. rewrite <- (map_id p) at 2. apply map_ext. intros; apply Nat2Z.id. Qed.

Lemma tuple_permute_ok {T} m (A : list (list T)) perm : is_perm (length A) perm ->
  (forall c, In c A -> length c = m) ->
  exists B, tuple_permute m A perm = Ok (B, perm) /\ rearranged A perm B.
Proof.
  intros P Hm. unfold tuple_permute. destruct (Nat.eqb_spec m 0) as [->|].
  { exists A. split; auto. split; [symmetry; apply is_perm_length; auto|].
    intros i j Hi.
    assert (Hi' : i < length A) by (rewrite <- (is_perm_length _ _ P); eapply nth_error_Some_lt; eauto).
    assert (Hj : j < length A) by (eapply is_perm_lt; eauto; eapply nth_error_In; eauto).
    destruct (nth_error_lt_Some A i Hi') as [x Hx]. destruct (nth_error_lt_Some A j Hj) as [y Hy].
    rewrite Hx, Hy. f_equal.
    apply nth_error_In in Hx, Hy. apply Hm in Hx, Hy.
    destruct x, y; simpl in *; try lia; auto. }
  destruct (sarray_permute_ok A perm P) as (B & Rr & HB). rewrite Rr. cbn [bind].
  rewrite perm_of_Z_id. eauto.
Qed.

Lemma rearranged_map {T} (A B : list T) p d : (forall j, In j p -> j < length A) ->
  rearranged A p B -> B = map (fun j => nth j A d) p.
Proof.
  intros Hp [HL H]. apply nth_error_ext. intros i.
  destruct (nth_error p i) as [j|] eqn:E.
  - rewrite (H i j E), nth_error_map, E. simpl. apply nth_error_nth'. apply Hp. eapply nth_error_In; eauto.
  - apply nth_error_None in E. rewrite !(proj2 (nth_error_None _ _)); auto; rewrite ?map_length; lia.
Qed.

Theorem tuple_sort_ok (Ai Al : list (list N)) (Ad : list (list R)) keys perm0 wlo whi w n :
  length Ai = n -> length Al = n -> length Ad = n -> length perm0 = n ->
  length wlo = n -> length whi = n -> length w = n ->
  (forall c, In c Ai -> length c = mi) -> (forall c, In c Al -> length c = ml) ->
  (forall c, In c Ad -> length c = md) -> keys <> [] -> keys_ok mi ml keys ->
  (forall c v, In c Ai -> In v c -> (v < 2 ^ (8 * N.of_nat DI))%N) ->
  (forall c v, In c Al -> In v c -> (v < 2 ^ (8 * N.of_nat DL))%N) ->
  exists p Bi Bl Bd, tuple_sort DI DL mi ml md Ai Al Ad keys perm0 wlo whi w = Ok (Bi, Bl, Bd) /\
    is_perm n p /\ rearranged Ai p Bi /\ rearranged Al p Bl /\ rearranged Ad p Bd /\
    stably_sorts (lexicographic (tuple_lts mi keys)) (combine Ai Al) (combine Bi Bl).
Proof.
  intros L1 L2 L3 L4 L5 L6 L7 Hmi Hml Hmd Hk Hok HvI HvL.
  assert (HA : length (combine Ai Al) = n) by (rewrite combine_length; lia).
  destruct (tuple_sort_keys_ok Ai Al wlo whi w perm0 ([], [])) with (keys := keys)
    as (p & Rr & P & St); auto; try lia.
  rewrite HA in P.
  destruct (tuple_permute_ok mi Ai p) as (Bi & Ri & HBi); [rewrite L1; auto|auto|].
  destruct (tuple_permute_ok ml Al p) as (Bl & Rl & HBl); [rewrite L2; auto|auto|].
  destruct (tuple_permute_ok md Ad p) as (Bd & Rd & HBd); [rewrite L3; auto|auto|].
  exists p, Bi, Bl, Bd. split; [|split; [|split; [|split; [|split]]]]; auto.
  - unfold tuple_sort. destruct keys; [congruence|].
    rewrite Rr. cbn [bind]. rewrite Ri. cbn [bind]. rewrite Rl. cbn [bind]. rewrite Rd. auto.
  - apply stable_iff.
    + apply lexicographic_sw. intros g Hg. unfold tuple_lts in Hg.
      apply in_map_iff in Hg as (k & <- & _). apply (sw_by (tuple_key mi k)).
    + replace (combine Bi Bl) with (map (fun j => nth j (combine Ai Al) ([], [])) p); auto.
      rewrite (rearranged_map Ai Bi p []) by (auto; intros j Hj; rewrite L1; eapply is_perm_lt; eauto).
      rewrite (rearranged_map Al Bl p []) by (auto; intros j Hj; rewrite L2; eapply is_perm_lt; eauto).
      clear - L1 L2. induction p as [|j p IH]; auto. cbn [map combine]. rewrite IH. f_equal.
      apply combine_nth. congruence.
Qed.

Theorem tuple_sort_bad_key (Ai Al : list (list N)) (Ad : list (list R)) keys k perm0 wlo whi w :
  ~ (1 <= k <= Z.of_nat (mi + ml))%Z ->
  tuple_sort DI DL mi ml md Ai Al Ad (keys ++ [k]) perm0 wlo whi w = Abort.
Proof.
  intros Hk. unfold tuple_sort.
  assert (E : forall keys : list Z, keys ++ [k] <> []) by (intros l; destruct l; discriminate).
  destruct (keys ++ [k]) eqn:EK; [exfalso; eapply E; eauto|]. rewrite <- EK.
  rewrite rev_app_distr. cbn [rev app foldM]. unfold tuple_sort_key at 1.
  destruct (Z.ltb_spec (k - 1) 0); destruct (Z.leb_spec (Z.of_nat (mi + ml)) (k - 1)); auto. lia.
Qed.
End TupleSortProof.

Theorem sarray_perm_invert_ok n pinv perm : is_perm n perm -> length pinv = n ->
  exists q, sarray_perm_invert pinv perm = Ok q /\ length q = n /\
    forall i j, nth_error perm i = Some j -> nth_error q j = Some i.
Proof.
  intros P HL. pose proof (is_perm_length n perm P) as Lp. unfold sarray_perm_invert. rewrite Lp.
  assert (G : forall k, k <= n -> exists q,
     foldM (fun pinv i => j <- rd perm i ;; wr pinv j i) (seq 0 k) pinv = Ok q /\ length q = n /\
     forall i j, i < k -> nth_error perm i = Some j -> nth_error q j = Some i).
  { induction k as [|k IH]; intros Hk.
    - exists pinv. split; auto. split; auto. intros; lia.
    - destruct IH as (q & Rr & Lq & H); [lia|]. rewrite seq_S, foldM_app, Rr. cbn [bind foldM].
      change (0 + k) with k. destruct (nth_error_lt_Some perm k) as [j Hj]; [lia|].
      rewrite (rd_ok _ _ _ Hj). cbn [bind].
      assert (j < n) by (eapply is_perm_lt; eauto; eapply nth_error_In; eauto).
      rewrite wr_ok by lia. cbn [bind]. eexists. split; [reflexivity|]. rewrite upd_length. split; auto.
      intros i j' Hi Hj'. rewrite nth_error_upd, Lq.
      destruct (Nat.eqb_spec j j') as [<-|Hne].
      + destruct (Nat.ltb_spec j n); [|lia]. simpl. f_equal.
        assert (ND : NoDup perm) by (eapply Permutation_NoDup; [exact P|apply seq_NoDup]).
        rewrite NoDup_nth_error in ND. apply ND; [lia|congruence].
      + simpl. apply H; auto. assert (i <> k) by congruence. lia. }
  destruct (G n (Nat.le_refl _)) as (q & Rr & Lq & H). exists q. split; auto. split; auto.
  intros i j Hij. apply H; auto. apply nth_error_Some_lt in Hij. lia.
Qed.
