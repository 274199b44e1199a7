(** The global hash table: offsets of the lists of processes. *)
From Verif Require Import Base BaseLemmas Sort SortSpec SortLemmas Transfer GsTop GsSortProof ListLemmas Findpts FindptsGlobal FindptsSpec
  FindptsProof1 FindptsProof2 FindptsProof3 FindptsProof5 FindptsGlobalProof1.
From Coq Require Import QArith Qround Lqa Sorting.Sorted.
Open Scope nat_scope.

Lemma sorted_split {X} (f : X -> nat) k (l : list X) : StronglySorted (fun x y => f x <= f y) l ->
  l = filter (fun x => f x <? k) l ++ filter (fun x => negb (f x <? k)) l.
Proof.
  induction 1 as [|x l Hs IH Hx]; cbn [filter]; auto. destruct (Nat.ltb_spec (f x) k); cbn [negb].
  - cbn [app]. f_equal. auto.
  - rewrite Forall_forall in Hx. rewrite (filter_nil_all (fun x => f x <? k) l).
    + cbn [app]. f_equal. rewrite IH at 1. rewrite (filter_nil_all (fun x => f x <? k) l); auto.
      intros y Hy. apply Nat.ltb_ge. specialize (Hx y Hy). lia.
    + intros y Hy. apply Nat.ltb_ge. specialize (Hx y Hy). lia.
Qed.
Lemma sorted_split3 {X} (f : X -> nat) k (l : list X) : StronglySorted (fun x y => f x <= f y) l ->
  exists rest, l = filter (fun x => f x <? k) l ++ filter (fun x => f x =? k) l ++ rest /\
    length (filter (fun x => f x <? k + 1) l) = length (filter (fun x => f x <? k) l) + length (filter (fun x => f x =? k) l).
Proof.
  intros H. pose proof (sorted_split f (k + 1) l H) as E.
  pose proof (sorted_split f k _ (StronglySorted_filter _ (fun x => f x <? k + 1) l H)) as E2.
  rewrite !filter_andb in E2.
  assert (E3 : filter (fun x => (f x <? k + 1) && (f x <? k)) l = filter (fun x => f x <? k) l).
  { apply filter_ext. intros x. destruct (Nat.ltb_spec (f x) (k + 1)), (Nat.ltb_spec (f x) k); auto; lia. }
  assert (E4 : filter (fun x => (f x <? k + 1) && negb (f x <? k)) l = filter (fun x => f x =? k) l).
  { apply filter_ext. intros x. destruct (Nat.ltb_spec (f x) (k + 1)), (Nat.ltb_spec (f x) k), (Nat.eqb_spec (f x) k); auto; lia. }
  rewrite E3, E4 in E2. exists (filter (fun x => negb (f x <? k + 1)) l). split.
  - rewrite app_assoc, <- E2. exact E.
  - rewrite E2, app_length. reflexivity.
Qed.

Lemma mapM_rd_seq {A} (offs : list A) l : forall b, (forall j v, nth_error l j = Some v -> nth_error offs (b + j) = Some v) ->
  mapM (rd offs) (seq b (length l)) = Ok l.
Proof.
  induction l as [|v l IH]; intros b H; cbn [length seq mapM]; auto.
  rewrite (rd_ok offs b v) by (rewrite <- (Nat.add_0_r b); apply (H 0); auto). cbn [bind].
  rewrite IH; [reflexivity|]. intros j v' Hj. replace (S b + j) with (b + S j) by lia. apply H. auto.
Qed.

Lemma SS_impl {X} (R1 R2 : X -> X -> Prop) l : (forall x y, R1 x y -> R2 x y) -> StronglySorted R1 l -> StronglySorted R2 l.
Proof. intros H. induction 1; constructor; auto. eapply Forall_impl; [|eauto]. auto. Qed.
Lemma SS_app_r {X} (R1 : X -> X -> Prop) l1 l2 : StronglySorted R1 (l1 ++ l2) -> StronglySorted R1 l2.
Proof. induction l1; cbn; auto. intros H. inversion H; auto. Qed.

Section Table.
Variable usize lsize np : nat.
Variable D hn : nat.
Hypothesis Hpow : power lsize hn D = hn ^ D.
Notation ncell := ((hn ^ D - 1) / np + 1).

Lemma fill_offset_ok offs next cell off : cell < length offs ->
  exists offs', fill_offset offs next cell off = Ok (offs', Nat.max next (cell + 1)) /\ length offs' = length offs /\
  forall k, nth_error offs' k = if (next <=? k) && (k <=? cell) then Some off else nth_error offs k.
Proof.
  intros Hc. unfold fill_offset.
  assert (G : forall n s o, s + n <= length offs -> length o = length offs ->
    exists o', foldM (fun offs c => wr offs c off) (seq s n) o = Ok o' /\ length o' = length offs /\
    forall k, nth_error o' k = if (s <=? k) && (k <? s + n) then Some off else nth_error o k).
  { induction n as [|n IH]; intros s o Hs Lo; cbn [seq foldM].
    - exists o. repeat split; auto. intros k. destruct (Nat.leb_spec s k), (Nat.ltb_spec k (s + 0)); cbn; auto; lia.
    - rewrite wr_ok by lia. cbn [bind]. destruct (IH (S s) (upd o s off)) as (o' & E & L & H); [lia|rewrite upd_length; auto|].
      exists o'. split; auto. split; auto. intros k. rewrite H. destruct (Nat.eq_dec k s) as [->|Hne].
      + rewrite nth_error_upd_eq by lia. destruct (Nat.leb_spec s s), (Nat.ltb_spec s (s + S n)), (Nat.leb_spec (S s) s); cbn; auto; lia.
      + rewrite nth_error_upd_ne by auto. destruct (Nat.leb_spec s k), (Nat.ltb_spec k (s + S n)), (Nat.leb_spec (S s) k), (Nat.ltb_spec k (S s + n)); cbn; auto; lia. }
  destruct (le_lt_dec (cell + 1) next) as [Hle|Hlt].
  - replace (cell + 1 - next) with 0 by lia. cbn [seq foldM bind]. exists offs. repeat split; auto.
    intros k. destruct (Nat.leb_spec next k), (Nat.leb_spec k cell); cbn; auto; lia.
  - destruct (G (cell + 1 - next) next offs) as (o' & E & L & H); [lia|auto|]. rewrite E. cbn [bind].
    exists o'. split; auto. split; auto. intros k. rewrite H.
    destruct (Nat.leb_spec next k), (Nat.leb_spec k cell), (Nat.ltb_spec k (next + (cell + 1 - next))); cbn; auto; lia.
Qed.

Lemma table_from_hash_ok (hash : list proc_index) :
  (forall x, In x hash -> pi_index x < ncell) -> ncell + 1 + length hash < 256 ^ usize ->
  exists S offs, Permutation hash S /\ table_from_hash usize lsize np D hn hash = Ok offs /\
  forall k, k < ncell -> exists b e, nth_error offs k = Some b /\ nth_error offs (k + 1) = Some e /\
    mapM (rd offs) (seq b (e - b)) = Ok (map pi_proc (filter (fun x => pi_index x =? k) S)).
Proof.
  intros Hi Hw. unfold table_from_hash. rewrite Hpow.
  assert (W : forall a, a <= ncell + 1 + length hash -> wrap usize a = a) by (intros; unfold wrap; apply Nat.mod_small; lia).
  rewrite (W ncell) by lia. set (nc := ncell) in *.
  destruct (sort_by_1 usize lsize (KU pi_index) hash) as (S & E & [P Ss _]).
  { intros x Hx. specialize (Hi x Hx). unfold ulim. lia. }
  rewrite E. cbn [bind]. assert (Ln : length S = length hash) by (symmetry; apply Permutation_length; auto).
  rewrite Ln. set (n := length hash) in *. rewrite (W (nc + 1 + n)) by lia.
  assert (Hi' : forall x, In x S -> pi_index x < nc) by (intros x Hx; apply Hi; eapply Permutation_in; [symmetry; eauto|auto]).
  assert (SSs : StronglySorted (fun x y => pi_index x <= pi_index y) S).
  { apply SS_sorted_by in Ss. eapply SS_impl; [|exact Ss]. cbn. intros x y H. apply Nat.ltb_ge in H. auto. }
  set (cnt := fun k => length (filter (fun x => pi_index x <? k) S)).
  assert (G : forall suf pre offs next, S = pre ++ suf -> length offs = nc + 1 + n -> next <= nc ->
    (forall x, In x pre -> pi_index x < next) ->
    (forall j x, nth_error pre j = Some x -> nth_error offs (nc + 1 + j) = Some (pi_proc x)) ->
    (forall k, k < next -> nth_error offs k = Some (nc + 1 + cnt k)) ->
    exists offs' next', foldM (fun '(offs, next) '(i, x) =>
        let off := wrap usize (nc + 1 + i) in
        offs <- wr offs off (pi_proc x) ;;
        fill_offset offs next (pi_index x) off) (combine (seq (length pre) (length suf)) suf) (offs, next) = Ok (offs', next') /\
      length offs' = nc + 1 + n /\ next' <= nc /\ (forall x, In x S -> pi_index x < next') /\
      (forall j x, nth_error S j = Some x -> nth_error offs' (nc + 1 + j) = Some (pi_proc x)) /\
      (forall k, k < next' -> nth_error offs' k = Some (nc + 1 + cnt k))).
  { induction suf as [|x suf IH]; intros pre offs next ES Lo Hn I1 I2 I3; cbn [length seq combine foldM].
    - rewrite app_nil_r in ES. subst pre. exists offs, next. repeat (split; auto).
    - assert (Lp : length pre < n) by (rewrite <- Ln, ES, app_length; cbn; lia).
      cbv zeta. rewrite (W (nc + 1 + length pre)) by lia. rewrite wr_ok by lia. cbn [bind].
      assert (Hx : pi_index x < nc) by (apply Hi'; rewrite ES; apply in_or_app; right; left; auto).
      destruct (fill_offset_ok (upd offs (nc + 1 + length pre) (pi_proc x)) next (pi_index x) (nc + 1 + length pre)) as (o' & E' & L' & H').
      { rewrite upd_length. lia. }
      rewrite E'. cbn [bind]. rewrite upd_length in L'.
      destruct (IH (pre ++ [x]) o' (Nat.max next (pi_index x + 1))) as (o2 & n2 & E2 & R2).
      + rewrite <- app_assoc. auto.
      + lia.
      + lia.
      + intros y Hy. apply in_app_or in Hy. destruct Hy as [Hy|[<-|[]]]; [specialize (I1 y Hy)|]; lia.
      + intros j y Hy. rewrite H'. destruct (Nat.leb_spec next (nc + 1 + j)), (Nat.leb_spec (nc + 1 + j) (pi_index x)); cbn [andb]; try lia.
        destruct (Nat.eq_dec j (length pre)) as [->|Hne].
        1: rewrite nth_error_app2, Nat.sub_diag in Hy by auto; injection Hy as <-; apply nth_error_upd_eq; lia.
        all: rewrite nth_error_upd_ne by lia; apply I2; rewrite nth_error_app1 in Hy; auto.
        all: apply nth_error_Some_lt in Hy; rewrite app_length in Hy; cbn in Hy; lia.
      + intros k Hk. rewrite H'. destruct (Nat.leb_spec next k), (Nat.leb_spec k (pi_index x)); cbn [andb]; try lia.
        * f_equal. f_equal. unfold cnt. rewrite ES, filter_app, app_length.
          rewrite (FindptsProof4.filter_true _ pre), (filter_nil_all _ (x :: suf)); [cbn; lia| |].
          -- intros y Hy. apply Nat.ltb_ge. rewrite ES in SSs. apply SS_app_r in SSs. inversion SSs as [|? ? _ Hf]; subst.
             rewrite Forall_forall in Hf. destruct Hy as [<-|Hy]; [auto|]. specialize (Hf y Hy). lia.
          -- intros y Hy. apply Nat.ltb_lt. specialize (I1 y Hy). lia.
        * rewrite nth_error_upd_ne by lia. auto.
        * rewrite nth_error_upd_ne by lia. apply I3. lia.
      + exists o2, n2. split; auto. rewrite app_length in E2. cbn [length] in E2. replace (length pre + 1) with (Datatypes.S (length pre)) in E2 by lia. exact E2. }
  destruct (G S [] (repeat 0 (nc + 1 + n)) 0) as (offs & next & E1 & L1 & N1 & I1 & I2 & I3);
    [auto|apply repeat_length|lia|intros x []|intros [|j] x H; discriminate|intros k Hk; lia|].
  cbn [length] in E1. rewrite Ln in E1. fold n in E1. rewrite E1. cbn [bind].
  destruct (fill_offset_ok offs next nc (nc + 1 + n)) as (o' & E' & L' & H'); [lia|]. rewrite E'. cbn [bind].
  exists S, o'. split; auto. split; auto.
  assert (C : forall k, k <= nc -> nth_error o' k = Some (nc + 1 + cnt k)).
  { intros k Hk. rewrite H'. destruct (Nat.leb_spec next k), (Nat.leb_spec k nc); cbn [andb]; try lia; [|apply I3; auto].
    f_equal. f_equal. unfold cnt. rewrite FindptsProof4.filter_true; auto. intros x Hx. apply Nat.ltb_lt. specialize (I1 x Hx). lia. }
  intros k Hk. exists (nc + 1 + cnt k), (nc + 1 + cnt (k + 1)). split; [apply C; lia|]. split; [apply C; lia|].
  destruct (sorted_split3 pi_index k S SSs) as (rest & ES & Ec). unfold cnt. rewrite Ec.
  match goal with |- mapM _ (seq ?b ?m) = _ => replace m with (length (map pi_proc (filter (fun x => pi_index x =? k) S))) end.
  2:{ rewrite map_length. lia. }
  apply mapM_rd_seq. intros j v Hv. rewrite H'.
  match goal with |- context [(next <=? ?a) && (?a <=? nc)] => destruct (Nat.leb_spec next a), (Nat.leb_spec a nc); cbn [andb]; try lia end.
  rewrite nth_error_map in Hv. destruct (nth_error (filter (fun x => pi_index x =? k) S) j) as [x|] eqn:Ex; [|discriminate].
  cbn in Hv. injection Hv as <-. rewrite <- Nat.add_assoc. apply I2. rewrite ES at 1.
  rewrite nth_error_app2 by lia. match goal with |- nth_error _ ?a = _ => replace a with j by lia end.
  rewrite nth_error_app1; auto. eapply nth_error_Some_lt; eauto.
Qed.
End Table.
