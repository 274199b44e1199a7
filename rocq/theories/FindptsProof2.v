(** The hash table of one process: counting, size, and contents. *)
From Verif Require Import Base BaseLemmas SortLemmas ListLemmas Findpts FindptsSpec FindptsProof1.
From Coq Require Import QArith Qround Lqa.
Open Scope nat_scope.

(** ** Mixed indices *)
Fixpoint cindex (n : nat) (is : list nat) : nat :=
  match is with [] => 0 | i :: is' => cindex n is' * n + i end.
Lemma cindex_lt n is : Forall (fun i => i < n) is -> cindex n is < n ^ length is.
Proof.
  induction 1 as [|i is Hi _ IH]; cbn [cindex length Nat.pow]; [lia|].
  assert (cindex n is * n + n <= n ^ length is * n) by nia. lia.
Qed.
Lemma cindex_inj n is : forall is', Forall (fun i => i < n) is -> Forall (fun i => i < n) is' -> length is = length is' ->
  cindex n is = cindex n is' -> is = is'.
Proof.
  induction is as [|i is IH]; intros [|i' is'] H H' L E; try discriminate; auto.
  inversion H; inversion H'; subst. cbn [cindex length] in *.
  assert (cindex n is = cindex n is' /\ i = i') as [E1 ->].
  { assert (cindex n is = (cindex n is * n + i) / n) by (rewrite Nat.div_add_l, Nat.div_small; lia).
    assert (cindex n is' = (cindex n is' * n + i') / n) by (rewrite Nat.div_add_l, Nat.div_small; lia).
    assert (cindex n is = cindex n is') by congruence. split; auto. nia. }
  f_equal; auto.
Qed.

Lemma Forall2_len {A B} (Rr : A -> B -> Prop) l l' : Forall2 Rr l l' -> length l = length l'.
Proof. induction 1; cbn; auto. Qed.

(** A box of cells given by ranges. *)
Fixpoint multi (irs : list (nat * nat)) : list (list nat) :=
  match irs with
  | [] => [[]]
  | ir :: irs' => flat_map (fun o => map (fun i => i :: o) (loop_range ir)) (multi irs')
  end.
Lemma in_loop_range ir i : In i (loop_range ir) <-> fst ir <= i < snd ir.
Proof. unfold loop_range. rewrite in_seq. lia. Qed.
Lemma in_multi irs : forall is, In is (multi irs) <-> Forall2 (fun i ir => fst ir <= i < snd ir) is irs.
Proof.
  induction irs as [|ir irs IH]; intros is; cbn [multi].
  - split; [intros [<-|[]]; constructor|]. intros H. inversion H. left; auto.
  - rewrite in_flat_map. split.
    + intros (o & Ho & H). apply in_map_iff in H. destruct H as (i & <- & Hi). constructor; [apply in_loop_range; auto|apply IH; auto].
    + intros H. inversion H; subst. exists l. split; [apply IH; auto|]. apply in_map_iff. exists x. split; auto. apply in_loop_range; auto.
Qed.
Lemma NoDup_app_dis {A} (l1 l2 : list A) : NoDup l1 -> NoDup l2 -> (forall x, In x l1 -> ~ In x l2) -> NoDup (l1 ++ l2).
Proof.
  induction 1 as [|x l1 Hx _ IH]; intros H2 Hd; cbn; auto. constructor.
  - rewrite in_app_iff. intros [H|H]; [auto|]. apply (Hd x); auto. left; auto.
  - apply IH; auto. intros y Hy. apply Hd. right; auto.
Qed.
Lemma NoDup_flat_map {A B} (f : A -> list B) l : NoDup l -> (forall a, In a l -> NoDup (f a)) ->
  (forall a a' b, In b (f a) -> In b (f a') -> a = a') -> NoDup (flat_map f l).
Proof.
  induction 1 as [|a l Ha _ IH]; intros H1 H2; cbn [flat_map]; [constructor|]. apply NoDup_app_dis.
  - apply H1. left; auto.
  - apply IH; auto. intros; apply H1. right; auto.
  - intros b Hb Hb'. apply in_flat_map in Hb'. destruct Hb' as (a' & Ha' & Hb'). rewrite (H2 a a' b) in Ha; auto.
Qed.
Lemma multi_NoDup irs : NoDup (multi irs).
Proof.
  induction irs as [|ir irs IH]; cbn [multi]; [repeat constructor; auto|]. apply NoDup_flat_map; auto.
  - intros o _. apply FinFun.Injective_map_NoDup; [intros a b E; congruence|]. apply seq_NoDup.
  - intros a a' b H1 H2. apply in_map_iff in H1, H2. destruct H1 as (? & <- & _), H2 as (? & E & _). congruence.
Qed.

Section W.
Variable w : nat.
Hypothesis w1 : 1 <= w.

Lemma cells_multi n irs : Forall (fun ir => snd ir <= n) irs -> n ^ length irs <= 256 ^ w ->
  cells w n irs = map (cindex n) (multi irs).
Proof.
  induction irs as [|ir irs IH]; intros H L; cbn [cells multi]; auto.
  inversion H; subst. destruct (Nat.eq_dec n 0) as [->|Hn0].
  { unfold loop_range. replace (snd ir - fst ir) with 0 by lia. cbn [seq map]. rewrite !flat_map_nil; auto. }
  cbn [length Nat.pow] in L. rewrite IH; auto; [|nia].
  rewrite flat_map_map, map_flat_map. apply flat_map_ext_in. intros o Ho. rewrite map_map. apply map_ext_in. intros i Hi.
  cbn [cindex]. unfold wrap. apply Nat.mod_small. apply in_loop_range in Hi.
  assert (Hc : cindex n o < n ^ length irs).
  { apply in_multi in Ho. rewrite <- (Forall2_len _ _ _ Ho). apply cindex_lt. clear - Ho H3.
    induction Ho; constructor; inversion H3; subst; auto; lia. }
  nia.
Qed.

Definition prod (l : list nat) : nat := fold_right Nat.mul 1 l.
Definition widths (irs : list (nat * nat)) : list nat := map (fun ir => snd ir - fst ir) irs.
Lemma length_flat_map_const {A B} (f : A -> list B) k l : (forall a, In a l -> length (f a) = k) -> length (flat_map f l) = length l * k.
Proof.
  induction l as [|a l IH]; intros H; cbn [flat_map length]; auto. rewrite app_length, (H a (or_introl eq_refl)), IH; [lia|].
  intros; apply H; right; auto.
Qed.
Lemma multi_length irs : length (multi irs) = prod (widths irs).
Proof.
  induction irs as [|ir irs IH]; cbn [multi widths map prod fold_right]; auto.
  rewrite (length_flat_map_const _ (snd ir - fst ir)).
  - rewrite IH. unfold widths, prod. lia.
  - intros o _. rewrite map_length. unfold loop_range. apply seq_length.
Qed.
Lemma prod_le n irs : Forall (fun ir => snd ir <= n) irs -> prod (widths irs) <= n ^ length irs.
Proof.
  induction 1 as [|ir irs Hi _ IH]; cbn [widths map prod fold_right length Nat.pow]; auto.
  apply Nat.mul_le_mono; auto. lia.
Qed.

Lemma usub_ok a b : b <= a -> a < 256 ^ w -> usub w a b = a - b.
Proof.
  intros H1 H2. unfold usub, wrap. replace (a + 256 ^ w - b) with (a - b + 1 * 256 ^ w) by lia.
  rewrite Nat.mod_add by lia. apply Nat.mod_small. lia.
Qed.
Lemma wrap_small a : a < 256 ^ w -> wrap w a = a.
Proof. intros H. apply Nat.mod_small. auto. Qed.

Lemma count_fold n irs : Forall (fun ir => fst ir < snd ir <= n) irs -> n < 256 ^ w ->
  forall a, a * n ^ length irs < 256 ^ w ->
  fold_left (fun ci ir => wrap w (ci * usub w (snd ir) (fst ir))) irs a = a * prod (widths irs).
Proof.
  induction 1 as [|ir irs Hi _ IH]; intros Hn a Ha; cbn [fold_left widths map prod fold_right length Nat.pow] in *; [lia|].
  rewrite usub_ok by lia. rewrite wrap_small.
  - rewrite IH; auto; [unfold widths, prod; lia|]. set (q := n ^ length irs) in *. apply Nat.le_lt_trans with (a * (n * q)); auto. rewrite <- Nat.mul_assoc. apply Nat.mul_le_mono_l, Nat.mul_le_mono_r. lia.
  - assert (1 <= n ^ length irs) by (apply Nat.neq_0_lt_0, Nat.pow_nonzero; lia).
    set (q := n ^ length irs) in *. apply Nat.le_lt_trans with (a * (n * q)); auto. apply Nat.mul_le_mono_l.
    apply Nat.le_trans with (n * 1); [lia|]. apply Nat.mul_le_mono_l. auto.
Qed.

Lemma power_ok n D : n ^ D < 256 ^ w -> 1 <= n -> power w n D = n ^ D.
Proof.
  induction D as [|D IH]; intros H Hn; cbn [power Nat.pow] in *; auto.
  rewrite IH; auto; [apply wrap_small; auto|]. eapply Nat.le_lt_trans; [|exact H]. rewrite <- (Nat.mul_1_l (n ^ D)) at 1. apply Nat.mul_le_mono_r. auto.
Qed.

Lemma few_of_pow n D : 2 <= D -> n ^ D < 256 ^ w -> few w n.
Proof.
  intros HD H. unfold few. destruct (Nat.eq_dec n 0) as [->|Hn].
  { change (4 * Z.of_nat 0)%Z with 0%Z. apply Z.pow_pos_nonneg; lia. }
  assert (H2 : n * n < 256 ^ w).
  { replace (n * n) with (n ^ 2) by (cbn; lia). apply Nat.le_lt_trans with (n ^ D); auto. apply Nat.pow_le_mono_r; auto. }
  apply Nat2Z.inj_lt in H2. rewrite pow256, Nat2Z.inj_mul in H2 by auto. apply Z.nle_gt. intros H3.
  assert (E1 : (2 ^ (8 * Z.of_nat w - 1) = 4 * 2 ^ (8 * Z.of_nat w - 3))%Z).
  { replace (8 * Z.of_nat w - 1)%Z with (2 + (8 * Z.of_nat w - 3))%Z by lia. rewrite Z.pow_add_r by lia. auto. }
  assert (H4 : (2 ^ (8 * Z.of_nat w - 3) <= Z.of_nat n)%Z) by lia.
  assert (H5 : (2 ^ (8 * Z.of_nat w - 3) * 2 ^ (8 * Z.of_nat w - 3) <= Z.of_nat n * Z.of_nat n)%Z).
  { apply Z.mul_le_mono_nonneg; auto; apply Z.pow_nonneg; lia. }
  rewrite <- Z.pow_add_r in H5 by lia.
  assert (H6 : (2 ^ (8 * Z.of_nat w) <= 2 ^ (8 * Z.of_nat w - 3 + (8 * Z.of_nat w - 3)))%Z) by (apply Z.pow_le_mono_r; lia).
  lia.
Qed.
End W.

(** ** Buckets: distributing pairs (value, cell) over cells. *)
Section Buckets.
Definition cnt (P : list (nat * nat)) (c : nat) : nat := length (filter (fun p => snd p =? c) P).
Definition bucket (P : list (nat * nat)) (c : nat) : list nat := map fst (filter (fun p => snd p =? c) P).
Lemma cnt_cons e c P c' : cnt ((e, c) :: P) c' = (if c =? c' then 1 else 0) + cnt P c'.
Proof. unfold cnt. cbn [filter snd]. destruct (c =? c'); reflexivity. Qed.
Lemma cnt_app P Q c : cnt (P ++ Q) c = cnt P c + cnt Q c.
Proof. unfold cnt. rewrite filter_app, app_length. auto. Qed.
Lemma bucket_length P c : length (bucket P c) = cnt P c.
Proof. unfold bucket. apply map_length. Qed.

Variable m : nat.            (* number of cells *)
Variable lim : nat.
Hypothesis lim1 : 1 <= lim.

Definition pre (P : list (nat * nat)) (c : nat) : nat := fold_right Nat.add 0 (map (cnt P) (seq 0 c)).
Lemma pre_S P c : pre P (S c) = pre P c + cnt P c.
Proof.
  unfold pre. rewrite seq_S, map_app, fold_right_app. cbn [map fold_right plus].
  generalize (map (cnt P) (seq 0 c)). intros l. induction l as [|a l IH]; cbn [fold_right]; lia.
Qed.
Lemma pre_mono P c c' : c <= c' -> pre P c <= pre P c'.
Proof. induction 1; auto. rewrite pre_S. lia. Qed.
Lemma pre_total P : (forall p, In p P -> snd p < m) -> pre P m = length P.
Proof.
  induction P as [|[e c] P IH]; intros H.
  - unfold pre. induction (seq 0 m); cbn; auto.
  - cbn [length]. rewrite <- IH by (intros p Hp; apply H; right; auto).
    assert (Hc : c < m) by (apply (H (e, c)); left; auto).
    assert (E : forall k, pre ((e, c) :: P) k = (if c <? k then 1 else 0) + pre P k).
    { induction k as [|k IHk]; auto. rewrite !pre_S, IHk, cnt_cons.
      destruct (Nat.ltb_spec c k), (Nat.ltb_spec c (S k)), (Nat.eqb_spec c k); lia. }
    rewrite E. destruct (Nat.ltb_spec c m); lia.
Qed.

Lemma phase1 P : forall f, (forall p, In p P -> snd p < m) -> (forall c, c < m -> f c + cnt P c < 256 ^ lim) ->
  foldM (fun count '((e, c) : nat * nat) => k <- rd count c ;; wr count c (wrap lim (k + 1))) P (map f (seq 0 m)) =
  Ok (map (fun c => f c + cnt P c) (seq 0 m)).
Proof.
  induction P as [|[e c] P IH]; intros f Hc Hl; cbn [foldM].
  - f_equal. apply map_ext. intros c. unfold cnt. cbn. lia.
  - assert (Hm : c < m) by (apply (Hc (e, c)); left; auto).
    assert (Hrd : rd (map f (seq 0 m)) c = Ok (f c)) by (apply rd_ok; rewrite nth_error_map, seq_nth_error by auto; auto).
    rewrite Hrd. cbn [bind]. rewrite wr_ok by (rewrite map_length, seq_length; auto). cbn [bind].
    assert (Eu : upd (map f (seq 0 m)) c (wrap lim (f c + 1)) = map (fun c' => (if c =? c' then 1 else 0) + f c') (seq 0 m)).
    { apply nth_error_ext. intros i. rewrite nth_error_upd, map_length, seq_length.
      destruct (Nat.lt_ge_cases i m) as [Hi|Hi].
      - rewrite !nth_error_map, seq_nth_error by auto. cbn [option_map plus].
        destruct (Nat.eqb_spec c i) as [->|Hne].
        + destruct (Nat.ltb_spec i m); [|lia]. cbn. f_equal. rewrite wrap_small; [lia|].
          specialize (Hl i Hi). rewrite cnt_cons, Nat.eqb_refl in Hl. lia.
        + cbn. reflexivity.
      - assert (N : forall g : nat -> nat, nth_error (map g (seq 0 m)) i = None)
          by (intros g; apply nth_error_None; rewrite map_length, seq_length; auto).
        rewrite !N. destruct (Nat.eqb_spec c i); [lia|]. auto. }
    rewrite Eu. rewrite IH.
    + f_equal. apply map_ext. intros c'. rewrite cnt_cons. lia.
    + intros p Hp. apply Hc. right; auto.
    + intros c' Hc'. specialize (Hl c' Hc'). rewrite cnt_cons in Hl. lia.
Qed.

Variable P : list (nat * nat).
Hypothesis Pc : forall p, In p P -> snd p < m.
Variable size : nat.
Hypothesis Psize : m + 1 + length P <= size.
Hypothesis Plim : m + 1 + length P < 256 ^ lim.

Definition start (c : nat) : nat := m + 1 + pre P c.
Lemma start_S c : start (S c) = start c + cnt P c.
Proof. unfold start. rewrite pre_S. lia. Qed.
Lemma start_le c : c <= m -> start c <= m + 1 + length P.
Proof. intros H. unfold start. rewrite <- (pre_total P Pc). pose proof (pre_mono P c m H). lia. Qed.

Lemma phase2 : forall k mx0, k <= m ->
  foldM (fun '(offs, sum, mx) i =>
      k <- rd (map (cnt P) (seq 0 m)) i ;;
      let sum := wrap lim (sum + k) in
      offs <- wr offs (i + 1) sum ;;
      Ok (offs, sum, if mx <? k then k else mx)) (seq 0 k)
    (map start (seq 0 1) ++ repeat 0 (size - 1), start 0, mx0) =
  Ok (map start (seq 0 (k + 1)) ++ repeat 0 (size - (k + 1)), start k,
      fold_left (fun mx i => if mx <? cnt P i then cnt P i else mx) (seq 0 k) mx0).
Proof.
  intros k. induction k as [|k IH]; intros mx0 Hk; [reflexivity|].
  rewrite seq_S, foldM_app, IH by lia. cbn [bind]. rewrite fold_left_app. cbn [plus foldM].
  assert (Hrd : rd (map (cnt P) (seq 0 m)) k = Ok (cnt P k)) by (apply rd_ok; rewrite nth_error_map, seq_nth_error by lia; auto).
  rewrite Hrd. cbn [bind]. rewrite wrap_small, <- start_S by (rewrite <- start_S; pose proof (start_le (S k)); lia).
  rewrite wr_ok by (rewrite app_length, map_length, seq_length, repeat_length; lia). cbn [bind fold_left].
  do 3 f_equal. rewrite upd_app_r by (rewrite map_length, seq_length; lia). rewrite map_length, seq_length.
  replace (k + 1 - (k + 1)) with 0 by lia. replace (size - (k + 1)) with (S (size - (S k + 1))) by lia.
  cbn [repeat upd]. rewrite (seq_S (k + 1)), map_app, <- app_assoc. replace (0 + (k + 1)) with (S k) by lia. cbn [map app].
  replace (size - (S k + 1)) with (size - S (k + 1)) by lia. reflexivity.
Qed.

(** The state of the last pass after the pairs P1, with P2 to come. *)
Record filled (P1 P2 : list (nat * nat)) (offs count : list nat) : Prop := {
  fi_len : length offs = size;
  fi_off : forall c, c <= m -> nth_error offs c = Some (start c);
  fi_val : forall c k v, c < m -> nth_error (bucket P1 c) k = Some v -> nth_error offs (start c + k) = Some v;
  fi_cnt : count = map (cnt P2) (seq 0 m) }.

Lemma phase3 : forall P2 P1 offs count, P = P1 ++ P2 -> filled P1 P2 offs count ->
  exists offs' count', foldM (fun '(offs, count) '((e, c) : nat * nat) =>
      e' <- rd offs (c + 1) ;;
      k <- rd count c ;;
      offs <- wr offs (usub lim e' k) e ;;
      count <- wr count c (usub lim k 1) ;;
      Ok (offs, count)) P2 (offs, count) = Ok (offs', count') /\ filled P [] offs' count'.
Proof.
  induction P2 as [|[e c] P2 IH]; intros P1 offs count HP [H1 H2 H3 H4]; cbn [foldM].
  - rewrite app_nil_r in HP. subst P1. exists offs, count. split; auto. constructor; auto.
  - assert (Hc : c < m) by (apply (Pc (e, c)); rewrite HP; apply in_or_app; right; left; auto).
    rewrite (rd_ok offs (c + 1) (start (S c))) by (replace (c + 1) with (S c) by lia; apply H2; lia). cbn [bind].
    assert (Hrd : rd count c = Ok (S (cnt P2 c))).
    { subst count. apply rd_ok. rewrite nth_error_map, seq_nth_error by auto. cbn [option_map plus]. rewrite cnt_cons, Nat.eqb_refl. auto. }
    rewrite Hrd. cbn [bind].
    assert (Es : start (S c) = start c + cnt P1 c + S (cnt P2 c)).
    { rewrite start_S. rewrite HP at 1. rewrite cnt_app, cnt_cons, Nat.eqb_refl. lia. }
    pose proof (start_le (S c) ltac:(lia)) as Hsl.
    rewrite usub_ok by lia. replace (start (S c) - S (cnt P2 c)) with (start c + cnt P1 c) by lia.
    rewrite wr_ok by lia. cbn [bind]. rewrite usub_ok by lia.
    rewrite wr_ok by (subst count; rewrite map_length, seq_length; auto). cbn [bind].
    apply (IH (P1 ++ [(e, c)])).
    { rewrite <- app_assoc. auto. }
    assert (Hb : forall c', bucket (P1 ++ [(e, c)]) c' = bucket P1 c' ++ (if c =? c' then [e] else [])).
    { intros c'. unfold bucket. rewrite filter_app, map_app. f_equal. cbn [filter snd]. destruct (c =? c'); reflexivity. }
    constructor.
    + rewrite upd_length. auto.
    + intros c' Hc'. rewrite nth_error_upd_ne; auto. unfold start. lia.
    + intros c' k v Hc' Hv. rewrite Hb in Hv.
      destruct (Nat.eqb_spec c c') as [<-|Hne].
      * destruct (Nat.lt_ge_cases k (length (bucket P1 c))) as [Hk|Hk].
        -- rewrite nth_error_app1 in Hv by auto. rewrite nth_error_upd_ne; auto. rewrite bucket_length in Hk. lia.
        -- rewrite nth_error_app2 in Hv by auto. rewrite bucket_length in *.
           assert (k = cnt P1 c). { apply nth_error_Some_lt in Hv. cbn in Hv. lia. } subst k.
           rewrite Nat.sub_diag in Hv. cbn in Hv. injection Hv as <-. apply nth_error_upd_eq. lia.
      * rewrite app_nil_r in Hv. rewrite nth_error_upd_ne; auto.
        apply nth_error_Some_lt in Hv as Hk. rewrite bucket_length in Hk.
        assert (cnt P1 c' <= cnt P c') by (rewrite HP, cnt_app; lia).
        destruct (Nat.lt_ge_cases c c') as [Hl|Hl].
        -- pose proof (pre_mono P (S c) c' Hl) as Hp. unfold start in Es |- *. lia.
        -- assert (Hl' : S c' <= c) by lia. pose proof (pre_mono P (S c') c Hl') as Hp. rewrite pre_S in Hp. unfold start. lia.
    + subst count. apply nth_error_ext. intros i. rewrite nth_error_upd, map_length, seq_length.
      destruct (Nat.lt_ge_cases i m) as [Hi|Hi].
      * rewrite !nth_error_map, seq_nth_error by auto. cbn [option_map plus].
        destruct (Nat.eqb_spec c i) as [->|Hne].
        -- destruct (Nat.ltb_spec i m); [|lia]. cbn. f_equal. lia.
        -- rewrite cnt_cons. destruct (Nat.eqb_spec c i); [lia|]. auto.
      * assert (N : forall g : nat -> nat, nth_error (map g (seq 0 m)) i = None)
          by (intros g; apply nth_error_None; rewrite map_length, seq_length; auto).
        rewrite !N. destruct (Nat.eqb_spec c i); [lia|]. auto.
Qed.
End Buckets.
