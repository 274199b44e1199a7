(** Correctness of the radix sort model. *)
From Verif Require Import Base BaseLemmas Sort SortSpec SortLemmas.
From Coq Require Import Sorted NArith ZifyBool ZifyNat ZifyN.

Lemma nth_error_nil {A} k : nth_error (@nil A) k = None.
Proof. destruct k; auto. Qed.

Section Counting.
Context {X : Type} (dig : X -> nat).

Definition eqd (d : nat) (l : list X) : list X := filter (fun x => dig x =? d) l.
Definition ltd (d : nat) (l : list X) : list X := filter (fun x => dig x <? d) l.
Definition offs (l : list X) : list nat := map (fun d => length (ltd d l)) (seq 0 256).
Definition bucketed (l : list X) : list X := flat_map (fun d => eqd d l) (seq 0 256).

Lemma ltd_S d l : length (ltd (S d) l) = length (ltd d l) + length (eqd d l).
Proof.
  unfold ltd, eqd. induction l as [|x l IH]; simpl; auto.
  destruct (Nat.ltb_spec (dig x) (S d)); destruct (Nat.ltb_spec (dig x) d);
    destruct (Nat.eqb_spec (dig x) d); simpl; lia.
Qed.

Lemma ltd_mono d d' l : d <= d' -> length (ltd d l) <= length (ltd d' l).
Proof. induction 1 as [|m Hm IH]; auto. rewrite ltd_S; lia. Qed.

Lemma ltd_le d l : length (ltd d l) <= length l.
Proof. unfold ltd; induction l as [|x l IH]; simpl; auto. destruct (dig x <? d); simpl; lia. Qed.

Lemma ltd_0 l : ltd 0 l = [].
Proof. unfold ltd; induction l as [|x l IH]; simpl; auto. Qed.

Lemma bucketed_prefix l n : 
  length (flat_map (fun d => eqd d l) (seq 0 n)) = length (ltd n l).
Proof.
  induction n as [|n IH].
  - rewrite ltd_0; auto.
  - rewrite seq_S, flat_map_app, app_length, IH, ltd_S. simpl. rewrite app_nil_r; auto.
Qed.

Lemma bucketed_nth l n d j x : d < n ->
  nth_error (eqd d l) j = Some x ->
  nth_error (flat_map (fun d => eqd d l) (seq 0 n)) (length (ltd d l) + j) = Some x.
Proof.
  intros Hd Hj. induction n as [|n IH]; [lia|].
  rewrite seq_S, flat_map_app. simpl. rewrite app_nil_r.
  destruct (Nat.eq_dec d n) as [->|].
  - rewrite nth_error_app2; rewrite bucketed_prefix; [|lia].
    replace (length (ltd n l) + j - length (ltd n l)) with j by lia; auto.
  - rewrite nth_error_app1; [apply IH; lia|]. rewrite bucketed_prefix.
    apply nth_error_Some_lt in Hj. pose proof (ltd_S d l). pose proof (ltd_mono (S d) n l). lia.
Qed.

Lemma index_cover l n k : k < length (ltd n l) ->
  exists d j, d < n /\ j < length (eqd d l) /\ k = length (ltd d l) + j.
Proof.
  induction n as [|n IH]; intros Hk; [rewrite ltd_0 in Hk; simpl in Hk; lia|].
  destruct (lt_dec k (length (ltd n l))) as [H|H].
  - destruct (IH H) as (d & j & Hd & Hj & E). exists d, j; auto.
  - rewrite ltd_S in Hk. exists n, (k - length (ltd n l)). lia.
Qed.

Lemma ltd_all l : (forall x, In x l -> dig x < 256) -> ltd 256 l = l.
Proof.
  unfold ltd; induction l as [|x l IH]; intros H; simpl; auto.
  destruct (Nat.ltb_spec (dig x) 256) as [Hx|Hx].
  - rewrite IH; auto. intros; apply H; right; auto.
  - specialize (H x (or_introl eq_refl)). lia.
Qed.

Lemma eqd_app d l1 l2 : eqd d (l1 ++ l2) = eqd d l1 ++ eqd d l2.
Proof. apply filter_app. Qed.

Section Pass.
Context {Y : Type} (f : X -> Y).

(** The common form of all the passes. *)
Fixpoint pass_gen (l : list X) (off : list nat) (out : list Y) : res (list Y) :=
  match l with
  | [] => Ok out
  | x :: l' => '(off, out) <- bucket_put (dig x) off out (f x) ;; pass_gen l' off out
  end.

Lemma pass_gen_inv : forall rest done off out,
  (forall x, In x (done ++ rest) -> dig x < 256) ->
  length out = length (done ++ rest) ->
  length off = 256 ->
  (forall d, d < 256 -> nth_error off d =
     Some (length (ltd d (done ++ rest)) + length (eqd d done))) ->
  (forall d j x, d < 256 -> nth_error (eqd d done) j = Some x ->
     nth_error out (length (ltd d (done ++ rest)) + j) = Some (f x)) ->
  exists out', pass_gen rest off out = Ok out' /\ length out' = length out /\
  (forall d j x, d < 256 -> nth_error (eqd d (done ++ rest)) j = Some x ->
     nth_error out' (length (ltd d (done ++ rest)) + j) = Some (f x)).
Proof.
  induction rest as [|x rest IH]; intros done off out Hd HL HLo Hoff Hout.
  - exists out. simpl. split; auto. split; auto. rewrite app_nil_r in *. auto.
  - simpl pass_gen. unfold bucket_put.
    assert (Hx : dig x < 256) by (apply Hd, in_or_app; right; left; auto).
    set (l := done ++ x :: rest) in *.
    assert (El : l = (done ++ [x]) ++ rest) by (unfold l; rewrite <- app_assoc; auto).
    rewrite (rd_ok _ _ _ (Hoff _ Hx)). cbn [bind].
    rewrite wr_ok by lia. cbn [bind].
    set (o := length (ltd (dig x) l) + length (eqd (dig x) done)).
    assert (Hox : o < length l).
    { unfold o. pose proof (ltd_S (dig x) l). pose proof (ltd_le (S (dig x)) l).
      assert (length (eqd (dig x) done) < length (eqd (dig x) l)).
      { unfold l. rewrite eqd_app, app_length. unfold eqd at 3. simpl. rewrite Nat.eqb_refl. simpl. lia. }
      lia. }
    rewrite wr_ok by lia. cbn [bind].
    destruct (IH (done ++ [x]) (upd off (dig x) (S o)) (upd out o (f x))) as (out' & R & RL & RO).
    + rewrite <- El; auto.
    + rewrite upd_length, <- El; auto.
    + rewrite upd_length; auto.
    + intros d Hd'. rewrite <- El, nth_error_upd, eqd_app, app_length.
      unfold eqd at 2. simpl.
      destruct (Nat.eqb_spec (dig x) d) as [<-|Hne]; simpl.
      * destruct (Nat.ltb_spec (dig x) (length off)); [|lia]. simpl. f_equal. unfold o; lia.
      * rewrite Hoff by auto. f_equal; lia.
    + intros d j y Hd' Hj. rewrite <- El. rewrite eqd_app in Hj.
      assert (Hother : length (ltd d l) + j <> o \/ (d = dig x /\ j = length (eqd (dig x) done))).
      { destruct (Nat.eq_dec d (dig x)) as [->|Hne].
        - destruct (Nat.eq_dec j (length (eqd (dig x) done))); auto. left; unfold o; lia.
        - left. apply nth_error_Some_lt in Hj. rewrite app_length in Hj. unfold eqd at 2 in Hj.
          simpl in Hj. destruct (Nat.eqb_spec (dig x) d); [congruence|]. simpl in Hj.
          assert (HA : forall e, length (eqd e done) <= length (eqd e l)).
          { intros e. unfold l. rewrite eqd_app, app_length; lia. }
          pose proof (ltd_S d l). pose proof (ltd_S (dig x) l). pose proof (HA d).
          assert (length (eqd (dig x) done) < length (eqd (dig x) l)).
          { unfold l. rewrite eqd_app, app_length. unfold eqd at 3. simpl.
            rewrite Nat.eqb_refl. simpl. lia. }
          destruct (lt_dec d (dig x)).
          + pose proof (ltd_mono (S d) (dig x) l). unfold o; lia.
          + pose proof (ltd_mono (S (dig x)) d l). unfold o; lia. }
      destruct Hother as [Hne|[-> ->]].
      * rewrite nth_error_upd_ne by auto. apply Hout; auto.
        destruct (lt_dec j (length (eqd d done))) as [Hl|Hl].
        -- rewrite nth_error_app1 in Hj; auto.
        -- exfalso. rewrite nth_error_app2 in Hj by lia. unfold eqd at 1 in Hj. simpl in Hj.
           destruct (Nat.eqb_spec (dig x) d) as [<-|].
           ++ destruct (j - length (eqd (dig x) done)) as [|q] eqn:Ej.
              ** apply Hne. unfold o. lia.
              ** simpl in Hj. destruct q; discriminate.
           ++ rewrite nth_error_nil in Hj; discriminate.
      * fold o. rewrite nth_error_upd_eq by lia.
        rewrite nth_error_app2, Nat.sub_diag in Hj by auto. unfold eqd in Hj. simpl in Hj.
        rewrite Nat.eqb_refl in Hj. simpl in Hj. congruence.
    + exists out'. split; auto. split; [rewrite RL, upd_length; auto|].
      rewrite <- El in RO. auto.
Qed.

Lemma pass_gen_ok l out :
  (forall x, In x l -> dig x < 256) -> length out = length l ->
  pass_gen l (offs l) out = Ok (map f (bucketed l)).
Proof.
  intros Hd HL.
  destruct (pass_gen_inv l [] (offs l) out) as (out' & R & RL & RO).
  - exact Hd.
  - exact HL.
  - unfold offs. rewrite map_length, seq_length; auto.
  - intros d Hd'. unfold offs. change ([] ++ l) with l. change (eqd d []) with (@nil X). erewrite nth_error_map_Some; [|apply seq_nth_error; auto].
    cbn [length]. rewrite Nat.add_0_r. rewrite Nat.add_0_l; auto.
  - intros d j x _ H. change (eqd d []) with (@nil X) in H. rewrite nth_error_nil in H; discriminate.
  - rewrite R. f_equal. apply nth_error_ext. intros k.
    change ([] ++ l) with l in RO.
    assert (LB : length (bucketed l) = length l).
    { unfold bucketed. rewrite bucketed_prefix, ltd_all; auto. }
    destruct (lt_dec k (length l)) as [Hk|Hk].
    + rewrite <- (ltd_all l Hd) in Hk. apply index_cover in Hk as (d & j & Hd2 & Hj & ->).
      apply nth_error_lt_Some in Hj as [x Hx].
      rewrite (RO d j x) by auto. symmetry. rewrite nth_error_map.
      unfold bucketed. rewrite (bucketed_nth l 256 d j x) by auto. auto.
    + rewrite !(proj2 (nth_error_None _ _)); auto; rewrite ?map_length; lia.
Qed.

End Pass.

(** bucketed is the stable sort by digit. *)
Definition dig_lt (x y : X) : bool := dig x <? dig y.

Lemma dig_lt_sw : strict_weak dig_lt.
Proof. unfold dig_lt; constructor; intros; lia. Qed.

Lemma dig_equivb k x : equivb dig_lt k x = (dig x =? dig k).
Proof. unfold equivb, dig_lt. lia. Qed.

Lemma SS_app (lt : X -> X -> bool) l1 l2 : SS lt l1 -> SS lt l2 ->
  (forall x y, In x l1 -> In y l2 -> ngt lt x y) -> SS lt (l1 ++ l2).
Proof.
  intros H1 H2 H. induction l1 as [|a l1 IH]; auto.
  simpl. destruct (SS_inv _ _ _ H1) as [H1' Ha]. apply SS_cons.
  - apply IH; auto. intros; apply H; auto; right; auto.
  - intros y Hy. apply in_app_or in Hy as [Hy|Hy]; auto. apply H; auto; left; auto.
Qed.

Lemma eqd_ltd_filter l n : (forall x, In x l -> dig x < n) ->
  forall k, filter (fun x => dig x =? k) (flat_map (fun d => eqd d l) (seq 0 n)) = eqd k l.
Proof.
  intros Hn k.
  assert (G : forall m, filter (fun x => dig x =? k) (flat_map (fun d => eqd d l) (seq 0 m))
              = if k <? m then eqd k l else []).
  { induction m as [|m IH]; auto.
    rewrite seq_S, flat_map_app, filter_app, IH. simpl. rewrite app_nil_r.
    assert (E : filter (fun x => dig x =? k) (eqd m l) = if m =? k then eqd k l else []).
    { unfold eqd. rewrite filter_filter_andb.
      destruct (Nat.eqb_spec m k) as [->|Hmk].
      - apply filter_ext. intros x. destruct (dig x =? k); auto.
      - apply filter_nil_all. intros x _. lia. }
    rewrite E. destruct (Nat.ltb_spec k m); destruct (Nat.ltb_spec k (S m));
      destruct (Nat.eqb_spec m k); try lia; rewrite ?app_nil_r; auto. }
  rewrite G. destruct (Nat.ltb_spec k n); auto.
  symmetry. apply filter_nil_all. intros x Hx. specialize (Hn x Hx). lia.
Qed.

Lemma flat_eqd_perm l n : Permutation (ltd n l) (flat_map (fun d => eqd d l) (seq 0 n)).
Proof.
  induction n as [|n IH].
  - rewrite ltd_0; auto.
  - rewrite seq_S, flat_map_app. simpl. rewrite app_nil_r.
    etransitivity; [|apply Permutation_app_tail; exact IH].
    clear IH. unfold ltd, eqd. induction l as [|x l IH]; simpl; auto.
    destruct (Nat.ltb_spec (dig x) (S n)); destruct (Nat.ltb_spec (dig x) n);
      destruct (Nat.eqb_spec (dig x) n); simpl; try lia; auto.
    etransitivity; [apply perm_skip; exact IH|]. apply Permutation_middle.
Qed.

Lemma bucketed_stable l : (forall x, In x l -> dig x < 256) -> stable dig_lt l (bucketed l).
Proof.
  intros Hd. constructor.
  - rewrite <- (ltd_all l Hd) at 1. apply flat_eqd_perm.
  - unfold bucketed. clear Hd. generalize 256 as n. induction n as [|n IH].
    + constructor.
    + rewrite seq_S, flat_map_app. simpl. rewrite app_nil_r. apply SS_app; auto.
      * assert (Hall : forall x, In x (eqd n l) -> dig x = n).
        { intros x Hx. apply filter_In in Hx as [_ Hx]. lia. }
        revert Hall. generalize (eqd n l) as q. induction q as [|a q IHq]; intros Hall; [constructor|].
        apply SS_cons; [apply IHq; intros; apply Hall; right; auto|].
        intros y Hy. unfold ngt, dig_lt. rewrite (Hall a), (Hall y); [lia|right; auto|left; auto].
      * intros x y Hx Hy. apply in_flat_map in Hx as (d & Hd & Hx).
        apply in_seq in Hd. apply filter_In in Hx as [_ Hx]. apply filter_In in Hy as [_ Hy].
        unfold ngt, dig_lt. lia.
  - intros k. etransitivity; [apply filter_ext; intros; apply dig_equivb|].
    etransitivity; [apply eqd_ltd_filter; auto|].
    unfold eqd. apply filter_ext. intros; symmetry; apply dig_equivb.
Qed.

Lemma offs_perm l l' : Permutation l l' -> offs l = offs l'.
Proof.
  intros P. unfold offs. apply map_ext. intros d. unfold ltd.
  assert (G : forall g : X -> bool, length (filter g l) = length (filter g l')).
  { intros g. induction P; simpl; auto; try lia.
    - destruct (g x); simpl; lia.
    - destruct (g x); destruct (g y); simpl; lia. }
  apply G.
Qed.
End Counting.

Lemma offs_map {X Z} (dig : Z -> nat) (g : X -> Z) l :
  offs (fun x => dig (g x)) l = offs dig (map g l).
Proof.
  unfold offs. apply map_ext. intros d. unfold ltd.
  induction l as [|x l IH]; simpl; auto. destruct (dig (g x) <? d); simpl; auto.
Qed.

(** ** Digits *)
Definition dg (i : nat) (v : N) : nat := digit_at (8 * N.of_nat i) v.

Lemma digit_at_div sh v : digit_at sh v = N.to_nat ((v / 2 ^ sh) mod 256).
Proof.
  unfold digit_at. rewrite N.shiftr_div_pow2. change 255%N with (N.ones 8).
  rewrite N.land_ones. reflexivity.
Qed.

Lemma digit_at_lt sh v : digit_at sh v < 256.
Proof. rewrite digit_at_div. pose proof (N.mod_lt (v / 2 ^ sh) 256). lia. Qed.

Lemma dg_lt i v : dg i v < 256.
Proof. apply digit_at_lt. Qed.

Lemma shiftr_of i v : N.shiftr (N.shiftr v (8 * N.of_nat i)) 8 = N.shiftr v (8 * N.of_nat (S i)).
Proof. rewrite N.shiftr_shiftr. f_equal. lia. Qed.

Definition crow (i : nat) (A : list N) : list nat :=
  map (fun d => length (eqd (dg i) d A)) (seq 0 256).

Lemma crow_upd i A v :
  upd (crow i A) (dg i v) (S (length (eqd (dg i) (dg i v) A))) = crow i (A ++ [v]).
Proof.
  apply nth_error_ext. intros k. rewrite nth_error_upd. unfold crow.
  rewrite map_length, seq_length.
  destruct (lt_dec k 256) as [Hk|Hk].
  - rewrite !nth_error_map, !seq_nth_error by auto. simpl.
    rewrite eqd_app, app_length. unfold eqd at 4. simpl.
    destruct (Nat.eqb_spec (dg i v) k) as [<-|]; simpl.
    + destruct (Nat.ltb_spec (dg i v) 256); [|lia]. f_equal; lia.
    + f_equal; lia.
  - rewrite !(proj2 (nth_error_None _ _)); rewrite ?map_length, ?seq_length; try lia.
    destruct ((dg i v =? k) && (k <? 256)) eqn:E; auto. lia.
Qed.

Lemma count_digits_ok A v : forall k s,
  count_digits (map (fun i => crow i A) (seq s k)) (N.shiftr v (8 * N.of_nat s)) =
  Ok (map (fun i => crow i (A ++ [v])) (seq s k)).
Proof.
  induction k as [|k IH]; intros s; auto.
  cbn [seq map count_digits].
  change (N.to_nat (N.land (N.shiftr v (8 * N.of_nat s)) 255)) with (dg s v).
  assert (H : nth_error (crow s A) (dg s v) = Some (length (eqd (dg s) (dg s v) A))).
  { unfold crow. erewrite nth_error_map_Some; [|apply seq_nth_error; apply dg_lt]. auto. }
  rewrite (rd_ok _ _ _ H). cbn [bind]. rewrite wr_ok by (eapply nth_error_Some_lt; eauto).
  cbn [bind]. rewrite shiftr_of, IH. cbn [bind]. rewrite crow_upd. auto.
Qed.

Definition bitor (A : list N) : N := fold_left N.lor A 0%N.

Lemma radix_count_ok D A :
  radix_count D A = Ok (bitor A, map (fun i => crow i A) (seq 0 D)).
Proof.
  unfold radix_count, bitor.
  assert (G : forall rest done b,
    foldM (fun '(bitor, count) val =>
           count' <- count_digits count val ;; Ok (N.lor bitor val, count'))
      rest (b, map (fun i => crow i done) (seq 0 D))
    = Ok (fold_left N.lor rest b, map (fun i => crow i (done ++ rest)) (seq 0 D))).
  { induction rest as [|v rest IH]; intros done b.
    - simpl. rewrite app_nil_r. auto.
    - cbn [foldM]. pose proof (count_digits_ok done v D 0) as C.
      change (8 * N.of_nat 0)%N with 0%N in C. rewrite N.shiftr_0_r in C. rewrite C. cbn [bind].
      rewrite IH. simpl. rewrite <- app_assoc. auto. }
  specialize (G A [] 0%N). simpl app in G. rewrite <- G. f_equal. f_equal.
  clear.
  assert (G : forall s, repeat (repeat 0 256) D = map (fun i => crow i []) (seq s D)).
  { induction D as [|D IH]; intros s; auto.
    cbn [seq map]. rewrite <- IH. reflexivity. }
  apply G.
Qed.

Fixpoint psums (s : nat) (c : list nat) : list nat :=
  match c with [] => [] | x :: t => s :: psums (s + x) t end.

Lemma radix_offsets_ok : forall k c fuel s, length c = 4 * k -> length c < fuel ->
  radix_offsets fuel c s = Ok (psums s c).
Proof.
  induction k as [|k IH]; intros c fuel s HL Hf.
  - destruct c; [|simpl in HL; lia]. destruct fuel; [lia|]. auto.
  - destruct c as [|c0 [|c1 [|c2 [|c3 c]]]]; simpl in HL; try lia.
    destruct fuel as [|fuel]; [lia|]. cbn [radix_offsets].
    rewrite (IH c) by (simpl in Hf; lia). reflexivity.
Qed.

Lemma psums_crow_gen i A : forall k s,
  psums (length (ltd (dg i) s A)) (map (fun d => length (eqd (dg i) d A)) (seq s k)) =
  map (fun d => length (ltd (dg i) d A)) (seq s k).
Proof.
  induction k as [|k IH]; intros s; auto.
  cbn [seq map psums]. rewrite <- ltd_S, IH. auto.
Qed.

Lemma crow_offsets i A : radix_offsets (S (length (crow i A))) (crow i A) 0 = Ok (offs (dg i) A).
Proof.
  assert (L : length (crow i A) = 4 * 64) by (unfold crow; rewrite map_length, seq_length; auto).
  rewrite (radix_offsets_ok 64) by lia. f_equal.
  pose proof (psums_crow_gen i A 256 0) as H. rewrite ltd_0 in H. simpl length in H at 1.
  exact H.
Qed.

Definition nz (b : N) (i : nat) : bool := negb (dg i b =? 0).

Lemma radix_zeros_ok A b : forall k s,
  radix_zeros (N.shiftr b (8 * N.of_nat s)) (8 * N.of_nat s) (map (fun i => crow i A) (seq s k)) =
  Ok (map (fun i => (8 * N.of_nat i, offs (dg i) A)%N) (filter (nz b) (seq s k))).
Proof.
  induction k as [|k IH]; intros s; auto.
  cbn [seq map radix_zeros].
  assert (E : (N.land (N.shiftr b (8 * N.of_nat s)) 255 =? 0)%N = negb (nz b s)).
  { unfold nz, dg, digit_at. rewrite negb_involutive. lia. }
  rewrite E, shiftr_of. replace (8 * N.of_nat s + 8)%N with (8 * N.of_nat (S s))%N by lia.
  rewrite IH. simpl filter. destruct (nz b s); simpl negb; cbv iota.
  - rewrite crow_offsets. cbn [bind]. reflexivity.
  - reflexivity.
Qed.

Lemma dg_lor i a b : dg i (N.lor a b) = 0 <-> dg i a = 0 /\ dg i b = 0.
Proof.
  unfold dg, digit_at. rewrite N.shiftr_lor, N.land_lor_distr_l.
  set (x := N.land (N.shiftr a (8 * N.of_nat i)) 255).
  set (y := N.land (N.shiftr b (8 * N.of_nat i)) 255).
  assert (H : N.lor x y = 0%N <-> x = 0%N /\ y = 0%N) by apply N.lor_eq_0_iff. lia.
Qed.

Lemma bitor_zero i A : nz (bitor A) i = false -> forall v, In v A -> dg i v = 0.
Proof.
  unfold nz, bitor. intros H. assert (H' : dg i (fold_left N.lor A 0%N) = 0) by lia. clear H.
  revert H'. generalize 0%N as b.
  assert (G : forall A b, dg i (fold_left N.lor A b) = 0 -> dg i b = 0 /\ forall v, In v A -> dg i v = 0).
  { clear. induction A as [|v A IH]; intros b H; simpl in *.
    - split; auto; easy.
    - apply IH in H as [H1 H2]. apply dg_lor in H1 as [H1 H3]. split; auto.
      intros w [<-|Hw]; auto. }
  intros b H. apply G in H. apply H.
Qed.

(** ** LSD sorting *)
Lemma sw_by {X} (g : X -> N) : strict_weak (fun x y => g x <? g y)%N.
Proof. constructor; intros; lia. Qed.

Section LSD.
Context {X : Type} (key : X -> N).

Definition kd (i : nat) (x : X) : nat := dg i (key x).
Definition lt_low (k : nat) (x y : X) : bool :=
  (key x mod 2 ^ (8 * N.of_nat k) <? key y mod 2 ^ (8 * N.of_nat k))%N.

Lemma lt_low_sw k : strict_weak (lt_low k).
Proof. apply (sw_by (fun x => key x mod 2 ^ (8 * N.of_nat k))%N). Qed.

Lemma mod_split v k : (v mod 2 ^ (8 * N.of_nat (S k)) =
  v mod 2 ^ (8 * N.of_nat k) + 2 ^ (8 * N.of_nat k) * N.of_nat (dg k v))%N.
Proof.
  unfold dg. rewrite digit_at_div, N2Nat.id.
  replace (8 * N.of_nat (S k))%N with (8 * N.of_nat k + 8)%N by lia.
  rewrite N.pow_add_r. change (2 ^ 8)%N with 256%N.
  rewrite N.mod_mul_r; [reflexivity| |discriminate]. apply N.pow_nonzero; discriminate.
Qed.

Lemma lt_low_S k x y : lt_low (S k) x y = lex (lt_low k) (dig_lt (kd k)) x y.
Proof.
  unfold lex. rewrite dig_equivb. unfold lt_low, dig_lt, kd. rewrite !mod_split.
  set (m := (2 ^ (8 * N.of_nat k))%N).
  assert (Hm : (0 < m)%N) by (unfold m; apply N.neq_0_lt_0, N.pow_nonzero; discriminate).
  clearbody m.
  pose proof (N.mod_lt (key x) m ltac:(lia)) as Hx.
  pose proof (N.mod_lt (key y) m ltac:(lia)) as Hy.
  set (dx := dg k (key x)). set (dy := dg k (key y)).
  set (mx := (key x mod m)%N) in *. set (my := (key y mod m)%N) in *.
  clearbody dx dy mx my.
  destruct (Nat.ltb_spec dx dy) as [H|H]; simpl.
  - apply N.ltb_lt. nia.
  - destruct (Nat.eqb_spec dy dx) as [->|H']; simpl.
    + destruct (N.ltb_spec mx my); apply N.ltb_lt || apply N.ltb_ge; lia.
    + apply N.ltb_ge. assert (N.of_nat dy + 1 <= N.of_nat dx)%N by lia. nia.
Qed.

Definition pure_sort (ps : list nat) (l : list X) : list X :=
  fold_left (fun l i => bucketed (kd i) l) ps l.

Lemma pure_sort_stable b l : 
  (forall i, nz b i = false -> forall x, In x l -> kd i x = 0) ->
  forall k, stable (lt_low k) l (pure_sort (filter (nz b) (seq 0 k)) l).
Proof.
  intros Hz k; induction k as [|k IH].
  - simpl. apply stable_trivial. intros x y _ _. unfold lt_low.
    change (8 * N.of_nat 0)%N with 0%N. rewrite N.pow_0_r, !N.mod_1_r. auto.
  - rewrite seq_S, filter_app. simpl. destruct (nz b k) eqn:E.
    + unfold pure_sort. rewrite fold_left_app. fold (pure_sort (filter (nz b) (seq 0 k)) l). simpl.
      apply stable_ext with (lex (lt_low k) (dig_lt (kd k))).
      * apply lt_low_sw.
      * intros; symmetry; apply lt_low_S.
      * eapply stable_compose; [apply lt_low_sw|apply dig_lt_sw|exact IH|].
        apply bucketed_stable. intros; apply dg_lt.
    + rewrite app_nil_r. apply stable_ext with (lt_low k); auto; [apply lt_low_sw|].
      intros x y Hx Hy. rewrite lt_low_S. unfold lex. rewrite dig_equivb. unfold dig_lt.
      rewrite !(Hz k) by auto. simpl. auto.
Qed.

Lemma pure_sort_perm ps l : Permutation l (pure_sort ps l).
Proof.
  revert l; induction ps as [|i ps IH]; intros l; simpl; auto.
  etransitivity; [|apply IH]. eapply st_perm. apply bucketed_stable. intros; apply dg_lt.
Qed.
End LSD.

Lemma passv_gen sh : forall A off out,
  radix_passv A sh off out = pass_gen (digit_at sh) (fun x => x) A off out.
Proof.
  induction A as [|v A IH]; intros; simpl; auto.
  destruct (bucket_put _ _ _ _) as [[o u]| | |]; simpl; auto.
Qed.

Lemma passp_m_gen sh : forall l off out,
  radix_passp_m l sh off out = pass_gen (fun d => digit_at sh (sd_v d)) (fun x => x) l off out.
Proof.
  induction l as [|v l IH]; intros; simpl; auto.
  destruct (bucket_put _ _ _ _) as [[o u]| | |]; simpl; auto.
Qed.

Lemma passp_e_gen sh : forall l off out,
  radix_passp_e l sh off out = pass_gen (fun d => digit_at sh (sd_v d)) sd_i l off out.
Proof.
  induction l as [|v l IH]; intros; simpl; auto.
  destruct (bucket_put _ _ _ _) as [[o u]| | |]; simpl; auto.
Qed.

(** The sort_data list read from A through a list of indices. *)
Definition mk_sd {T} (A : list T) (d : T) (j : nat) : sort_data T := SD (nth j A d) j.

Lemma mk_seq_shift {T} (A : list T) (d v : T) : forall n s,
  map (mk_sd (v :: A) d) (seq (S s) n) =
  map (fun x => SD (sd_v x) (S (sd_i x))) (map (mk_sd A d) (seq s n)).
Proof. induction n as [|n IH]; intros s; simpl; auto. f_equal. apply IH. Qed.

Lemma passp0_b_gen sh d0 : forall A Apre off out,
  radix_passp0_b A (length Apre) sh off out =
  pass_gen (fun d => digit_at sh (sd_v d)) (fun x => x)
    (map (mk_sd (Apre ++ A) d0) (seq (length Apre) (length A))) off out.
Proof.
  induction A as [|v A IH]; intros Apre off out; cbn [radix_passp0_b seq length map pass_gen]; auto.
  unfold mk_sd at 1 2. cbn [sd_v]. rewrite app_nth2, Nat.sub_diag by auto. cbn [nth].
  destruct (bucket_put _ _ _ _) as [[o u]| | |]; simpl bind; auto.
  specialize (IH (Apre ++ [v]) o u). rewrite app_length in IH. simpl length in IH.
  replace (length Apre + 1) with (S (length Apre)) in IH by lia. rewrite <- app_assoc in IH. exact IH.
Qed.

Lemma passp0_be_gen sh d0 : forall A Apre off out,
  radix_passp0_be out A (length Apre) sh off =
  pass_gen (fun d => digit_at sh (sd_v d)) sd_i
    (map (mk_sd (Apre ++ A) d0) (seq (length Apre) (length A))) off out.
Proof.
  induction A as [|v A IH]; intros Apre off out; cbn [radix_passp0_be seq length map pass_gen]; auto.
  unfold mk_sd at 1 2. cbn [sd_v sd_i]. rewrite app_nth2, Nat.sub_diag by auto. cbn [nth].
  destruct (bucket_put _ _ _ _) as [[o u]| | |]; simpl bind; auto.
  specialize (IH (Apre ++ [v]) o u). rewrite app_length in IH. simpl length in IH.
  replace (length Apre + 1) with (S (length Apre)) in IH by lia. rewrite <- app_assoc in IH. exact IH.
Qed.

Lemma passp_b_gen sh d0 A : forall p off out, (forall j, In j p -> j < length A) ->
  radix_passp_b p A sh off out =
  pass_gen (fun d => digit_at sh (sd_v d)) (fun x => x) (map (mk_sd A d0) p) off out.
Proof.
  induction p as [|j p IH]; intros off out Hp; auto. cbn [radix_passp_b map pass_gen].
  rewrite (rd_nth _ _ d0) by (apply Hp; left; auto). cbn [bind].
  change (SD (nth j A d0) j) with (mk_sd A d0 j).
  change (sd_v (mk_sd A d0 j)) with (nth j A d0).
  destruct (bucket_put _ _ _ _) as [[o u]| | |]; simpl bind; auto.
  apply IH. intros; apply Hp; right; auto.
Qed.

Lemma passp_be_gen sh d0 A : forall p off out, (forall j, In j p -> j < length A) ->
  radix_passp_be_loop p A sh off out =
  pass_gen (fun d => digit_at sh (sd_v d)) sd_i (map (mk_sd A d0) p) off out.
Proof.
  induction p as [|j p IH]; intros off out Hp; auto. cbn [radix_passp_be_loop map pass_gen].
  rewrite (rd_nth _ _ d0) by (apply Hp; left; auto). cbn [bind].
  change (sd_v (mk_sd A d0 j)) with (nth j A d0).
  change (sd_i (mk_sd A d0 j)) with j.
  destruct (bucket_put _ _ _ _) as [[o u]| | |]; simpl bind; auto.
  apply IH. intros; apply Hp; right; auto.
Qed.

Definition pos (A : list N) (i : nat) : N * list nat := (8 * N.of_nat i, offs (dg i) A)%N.

Lemma passesv_ok A : forall ps src dst,
  Permutation A src -> length dst = length A ->
  exists d', radix_passesv (map (pos A) ps) src dst = Ok (pure_sort (fun x => x) ps src, d').
Proof.
  induction ps as [|i ps IH]; intros src dst P HL.
  - exists dst; auto.
  - cbn [map radix_passesv pos]. rewrite passv_gen.
    change (digit_at (8 * N.of_nat i)) with (dg i).
    rewrite (offs_perm _ _ _ P).
    assert (Psrc : length src = length A) by (symmetry; apply Permutation_length; auto).
    rewrite (pass_gen_ok (dg i) (fun x => x) src dst); [|intros; apply dg_lt|lia].
    cbn [bind]. rewrite map_id.
    assert (P2 : Permutation src (bucketed (dg i) src))
      by (eapply st_perm; apply bucketed_stable; intros; apply dg_lt).
    destruct (IH (bucketed (dg i) src) src) as [d' R]; auto.
    + etransitivity; eauto.
    + exists d'. exact R.
Qed.

Lemma pure_sort_stable_full (A : list N) {X} (key : X -> N) D l :
  (forall x, In x l -> In (key x) A) ->
  (forall v, In v A -> (v < 2 ^ (8 * N.of_nat D))%N) ->
  stable (fun x y => key x <? key y)%N l (pure_sort key (filter (nz (bitor A)) (seq 0 D)) l).
Proof.
  intros HA HD. apply stable_ext with (lt_low key D).
  - constructor; intros; lia.
  - intros x y Hx Hy. unfold lt_low. rewrite !N.mod_small by auto. auto.
  - apply pure_sort_stable. intros i Hi x Hx. unfold kd. eapply bitor_zero; eauto.
Qed.

Theorem radix_sortv_ok D alias out A work :
  A <> [] -> length out = length A -> length work = length A ->
  (forall v, In v A -> (v < 2 ^ (8 * N.of_nat D))%N) ->
  exists r, radix_sortv D alias out A work = Ok r /\ stable N.ltb A r.
Proof.
  intros HA Ho Hw HD. unfold radix_sortv.
  assert (St : stable N.ltb A (pure_sort (fun x => x) (filter (nz (bitor A)) (seq 0 D)) A)).
  { apply pure_sort_stable_full; auto. }
  destruct A as [|a0 A0] eqn:EA; [congruence|]. rewrite <- EA in *. clear HA.
  rewrite radix_count_ok. cbn [bind].
  pose proof (radix_zeros_ok A (bitor A) D 0) as Z. change (8 * N.of_nat 0)%N with 0%N in Z.
  rewrite N.shiftr_0_r in Z. rewrite Z. cbn [bind]. clear Z.
  change (fun i => ((8 * N.of_nat i)%N, offs (dg i) A)) with (pos A).
  destruct (filter (nz (bitor A)) (seq 0 D)) as [|i ps] eqn:Eps.
  - simpl map. cbv iota. simpl in St. exists A. split; auto.
    f_equal. symmetry. apply nth_error_ext. intros k.
    destruct (nth_error A k) as [v|] eqn:E.
    + rewrite repeat_nth_error by (eapply nth_error_Some_lt; eauto). f_equal.
      assert (Hv : In v A) by (eapply nth_error_In; eauto).
      assert (Hall : forall i, i < D -> dg i v = 0).
      { intros i Hi. apply bitor_zero with A; auto.
        destruct (nz (bitor A) i) eqn:En; auto.
        assert (In i (filter (nz (bitor A)) (seq 0 D))) by (apply filter_In; split; auto; apply in_seq; lia).
        rewrite Eps in *; easy. }
      assert (Hm : forall k, k <= D -> (v mod 2 ^ (8 * N.of_nat k) = 0)%N).
      { clear -Hall. induction k as [|k IH]; intros Hk.
        - change (8 * N.of_nat 0)%N with 0%N. rewrite N.pow_0_r. apply N.mod_1_r.
        - rewrite mod_split, IH, Hall by lia. apply N.mul_0_r. }
      specialize (Hm D (Nat.le_refl _)). rewrite N.mod_small in Hm; auto.
    + apply nth_error_None in E. symmetry. apply nth_error_None. rewrite repeat_length; auto.
  - cbn [map]. change (pos A i) with ((8 * N.of_nat i)%N, offs (dg i) A) at 1. cbv iota beta zeta.
    destruct (alias || (length (pos A i :: map (pos A) ps) mod 2 =? 0)) eqn:Epar.
    + rewrite andb_false_r. cbv beta iota zeta. rewrite passv_gen. change (digit_at (8 * N.of_nat i)) with (dg i).
      rewrite pass_gen_ok; [|intros; apply dg_lt|lia].
      cbn [bind]. rewrite map_id.
      assert (P : Permutation A (bucketed (dg i) A))
        by (eapply st_perm; apply bucketed_stable; intros; apply dg_lt).
      destruct (passesv_ok A ps (bucketed (dg i) A) out P Ho) as [d' R]. rewrite R. cbn [bind].
      match goal with |- context [xorb ?a ?b] => destruct (xorb a b) end; cbn [negb];
      (eexists; split; [reflexivity|]; exact St).
    + assert (Eal : alias = false) by (destruct alias; auto; discriminate). rewrite Eal in *. cbn [andb].
      cbv beta iota zeta. rewrite passv_gen. change (digit_at (8 * N.of_nat i)) with (dg i).
      rewrite pass_gen_ok; [|intros; apply dg_lt|lia].
      cbn [bind]. rewrite map_id.
      assert (P : Permutation A (bucketed (dg i) A))
        by (eapply st_perm; apply bucketed_stable; intros; apply dg_lt).
      destruct (passesv_ok A ps (bucketed (dg i) A) work P Hw) as [d' R]. rewrite R. cbn [bind].
      match goal with |- context [xorb ?a ?b] => destruct (xorb a b) end; cbn [negb];
      (eexists; split; [reflexivity|]; exact St).
Qed.

Lemma offs_sd A i (l : list (sort_data N)) :
  Permutation A (map sd_v l) -> offs (dg i) A = offs (kd sd_v i) l.
Proof. intros P. rewrite (offs_perm _ _ _ P). symmetry. apply (offs_map (dg i) sd_v). Qed.

Lemma passesp_ok A idx : forall ps src dst,
  ps <> [] -> Permutation A (map sd_v src) -> length dst = length A -> length idx = length A ->
  radix_passesp (map (pos A) ps) src dst idx = Ok (map sd_i (pure_sort sd_v ps src)).
Proof.
  induction ps as [|i ps IH]; intros src dst Hps P HL HI; [congruence|].
  assert (Lsrc : length src = length A).
  { apply Permutation_length in P. rewrite map_length in P. auto. }
  assert (P2 : Permutation src (bucketed (kd sd_v i) src))
      by (eapply st_perm; apply bucketed_stable; intros; apply dg_lt).
  destruct ps as [|i2 ps].
  - cbn [map radix_passesp pos]. rewrite passp_e_gen. rewrite (offs_sd A i src P).
    change (fun d => digit_at (8 * N.of_nat i) (sd_v d)) with (kd sd_v i).
    rewrite pass_gen_ok; [reflexivity|intros; apply dg_lt|lia].
  - change (radix_passesp (map (pos A) (i :: i2 :: ps)) src dst idx) with
      (dst' <- radix_passp_m src (8 * N.of_nat i) (offs (dg i) A) dst ;;
       radix_passesp (map (pos A) (i2 :: ps)) dst' src idx).
    rewrite passp_m_gen. rewrite (offs_sd A i src P).
    change (fun d => digit_at (8 * N.of_nat i) (sd_v d)) with (kd sd_v i).
    rewrite pass_gen_ok; [|intros; apply dg_lt|lia].
    cbn [bind]. rewrite map_id.
    rewrite IH; auto; try discriminate.
    etransitivity; [exact P|]. apply Permutation_map; auto.
Qed.

Lemma map_nth_seq {T} (A : list T) d : map (fun j => nth j A d) (seq 0 (length A)) = A.
Proof.
  apply nth_error_ext. intros i. destruct (lt_dec i (length A)) as [H|H].
  - erewrite nth_error_map_Some; [|apply seq_nth_error; auto]. simpl.
    symmetry; apply nth_error_nth'; auto.
  - rewrite !(proj2 (nth_error_None _ _)); auto; rewrite ?map_length, ?seq_length; lia.
Qed.

Lemma mk_values_perm {T} (A : list T) d p : is_perm (length A) p ->
  Permutation A (map sd_v (map (mk_sd A d) p)).
Proof.
  intros P. rewrite map_map. simpl. rewrite <- (map_nth_seq A d) at 1. apply Permutation_map; auto.
Qed.

Theorem radix_sortp_ok D start idx A wlo whi w d0 :
  A <> [] -> length idx = length A -> length wlo = length A -> length whi = length A ->
  length w = length A ->
  (forall v, In v A -> (v < 2 ^ (8 * N.of_nat D))%N) ->
  (start = true -> is_perm (length A) idx) ->
  let p0 := if start then idx else seq 0 (length A) in
  exists r, radix_sortp D start idx A wlo whi w = Ok (map sd_i r) /\
    stable (sd_ltb N.ltb) (map (mk_sd A d0) p0) r.
Proof.
  intros HA Hi Hlo Hhi Hw HD Hstart p0.
  assert (Pp0 : is_perm (length A) p0).
  { unfold p0. destruct start; auto. apply Permutation_refl. }
  set (l := map (mk_sd A d0) p0).
  assert (PV : Permutation A (map sd_v l)) by (apply mk_values_perm; auto).
  assert (Ll : length l = length A).
  { apply Permutation_length in PV. rewrite map_length in PV. auto. }
  assert (Hidx : start = true -> forall j, In j idx -> j < length A).
  { intros Hs j Hj. specialize (Hstart Hs). eapply Permutation_in in Hj; [|symmetry; exact Hstart].
    apply in_seq in Hj; lia. }
  exists (pure_sort sd_v (filter (nz (bitor A)) (seq 0 D)) l). split.
  2:{ apply pure_sort_stable_full; auto. intros x Hx.
      eapply Permutation_in; [symmetry; exact PV|]. apply in_map; auto. }
  unfold radix_sortp.
  assert (Hm : forall e : res (list nat), match A with [] => UB | _ :: _ => e end = e)
    by (destruct A; [congruence|auto]).
  rewrite Hm. clear Hm.
  rewrite radix_count_ok. cbn [bind].
  pose proof (radix_zeros_ok A (bitor A) D 0) as Z. change (8 * N.of_nat 0)%N with 0%N in Z.
  rewrite N.shiftr_0_r in Z. rewrite Z. cbn [bind]. clear Z.
  change (fun i => ((8 * N.of_nat i)%N, offs (dg i) A)) with (pos A).
  assert (Emap : map sd_i l = p0).
  { unfold l. rewrite map_map. simpl. apply map_id. }
  destruct (filter (nz (bitor A)) (seq 0 D)) as [|i ps] eqn:Eps.
  - simpl. rewrite Emap. unfold p0. destruct start; auto.
  - destruct ps as [|i2 ps].
    + cbn [map pos]. simpl pure_sort.
      destruct start.
      * rewrite (passp_be_gen _ d0) by auto. fold p0. fold l. rewrite (offs_sd A i l PV).
        change (fun d => digit_at (8 * N.of_nat i) (sd_v d)) with (kd sd_v i).
        rewrite pass_gen_ok; [reflexivity|intros; apply dg_lt|lia].
      * pose proof (passp0_be_gen (8 * N.of_nat i) d0 A [] (offs (dg i) A) idx) as E.
        simpl length in E. simpl app in E. rewrite E. fold p0. fold l. rewrite (offs_sd A i l PV).
        change (fun d => digit_at (8 * N.of_nat i) (sd_v d)) with (kd sd_v i).
        rewrite pass_gen_ok; [reflexivity|intros; apply dg_lt|lia].
    + cbn [map]. change (pos A i) with ((8 * N.of_nat i)%N, offs (dg i) A) at 1.
      change (pos A i2 :: map (pos A) ps) with (map (pos A) (i2 :: ps)).
      assert (Pass1 : forall src, length src = length A ->
         (if start then radix_passp_b idx A (8 * N.of_nat i) (offs (dg i) A) src
          else radix_passp0_b A 0 (8 * N.of_nat i) (offs (dg i) A) src) =
         Ok (bucketed (kd sd_v i) l)).
      { intros src Hsrc. destruct start.
        - rewrite (passp_b_gen _ d0) by auto. fold p0. fold l. rewrite (offs_sd A i l PV).
          change (fun d => digit_at (8 * N.of_nat i) (sd_v d)) with (kd sd_v i).
          rewrite pass_gen_ok; [rewrite map_id; reflexivity|intros; apply dg_lt|lia].
        - pose proof (passp0_b_gen (8 * N.of_nat i) d0 A [] (offs (dg i) A) src) as E.
          simpl length in E. simpl app in E. rewrite E. fold p0. fold l. rewrite (offs_sd A i l PV).
          change (fun d => digit_at (8 * N.of_nat i) (sd_v d)) with (kd sd_v i).
          rewrite pass_gen_ok; [rewrite map_id; reflexivity|intros; apply dg_lt|lia]. }
      assert (P2 : Permutation l (bucketed (kd sd_v i) l))
        by (eapply st_perm; apply bucketed_stable; intros; apply dg_lt).
      assert (PV2 : Permutation A (map sd_v (bucketed (kd sd_v i) l))).
      { etransitivity; [exact PV|]. apply Permutation_map; auto. }
      cbn [map]. cbv iota beta zeta.
      match goal with |- context [?x mod 2 =? 0] => destruct (x mod 2 =? 0) end.
      * rewrite Pass1 by auto. cbn [bind].
        change (pos A i2 :: map (pos A) ps) with (map (pos A) (i2 :: ps)).
        rewrite passesp_ok; auto. discriminate.
      * rewrite Pass1 by auto. cbn [bind].
        change (pos A i2 :: map (pos A) ps) with (map (pos A) (i2 :: ps)).
        rewrite passesp_ok; auto. discriminate.
Qed.
