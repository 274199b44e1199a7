(** The global hash table: bounds of all processes, building the table. *)
From Verif Require Import Base BaseLemmas Sort SortSpec SortLemmas Net NetProof NetWords NetWordsProof OpsSpec Comm CommSpec CommProof
  Transfer TransferSpec TransferProof TransferProof2 TransferProof4 GsTop GsSpec GsSortProof GsTopProof3 ListLemmas CrystalProof
  Findpts FindptsGlobal FindptsSpec
  FindptsProof1 FindptsProof2 FindptsProof3 FindptsProof5 FindptsGlobalProof1 FindptsGlobalProof2.
From Coq Require Import QArith Qround Lqa Sorting.Sorted.
Open Scope nat_scope.

Section Minmax.
Variable F : doubles.
Notation val := (val F).

Lemma dbl_min_spec a b : (val (dbl_min F a b) <= val a)%Q /\ (val (dbl_min F a b) <= val b)%Q /\
  (dbl_min F a b = a \/ dbl_min F a b = b).
Proof. unfold dbl_min. destruct (dlt F b a) eqn:E; [apply dlt_spec in E|apply dlt_false in E]; repeat split; auto; lra. Qed.
Lemma dbl_max_spec a b : (val a <= val (dbl_max_op F a b))%Q /\ (val b <= val (dbl_max_op F a b))%Q /\
  (dbl_max_op F a b = a \/ dbl_max_op F a b = b).
Proof. unfold dbl_max_op. destruct (dlt F a b) eqn:E; [apply dlt_spec in E|apply dlt_false in E]; repeat split; auto; lra. Qed.

Lemma val_antisym a b : (val a <= val b)%Q -> (val b <= val a)%Q -> a = b.
Proof. intros H1 H2. apply val_inj. lra. Qed.

Lemma min_monoid : cmonoid (dbl_min F) (dbl_max F).
Proof.
  constructor.
  - intros a b. destruct (dbl_min_spec a b) as (A1 & A2 & A3), (dbl_min_spec b a) as (B1 & B2 & B3).
    apply val_antisym; [destruct B3 as [-> | ->]|destruct A3 as [-> | ->]]; auto.
  - intros a b c. destruct (dbl_min_spec a b) as (A1 & A2 & A3), (dbl_min_spec (dbl_min F a b) c) as (B1 & B2 & B3),
      (dbl_min_spec b c) as (C1 & C2 & C3), (dbl_min_spec a (dbl_min F b c)) as (D1 & D2 & D3).
    apply val_antisym.
    + destruct D3 as [-> | ->]; [lra|]. destruct C3 as [-> | ->]; lra.
    + destruct B3 as [-> | ->]; [|lra]. destruct A3 as [-> | ->]; lra.
  - intros a. destruct (dbl_min_spec (dbl_max F) a) as (A1 & A2 & [A3|A3]); auto. rewrite A3.
    apply val_antisym; [rewrite <- A3 at 1; auto|apply dbl_max_top].
Qed.
Lemma max_monoid : cmonoid (dbl_max_op F) (dbl_lowest F).
Proof.
  constructor.
  - intros a b. destruct (dbl_max_spec a b) as (A1 & A2 & A3), (dbl_max_spec b a) as (B1 & B2 & B3).
    apply val_antisym; [destruct A3 as [-> | ->]|destruct B3 as [-> | ->]]; auto.
  - intros a b c. destruct (dbl_max_spec a b) as (A1 & A2 & A3), (dbl_max_spec (dbl_max_op F a b) c) as (B1 & B2 & B3),
      (dbl_max_spec b c) as (C1 & C2 & C3), (dbl_max_spec a (dbl_max_op F b c)) as (D1 & D2 & D3).
    apply val_antisym.
    + destruct B3 as [-> | ->]; [|lra]. destruct A3 as [-> | ->]; lra.
    + destruct D3 as [-> | ->]; [lra|]. destruct C3 as [-> | ->]; lra.
  - intros a. destruct (dbl_max_spec (dbl_lowest F) a) as (A1 & A2 & [A3|A3]); auto. rewrite A3.
    apply val_antisym; [apply dbl_lowest_bot|rewrite <- A3; exact A2].
Qed.

Lemma fold_min l : forall a, (val (fold_left (dbl_min F) l a) <= val a)%Q /\
  (forall b, In b l -> (val (fold_left (dbl_min F) l a) <= val b)%Q) /\
  forall c, (val c <= val a)%Q -> (forall b, In b l -> (val c <= val b)%Q) -> (val c <= val (fold_left (dbl_min F) l a))%Q.
Proof.
  induction l as [|x l IH]; intros a; cbn [fold_left].
  - split; [lra|]. split; [intros b []|auto].
  - destruct (IH (dbl_min F a x)) as (I1 & I2 & I3), (dbl_min_spec a x) as (A1 & A2 & A3). split; [lra|]. split.
    + intros b [<-|Hb]; [lra|auto].
    + intros c Ha Hb. apply I3; [destruct A3 as [-> | ->]; auto; apply Hb; left; auto|]. intros; apply Hb; right; auto.
Qed.
Lemma fold_maxd l : forall a, (val a <= val (fold_left (dbl_max_op F) l a))%Q /\
  (forall b, In b l -> (val b <= val (fold_left (dbl_max_op F) l a))%Q) /\
  forall c, (val a <= val c)%Q -> (forall b, In b l -> (val b <= val c)%Q) -> (val (fold_left (dbl_max_op F) l a) <= val c)%Q.
Proof.
  induction l as [|x l IH]; intros a; cbn [fold_left].
  - split; [lra|]. split; [intros b []|auto].
  - destruct (IH (dbl_max_op F a x)) as (I1 & I2 & I3), (dbl_max_spec a x) as (A1 & A2 & A3). split; [lra|]. split.
    + intros b [<-|Hb]; [lra|auto].
    + intros c Ha Hb. apply I3; [destruct A3 as [-> | ->]; auto; apply Hb; left; auto|]. intros; apply Hb; right; auto.
Qed.

Variable np D : nat.
Hypothesis np1 : 1 <= np.
Variable lb : nat -> box F.
Hypothesis Hlb : forall p, p < np -> length (lb p) = D.

(** The bounds of all processes. *)
Definition gmin (i : nat) : dbl F := reduction (dbl_min F) (dbl_max F) (fun q => nth i (map fst (lb q)) (dbl_max F)) 0 np.
Definition gmax (i : nat) : dbl F := reduction (dbl_max_op F) (dbl_lowest F) (fun q => nth i (map snd (lb q)) (dbl_lowest F)) 0 np.
Definition gbd : box F := combine (vec D gmin) (vec D gmax).

Lemma gbd_length : length gbd = D.
Proof. unfold gbd, vec. rewrite combine_length, !map_length, !seq_length. lia. Qed.
Lemma gbd_nth k c : nth_error gbd k = Some c -> k < D /\ c = (gmin k, gmax k).
Proof.
  intros H. assert (Hk : k < D) by (rewrite <- gbd_length; eapply nth_error_Some_lt; eauto). split; auto.
  unfold gbd, vec in H.
  assert (E : forall s n j, j < n -> nth_error (combine (map gmin (seq s n)) (map gmax (seq s n))) j = Some (gmin (s + j), gmax (s + j))).
  { clear. intros s n. revert s. induction n as [|n IH]; intros s [|j] Hj; cbn; try lia.
    - rewrite Nat.add_0_r. auto.
    - rewrite IH by lia. f_equal. f_equal; f_equal; lia. }
  rewrite E in H by auto. cbn in H. congruence.
Qed.

Lemma gbd_bounds : bounds F (map lb (seq 0 np)) gbd.
Proof.
  split.
  - intros b Hb. apply in_map_iff in Hb. destruct Hb as (q & <- & Hq). apply in_seq in Hq.
    apply Forall2_nth; [rewrite gbd_length, Hlb; auto; lia|]. intros k r c Hr Hc. apply gbd_nth in Hc. destruct Hc as [Hk ->]. cbn [fst snd].
    unfold gmin, gmax, reduction. split.
    + apply fold_min. apply in_map_iff. exists q. split; [|apply in_seq; lia].
      erewrite nth_error_nth; [reflexivity|]. apply (map_nth_error fst). exact Hr.
    + apply fold_maxd. apply in_map_iff. exists q. split; [|apply in_seq; lia].
      erewrite nth_error_nth; [reflexivity|]. apply (map_nth_error snd). exact Hr.
  - intros bd' H.
    assert (L : length bd' = D).
    { rewrite <- (Hlb 0) by lia. symmetry. eapply Forall2_len. apply H. apply in_map_iff. exists 0. split; auto. apply in_seq. lia. }
    assert (Hq : forall q k c, q < np -> nth_error bd' k = Some c -> exists r, nth_error (lb q) k = Some r /\ (val (fst c) <= val (fst r))%Q /\ (val (snd r) <= val (snd c))%Q).
    { intros q k c Hq Hc. destruct (nth_error_lt_Some (lb q) k) as [r Hr]; [rewrite Hlb by auto; rewrite <- L; eapply nth_error_Some_lt; eauto|].
      exists r. split; auto.
      refine (Forall2_at _ _ _ (H (lb q) _) k r c Hr Hc). apply in_map_iff. exists q. split; auto. apply in_seq. lia. }
    apply Forall2_nth; [rewrite gbd_length; auto|]. intros k r c Hr Hc. apply gbd_nth in Hr. destruct Hr as [Hk ->]. cbn [fst snd].
    unfold gmin, gmax, reduction. split.
    + apply fold_min; [apply dbl_max_top|]. intros b Hb. apply in_map_iff in Hb. destruct Hb as (q & <- & Hin). apply in_seq in Hin.
      destruct (Hq q k c) as (r & Hr & R1 & R2); auto; [lia|]. erewrite nth_error_nth; [exact R1|]. apply (map_nth_error fst). exact Hr.
    + apply fold_maxd; [apply dbl_lowest_bot|]. intros b Hb. apply in_map_iff in Hb. destruct Hb as (q & <- & Hin). apply in_seq in Hin.
      destruct (Hq q k c) as (r & Hr & R1 & R2); auto; [lia|]. erewrite nth_error_nth; [exact R2|]. apply (map_nth_error snd). exact Hr.
Qed.

(** hash_bb. *)
Variable lsize : nat.
Variable dzero : dbl F.
Variable root : nat -> nat.
Variable hs : nat -> nat.
Hypothesis Hhs : sum (map hs (seq 0 np)) < ulim lsize.

Lemma global_bb_goes : goes np (fun p => global_bb F lsize np p dzero D root (lb p) (hs p))
  (fun _ => Ret (gbd, root (sum (map hs (seq 0 np))))).
Proof.
  unfold global_bb.
  assert (G1 : goes np (fun p => allreduce_dbl F np p dzero D (dbl_min F) (map fst (lb p))) (fun _ => Ret (vec D gmin))).
  { unfold allreduce_dbl. apply (goes_words (dbl_bytes F) (bytes_dbl F) (dbl_bytes_back F) np _ (fun _ => Ret (vec D gmin))).
    apply (allreduce_goes (dbl_min F) (dbl_max F) np D (fun p => map fst (lb p)) (fun _ => repeat dzero D) min_monoid np1).
    intros p Hp. rewrite map_length, repeat_length, Hlb; auto. }
  assert (G2 : goes np (fun p => allreduce_dbl F np p dzero D (dbl_max_op F) (map snd (lb p))) (fun _ => Ret (vec D gmax))).
  { unfold allreduce_dbl. apply (goes_words (dbl_bytes F) (bytes_dbl F) (dbl_bytes_back F) np _ (fun _ => Ret (vec D gmax))).
    apply (allreduce_goes (dbl_max_op F) (dbl_lowest F) np D (fun p => map snd (lb p)) (fun _ => repeat dzero D) max_monoid np1).
    intros p Hp. rewrite map_length, repeat_length, Hlb; auto. }
  set (sm := reduction (ulong_add lsize) (to_ulong lsize 0) (fun q => to_ulong lsize (hs q)) 0 np).
  assert (G3 : goes np (fun p => allreduce_size lsize np p (hs p)) (fun _ => Ret [sm])).
  { unfold allreduce_size. apply (goes_words (ulong_word lsize) (word_ulong lsize) (word_ulong_word lsize) np _ (fun _ => Ret [sm])).
    apply (allreduce_goes (ulong_add lsize) (to_ulong lsize 0) np 1 (fun p => [to_ulong lsize (hs p)]) (fun _ => [to_ulong lsize 0]) (ulong_cmonoid lsize np np1) np1).
    intros p Hp. auto. }
  assert (Es : proj1_sig sm = sum (map hs (seq 0 np))).
  { unfold sm, reduction.
    assert (R : forall l a, a + sum (map hs l) < ulim lsize -> proj1_sig (fold_left (ulong_add lsize) (map (fun q => to_ulong lsize (hs q)) l) (to_ulong lsize a)) = a + sum (map hs l)).
    { induction l as [|q l IH]; intros a Ha; cbn [map fold_left].
      - cbn [map] in Ha. unfold sum in *. cbn [fold_right] in *. rewrite to_ulong_val by lia. lia.
      - cbn [map] in Ha. unfold sum in Ha. cbn [fold_right] in Ha. fold (sum (map hs l)) in Ha.
        replace (ulong_add lsize (to_ulong lsize a) (to_ulong lsize (hs q))) with (to_ulong lsize (a + hs q)).
        + rewrite IH by lia. unfold sum. cbn [fold_right]. fold (sum (map hs l)). lia.
        + unfold ulong_add. rewrite !to_ulong_val by lia. reflexivity. }
    rewrite R by auto. reflexivity. }
  eapply goes_trans.
  { apply (goes_bind np (fun p mins => pbind (allreduce_dbl F np p dzero D (dbl_max_op F) (map snd (lb p))) (fun maxs =>
      pbind (allreduce_size lsize np p (hs p)) (fun s => match s with [s] => Ret (combine mins maxs, root (proj1_sig s)) | _ => Stop end))) _ _ G1). }
  eapply goes_trans.
  { apply (goes_bind np (fun p maxs =>
      pbind (allreduce_size lsize np p (hs p)) (fun s => match s with [s] => Ret (combine (vec D gmin) maxs, root (proj1_sig s)) | _ => Stop end)) _ _ G2). }
  eapply goes_trans.
  { apply (goes_bind np (fun p s => match s with [s] => Ret (combine (vec D gmin) (vec D gmax), root (proj1_sig s)) | _ => Stop end) _ _ G3). }
  apply goes_ext. intros p Hp. rewrite Es. reflexivity.
Qed.
End Minmax.
