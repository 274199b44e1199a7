(** The local search: the elements listed for a point, and the best of them. *)
From Verif Require Import Base BaseLemmas Sort SortSpec SortLemmas Transfer GsTop GsSortProof ListLemmas CrystalProof
  Findpts FindptsSpec FindptsProof1 FindptsProof2 FindptsProof3 FindptsProof4.
From Coq Require Import QArith Qround Lqa Sorting.Sorted.
Open Scope nat_scope.

Lemma Forall2_nth {A B} (Rr : A -> B -> Prop) : forall l l', length l = length l' ->
  (forall k a b, nth_error l k = Some a -> nth_error l' k = Some b -> Rr a b) -> Forall2 Rr l l'.
Proof.
  induction l as [|a l IH]; intros [|b l'] L H; try discriminate; constructor.
  - apply (H 0); auto.
  - apply IH; auto. intros k. apply (H (S k)).
Qed.

Lemma Forall2_at {A B} (Rr : A -> B -> Prop) l l' : Forall2 Rr l l' ->
  forall k a b, nth_error l k = Some a -> nth_error l' k = Some b -> Rr a b.
Proof. induction 1; intros [|k] a b Ha Hb; cbn in *; try discriminate; [congruence|eauto]. Qed.

Section P5.
Variable F : doubles.
Notation dbl := (dbl F).
Notation val := (val F).
Variable rnd : Q -> Q.
Hypothesis R : rounding rnd.
Variable usize : nat.
Hypothesis us1 : 1 <= usize.

Lemma in_box_convertible n bd b x : few usize n -> 1 <= n -> clear F rnd bd b -> sub_box F b bd ->
  in_box F x b -> convertible F rnd usize n bd x.
Proof.
  intros Hf Hn Hc Hs. specialize (Hc n Hn). revert x Hc.
  induction Hs as [|r c b bd [H1 H2] _ IH]; intros x Hc Hx; inversion Hx as [|x0 r' x' b' Hx0 Hx']; subst; constructor.
  - inversion Hc as [|? ? ? ? [Hw _] _]; subst. split; auto. unfold few in Hf.
    assert (P0 : (inject_Z 0 <= pos F rnd n c x0)%Q).
    { apply (pos_nonneg F rnd R); auto. lra. }
    destruct Hx0 as [Hx1 Hx2].
    assert (P1 : (pos F rnd n c x0 <= inject_Z (4 * Z.of_nat n))%Q).
    { apply Qle_trans with (pos F rnd n c (snd c)); [|apply (pos_top F rnd R); auto]. apply (pos_mono F rnd R); auto. lra. }
    pose proof (Qfloor_bounds _ _ _ P0 P1).
    assert (0 < 2 ^ (8 * Z.of_nat usize - 1))%Z by (apply Z.pow_pos_nonneg; lia). lia.
  - apply IH; auto. inversion Hc; auto.
Qed.

Variable dzero : dbl.
Variable D : nat.
Hypothesis D2 : 2 <= D.
Variable obb : list (box F).
Hypothesis Hob : boxes F D obb.
Notation bd := (hash_bb F dzero D obb).
Hypothesis Hcl : forall b, In b obb -> clear F rnd bd b.
Variable nu max_size : nat.
Hypothesis Hfit : sizes_fit F rnd usize nu D bd obb.

Definition lst (n : nat) (x : list dbl) : list nat :=
  filter (covers F rnd dzero D obb n (digits F rnd n bd x)) (seq 0 (length obb)).

Theorem table_ok : exists h, hash_build F rnd usize dzero D obb max_size nu = Ok h /\
  good F rnd usize dzero D obb max_size (hash_n F h) (length (offset F h)) /\ bnd F h = bd /\
  forall x, convertible F rnd usize (hash_n F h) bd x -> listed F rnd usize h x = Ok (lst (hash_n F h) x).
Proof.
  destruct (build_ok F rnd R usize us1 dzero D D2 obb Hob Hcl nu max_size Hfit) as (h & size & E & G & L & Eb & Ef & H).
  exists h. split; auto. rewrite L. split; auto. split; auto. intros x Hx.
  destruct G as ([T1 T2] & Es & _).
  assert (Lb : length bd = D) by (apply hash_bb_spec; auto).
  destruct (index_ok F rnd usize us1 (hash_n F h) bd x) as (I1 & I2 & I3); auto; [rewrite Lb; lia|].
  unfold listed, table_index. rewrite Eb, Ef, I1. cbn [bind].
  destruct (H (cindex (hash_n F h) (digits F rnd (hash_n F h) bd x))) as (b & e & B1 & B2 & _ & B3).
  { rewrite Lb in I3. replace (hash_n F h ^ D) with (hash_n F h ^ length (digits F rnd (hash_n F h) bd x)) by (rewrite I3; auto). apply cindex_lt; auto. }
  rewrite (rd_ok _ _ _ B1). cbn [bind]. rewrite (rd_ok _ _ _ B2). cbn [bind]. rewrite B3. f_equal.
  unfold lst. eapply bucket_elems; eauto; [split; auto|congruence].
Qed.

Lemma SS_seq n : forall s, StronglySorted lt (seq s n).
Proof. induction n; intros s; cbn [seq]; constructor; auto. apply Forall_forall. intros x Hx. apply in_seq in Hx. lia. Qed.

Lemma lst_sorted n x : StronglySorted lt (lst n x).
Proof. apply StronglySorted_filter. apply SS_seq. Qed.
Lemma lst_lt n x e : In e (lst n x) -> e < length obb.
Proof. intros H. apply filter_In in H. destruct H as [H _]. apply in_seq in H. lia. Qed.
Lemma lst_in n x e b : 1 <= n -> nth_error obb e = Some b -> in_box F x b -> below_top F rnd n bd b x -> In e (lst n x).
Proof.
  intros Hn He Hx Ht. apply filter_In. assert (Hb : In b obb) by (eapply nth_error_In; eauto).
  split; [apply in_seq; apply nth_error_Some_lt in He; lia|].
  unfold covers. rewrite (nth_error_nth _ _ _ He). apply in_ranges_iff. apply digits_in_ranges; auto.
  - apply bd_sub; auto.
  - apply Hcl; auto.
Qed.
Lemma tried_one_le n : tried F rnd usize dzero D obb n -> length obb < 256 ^ usize.
Proof.
  intros _. destruct Hfit as [_ H]. specialize (H 1 (le_n 1) (or_intror eq_refl)).
  rewrite (entries_one F rnd R usize us1 dzero D D2 obb Hob Hcl nu Hfit) in H. lia.
Qed.

(** The digits of a cell number. *)
Fixpoint cell_digits (n k c : nat) : list nat :=
  match k with O => [] | S k' => c mod n :: cell_digits n k' (c / n) end.
Lemma cell_digits_ok n k : 1 <= n -> forall c, c < n ^ k ->
  length (cell_digits n k c) = k /\ Forall (fun i => i < n) (cell_digits n k c) /\ cindex n (cell_digits n k c) = c /\
  forall j, j < k -> nth_error (cell_digits n k c) j = Some ((c / n ^ j) mod n).
Proof.
  intros Hn. induction k as [|k IH]; intros c Hc; cbn [cell_digits].
  - cbn in Hc. repeat split; auto; cbn; lia.
  - destruct (IH (c / n)) as (L & A & C & N).
    { cbn [Nat.pow] in Hc. apply Nat.div_lt_upper_bound; lia. }
    cbn [length cindex]. rewrite C. repeat split; auto.
    + constructor; auto. apply Nat.mod_upper_bound. lia.
    + pose proof (Nat.div_mod c n). lia.
    + intros [|j] Hj; cbn [nth_error Nat.pow]; [rewrite Nat.div_1_r; auto|]. rewrite N by lia.
      rewrite Nat.div_div; auto; [lia|]. apply Nat.pow_nonzero. lia.
Qed.

Lemma in_ranges_cell n c e b : 1 <= n -> c < n ^ D -> nth_error obb e = Some b ->
  (covers F rnd dzero D obb n (cell_digits n D c) e = true <-> cell_in_box F rnd n bd b c).
Proof.
  intros Hn Hc He. unfold covers. rewrite (nth_error_nth _ _ _ He), in_ranges_iff.
  destruct (cell_digits_ok n D Hn c Hc) as (L & _ & _ & N).
  assert (Lb : length b = D) by (apply Hob; eapply nth_error_In; eauto).
  assert (Lbd : length bd = D) by (apply hash_bb_spec; auto).
  assert (Hr : forall k rb rc, nth_error b k = Some rb -> nth_error bd k = Some rc ->
    nth_error (ranges_of F rnd n bd b) k = Some (cell_range F rnd n rc rb)).
  { clear. revert b. unfold ranges_of. generalize bd. clear.
    intros bd b. revert bd. induction b as [|x b IH]; intros [|y bd] [|k] rb rc H1 H2; cbn in *; try discriminate; auto.
    congruence. }
  split.
  - intros H k rb rc H1 H2. cbv zeta. assert (Hk : k < D) by (rewrite <- Lb; eapply nth_error_Some_lt; eauto).
    exact (Forall2_at _ _ _ H k _ _ (N k Hk) (Hr k rb rc H1 H2)).
  - intros H. apply Forall2_nth; [unfold ranges_of; rewrite map_length, combine_length; lia|].
    intros k i ir Hi Hir. assert (Hk : k < D) by (rewrite <- L; eapply nth_error_Some_lt; eauto).
    rewrite N in Hi by auto. injection Hi as <-.
    destruct (nth_error_lt_Some b k) as [rb Hb]; [lia|]. destruct (nth_error_lt_Some bd k) as [rc Hb2]; [lia|].
    rewrite (Hr k rb rc Hb Hb2) in Hir. injection Hir as <-. apply (H k rb rc Hb Hb2).
Qed.

Theorem cells_ok : exists h, hash_build F rnd usize dzero D obb max_size nu = Ok h /\ bnd F h = bd /\
  1 <= hash_n F h /\ length (offset F h) = hash_n F h ^ D + 1 + entries F rnd (hash_n F h) bd obb /\
  (2 + length obb <= max_size -> length (offset F h) <= max_size) /\
  forall c, c < hash_n F h ^ D ->
    exists b e l, nth_error (offset F h) c = Some b /\ nth_error (offset F h) (c + 1) = Some e /\
      mapM (rd (offset F h)) (seq b (e - b)) = Ok l /\ StronglySorted lt l /\
      forall el, In el l <-> exists bx, nth_error obb el = Some bx /\ cell_in_box F rnd (hash_n F h) bd bx c.
Proof.
  destruct (build_ok F rnd R usize us1 dzero D D2 obb Hob Hcl nu max_size Hfit) as (h & size & E & G & L & Eb & Ef & H).
  exists h. destruct G as (Ht & Es & Gs). pose proof Ht as [T1 T2].
  split; auto. split; auto. split; auto. split; [congruence|]. split.
  { intros Hm. destruct Gs as [Gs|Gs]; [congruence|]. rewrite L, Es, Gs, Nat.pow_1_l.
    rewrite (entries_one F rnd R usize us1 dzero D D2 obb Hob Hcl nu Hfit). lia. }
  intros c Hc. destruct (H c Hc) as (b & e & B1 & B2 & _ & B3).
  destruct (cell_digits_ok (hash_n F h) D T1 c Hc) as (C1 & C2 & C3 & _).
  replace (bucket (pairs F rnd usize dzero D obb (hash_n F h)) c) with (bucket (pairs F rnd usize dzero D obb (hash_n F h)) (cindex (hash_n F h) (cell_digits (hash_n F h) D c))) in B3 by (rewrite C3; auto).
  rewrite (bucket_elems F rnd R usize us1 dzero D D2 obb Hob Hcl) in B3; auto.
  eexists b, e, _. split; auto. split; auto. split; [exact B3|].
  split; [apply StronglySorted_filter, SS_seq|]. intros el. rewrite filter_In, in_seq. split.
  - intros [H1 H2]. destruct (nth_error_lt_Some obb el) as [bx Hx]; [lia|]. exists bx. split; auto.
    eapply in_ranges_cell; eauto.
  - intros (bx & Hx & Hi). split; [apply nth_error_Some_lt in Hx; lia|]. eapply in_ranges_cell; eauto.
Qed.
End P5.

(** *** The best candidate *)
Section Best.
Variable F : doubles.
Notation dbl := (dbl F).
Notation val := (val F).
Notation result := (result F).
Variable E : Type.
Variable sol : E -> found F.

(** o is the result for one of the candidates seen, and none of these is better. *)
Definition best (is : E -> result -> Prop) (C : list E) (o : result) : Prop :=
  (C = [] /\ code F o = NOT_FOUND) \/
  (exists c, In c C /\ is c o /\ code F o = (if f_internal F (sol c) then INTERNAL else BORDER) /\
             r F o = f_r F (sol c) /\ dist2 F o = f_dist2 F (sol c) /\
   (code F o = INTERNAL \/
    forall c', In c' C -> f_internal F (sol c') = false /\ (val (dist2 F o) <= val (f_dist2 F (sol c')))%Q)).

Variable step : result -> E -> result.
Variable is : E -> result -> Prop.
(** One step of a merge. *)
Hypothesis Hstep : forall o c,
  step o c = o /\ (code F o = INTERNAL \/ code F o <> NOT_FOUND /\ f_internal F (sol c) = false /\ (val (dist2 F o) <= val (f_dist2 F (sol c)))%Q) \/
  is c (step o c) /\ code F (step o c) = (if f_internal F (sol c) then INTERNAL else BORDER) /\
  r F (step o c) = f_r F (sol c) /\ dist2 F (step o c) = f_dist2 F (sol c) /\
  code F o <> INTERNAL /\ (code F o = NOT_FOUND \/ f_internal F (sol c) = true \/ (val (f_dist2 F (sol c)) < val (dist2 F o))%Q).

Lemma best_step C o c : best is C o -> best is (C ++ [c]) (step o c).
Proof.
  intros H. right. destruct (Hstep o c) as [[-> Hk]|(S1 & S2 & S3 & S4 & Hn & Hk)].
  - destruct H as [[-> Hc]|(c0 & I & I1 & I2 & I3 & I4 & I5)].
    { exfalso. unfold INTERNAL, NOT_FOUND in *. destruct Hk as [Hk|[Hk _]]; congruence. }
    exists c0. split; [apply in_or_app; auto|]. repeat (split; auto). destruct Hk as [Hk|(Hk & K1 & K2)]; auto.
    destruct I5 as [I5|I5]; auto. right. intros c' Hc'. apply in_app_or in Hc'. destruct Hc' as [Hc'|[<-|[]]]; auto.
  - exists c. split; [apply in_or_app; right; left; auto|]. repeat (split; auto).
    destruct (f_internal F (sol c)) eqn:Ei; [left; rewrite S2; auto|]. right. rewrite S4.
    intros c' Hc'. apply in_app_or in Hc'. destruct Hc' as [Hc'|[<-|[]]]; [|split; auto; apply Qle_refl].
    destruct H as [[-> Hc]|(c0 & I & I1 & I2 & I3 & I4 & I5)]; [destruct Hc'|].
    destruct I5 as [I5|I5]; [congruence|]. destruct (I5 c' Hc'). split; auto.
    destruct Hk as [Hk|[Hk|Hk]]; [|congruence|lra].
    destruct (f_internal F (sol c0)); unfold INTERNAL, BORDER, NOT_FOUND in *; congruence.
Qed.

Lemma best_fold l : forall C o, best is C o -> best is (C ++ l) (fold_left step l o).
Proof.
  induction l as [|c l IH]; intros C o H; cbn [fold_left].
  - rewrite app_nil_r. auto.
  - change (c :: l) with ([c] ++ l). rewrite app_assoc. apply IH. apply best_step. auto.
Qed.
End Best.

Section Local.
Variable F : doubles.
Variable dzero : dbl F.
Variable fd : local_data F.

(** o is the result for element e; with several sessions disti and elsid are set, too. *)
Definition is_el (p : point F) (e : nat) (o : result F) : Prop :=
  el F o = e /\ (ims F fd = true -> disti F o = f_disti F (solve F fd e (px F p)) /\ elsid F o = nsid F fd).
(** The local search: try_el picks the best. *)
Lemma try_best p o l :
  best F nat (fun e => solve F fd e (px F p)) (is_el p) l
    (fold_left (try_el F dzero fd p) l (set_code F NOT_FOUND o)).
Proof.
  rewrite <- (app_nil_l l) at 1. apply best_fold; [|left; split; reflexivity].
  clear. intros o c. unfold try_el, better, is_el. set (f := solve F fd c (px F p)).
  assert (Hd : ims F fd = true -> (if ims F fd then f_disti F f else dzero) = f_disti F f /\ (if ims F fd then nsid F fd else 0) = nsid F fd)
    by (intros ->; auto).
  destruct (Nat.eqb_spec (code F o) INTERNAL) as [Ei|Ei]; [left; auto|].
  destruct (Nat.eqb_spec (code F o) NOT_FOUND) as [En|En]; cbn [orb].
  { right. cbn. repeat (split; auto). }
  destruct (f_internal F f) eqn:Ef; cbn [orb].
  { right. cbn. repeat (split; auto). }
  destruct (dlt F (f_dist2 F f) (dist2 F o)) eqn:Ed.
  - right. cbn. apply dlt_spec in Ed. repeat (split; auto).
  - left. split; auto. right. repeat (split; auto). apply dlt_false in Ed. auto.
Qed.
Lemma try_proc p l : forall o, proc F (fold_left (try_el F dzero fd p) l o) = proc F o.
Proof.
  induction l as [|e l IH]; intros o; cbn [fold_left]; auto. rewrite IH. unfold try_el, better.
  destruct (code F o =? INTERNAL); auto. destruct (_ || _); auto.
Qed.

Lemma try_nil p o : fold_left (try_el F dzero fd p) [] o = o.
Proof. auto. Qed.
End Local.

Lemma best_mono (F : doubles) E sol (is is' : E -> result F -> Prop) C o : (forall c, is c o -> is' c o) ->
  best F E sol is C o -> best F E sol is' C o.
Proof. intros H [B|(c & I & I1 & I2)]; [left; auto|]. right. exists c. auto. Qed.

(** From the best of the candidates considered to the answer. *)
Lemma best_answer (F : doubles) E sol who C (may must : E -> Prop) none o :
  best F E sol who C o -> (C = [] -> o = none) -> (forall c, In c C -> may c) -> (forall c, must c -> In c C) ->
  answer F may must sol who none o.
Proof.
  intros B Hn Hmay Hmust. destruct B as [[-> Hc]|(c & I & I1 & I2 & I3 & I4 & I5)].
  - left. split; [auto|]. split; [auto|]. intros c H. apply (Hmust c H).
  - right. exists c. split; [auto|]. split; [auto|]. split; [auto|]. split; [auto|]. split; [auto|].
    intros c' H. destruct I5 as [I5|I5]; [left|right]; auto.
Qed.

(** *** The local search *)
Section Search.
Variable F : doubles.
Notation dbl := (dbl F).
Notation val := (val F).
Variable rnd : Q -> Q.
Hypothesis R : rounding rnd.
Variable usize : nat.
Hypothesis us1 : 1 <= usize.
Variable dzero : dbl.
Variable D : nat.
Hypothesis D2 : 2 <= D.
Variable obb : list (box F).
Hypothesis Hob : boxes F D obb.
Notation bd := (hash_bb F dzero D obb).
Hypothesis Hcl : forall b, In b obb -> clear F rnd bd b.
Variable nu max_size : nat.
Hypothesis Hfit : sizes_fit F rnd usize nu D bd obb.

Definition may_el (fd : local_data F) (sessm : nat) (p : point F) (e : nat) : Prop :=
  e < length obb /\ searched F fd sessm (psid F p) /\ box_test F fd e (px F p) = true.
Definition must_el (n : nat) (bnd : box F) (fd : local_data F) (sessm : nat) (p : point F) (e : nat) : Prop :=
  searched F fd sessm (psid F p) /\ box_test F fd e (px F p) = true /\
  exists b, nth_error obb e = Some b /\ in_box F (px F p) b /\ below_top F rnd n bnd b (px F p).

Lemma skip_searched fd sessm sid : negb (skip F fd sessm sid) = true <-> searched F fd sessm sid.
Proof.
  unfold skip, searched. destruct (ims F fd); cbn [andb negb]; [|split; auto].
  destruct (sessm =? 1); destruct (Nat.eqb_spec (nsid F fd) sid); cbn; split; intros H; try discriminate; auto.
  - destruct H as [H|H]; congruence.
  - destruct H as [H|H]; congruence.
Qed.

Theorem search_ok : exists h, hash_build F rnd usize dzero D obb max_size nu = Ok h /\ bnd F h = bd /\ 1 <= hash_n F h /\
  few usize (hash_n F h) /\
  forall fd pts st sessm, hd F fd = h -> 1 <= npt_max F fd -> length st = length pts ->
    (forall p, In p pts -> convertible F rnd usize (hash_n F h) bd (px F p)) ->
    exists st', findptsms_local F rnd usize dzero fd sessm pts st = Ok st' /\ length st' = length st /\
    forall i p o, nth_error pts i = Some p -> nth_error st i = Some o ->
      exists o' C, nth_error st' i = Some o' /\ proc F o' = proc F o /\
        best F nat (fun e => solve F fd e (px F p)) (is_el F fd p) C o' /\
        (C = [] -> o' = set_code F NOT_FOUND o) /\
        (forall e, In e C -> may_el fd sessm p e) /\ (forall e, must_el (hash_n F h) bd fd sessm p e -> In e C).
Proof.
  destruct (table_ok F rnd R usize us1 dzero D D2 obb Hob Hcl nu max_size Hfit) as (h & E & G & Eb & Hl).
  exists h. split; auto. split; auto. destruct G as (Ht & Gl & _). split; [apply Ht|].
  split; [eapply (tried_few F rnd usize us1); eauto|].
  intros fd pts st sessm Hd Hnpt Hlen Hcv.
  destruct (local_ok F usize dzero fd Hnpt rnd sessm pts (lst F rnd dzero D obb (hash_n F h))) with (st := st) as (st' & E' & L' & H'); auto.
  - intros p Hp. rewrite Hd. auto.
  - intros p Hp. apply (lst_sorted F rnd usize us1); auto.
  - intros p e Hp He. apply (lst_lt F rnd usize us1) in He; auto.
    pose proof (tried_one_le F rnd R usize us1 dzero D D2 obb Hob Hcl nu Hfit _ Ht). lia.
  - exists st'. split; auto. split; auto. intros i p o Hp Ho.
    exists (fold_left (try_el F dzero fd p) (cands F fd sessm (lst F rnd dzero D obb (hash_n F h)) p) (set_code F NOT_FOUND o)),
      (cands F fd sessm (lst F rnd dzero D obb (hash_n F h)) p).
    split; [apply H'; auto|]. split; [rewrite try_proc; reflexivity|]. split; [apply try_best|].
    split; [intros ->; reflexivity|]. unfold cands. split.
    + intros e He. apply filter_In in He. destruct He as [H1 H2]. apply andb_true_iff in H2. destruct H2 as [H2 H3].
      split; [eapply (lst_lt F rnd usize); eauto|]. split; auto. apply skip_searched; auto.
    + intros e (H1 & H2 & b & Hb & H3 & H4). apply filter_In. split.
      * eapply (lst_in F rnd R usize); eauto. apply Ht.
      * apply andb_true_iff. split; auto. apply skip_searched; auto.
Qed.
End Search.

(** *** Exact arithmetic *)
Section Exact.
Variable F : doubles.
Notation val := (val F).
Notation rnd := (fun q : Q => q).

Lemma exact_rounding : rounding rnd.
Proof. split; auto; intros; try reflexivity; lra. Qed.

Lemma exact_pos_lt n c x y : (val (fst c) < val (snd c))%Q -> 1 <= n ->
  (val x < val y)%Q -> (pos F rnd n c x < pos F rnd n c y)%Q.
Proof.
  intros Hc Hn H. unfold pos. apply Qmult_lt_compat_r; [|lra].
  apply Qlt_shift_div_l; [lra|]. rewrite Qmult_0_l. change 0%Q with (inject_Z 0). rewrite <- Zlt_Qlt. lia.
Qed.
Lemma exact_pos_top n c y : (val (fst c) < val (snd c))%Q -> (val y == val (snd c))%Q ->
  (pos F rnd n c y == inject_Z (Z.of_nat n))%Q.
Proof. intros Hc Hy. unfold pos. rewrite Hy. field. lra. Qed.

Lemma exact_clear bd b : thick F b -> sub_box F b bd -> clear F rnd bd b.
Proof.
  intros Ht Hs n Hn. revert Ht. induction Hs as [|r c b bd [H1 H2] _ IH]; intros Ht; constructor.
  - inversion Ht; subst. split; [lra|]. rewrite <- (exact_pos_top n c (snd c)); [|lra|reflexivity].
    apply exact_pos_lt; auto; lra.
  - apply IH. inversion Ht; auto.
Qed.
Lemma exact_below n bd b x : 1 <= n -> thick F b -> sub_box F b bd -> below_face F bd b x -> below_top F rnd n bd b x.
Proof.
  intros Hn Ht Hs. revert x Ht. unfold below_face, below_top.
  induction Hs as [|r c b bd [H1 H2] _ IH]; intros x Ht H; cbn [combine] in *; inversion H as [|x0 rc x' rest H0 H']; subst; constructor.
  - cbn [fst snd] in *. inversion Ht; subst. destruct H0 as [H0|H0].
    + left. apply exact_pos_lt; auto. lra.
    + right. rewrite (exact_pos_top n c (snd r)); [apply Qle_refl|lra|auto].
  - apply IH; auto. inversion Ht; auto.
Qed.
End Exact.
