(** The hash table of one process: bounds, counting, choice of the size, contents. *)
From Verif Require Import Base BaseLemmas SortLemmas ListLemmas Findpts FindptsSpec FindptsProof1 FindptsProof2.
From Coq Require Import QArith Qround Lqa.
Open Scope nat_scope.

Section P3.
Variable F : doubles.
Notation dbl := (dbl F).
Notation val := (val F).
Notation box := (box F).
Notation ordered := (ordered F).
Notation sub_box := (sub_box F).

Lemma dlt_spec a b : dlt F a b = true <-> (val a < val b)%Q.
Proof.
  unfold dlt. rewrite negb_true_iff. split; intros H.
  - apply Qnot_le_lt. intros L. apply Qle_bool_iff in L. congruence.
  - apply not_true_iff_false. intros E. apply Qle_bool_iff in E. lra.
Qed.
Lemma dlt_false a b : dlt F a b = false <-> (val b <= val a)%Q.
Proof. rewrite <- not_true_iff_false, dlt_spec. split; [apply Qnot_lt_le|intros; lra]. Qed.

Definition below (r r' : dbl * dbl) : Prop := (val (fst r') <= val (fst r))%Q /\ (val (snd r) <= val (snd r'))%Q.
Lemma merge_spec a b : below a (dbl_range_merge F a b) /\ below b (dbl_range_merge F a b) /\
  forall c, below a c -> below b c -> below (dbl_range_merge F a b) c.
Proof.
  unfold below, dbl_range_merge. cbn [fst snd].
  destruct (dlt F (fst b) (fst a)) eqn:E1, (dlt F (snd b) (snd a)) eqn:E2;
    rewrite ?dlt_spec, ?dlt_false in *; repeat split; intros; lra.
Qed.

Definition merge_box (a b : box) : box := map (fun '(x, y) => dbl_range_merge F x y) (combine a b).
Lemma merge_box_spec D : forall a b, length a = D -> length b = D ->
  length (merge_box a b) = D /\ sub_box a (merge_box a b) /\ sub_box b (merge_box a b) /\
  forall c, sub_box a c -> sub_box b c -> sub_box (merge_box a b) c.
Proof.
  induction D as [|D IH]; intros [|x a] [|y b] La Lb; try discriminate.
  - split; [reflexivity|]. split; [constructor|]. split; [constructor|]. intros c Hc _. exact Hc.
  - cbn [length] in *. injection La as La. injection Lb as Lb.
    destruct (IH a b La Lb) as (I1 & I2 & I3 & I4). destruct (merge_spec x y) as (M1 & M2 & M3).
    unfold merge_box. cbn [combine map]. fold (merge_box a b).
    split; [cbn [length]; auto|]. split; [constructor; auto|]. split; [constructor; auto|].
    intros c Ha Hb. inversion Ha; subst. inversion Hb; subst. constructor; [apply M3; auto|apply I4; auto].
Qed.
Lemma sub_box_refl b : sub_box b b.
Proof. induction b; constructor; auto. split; apply Qle_refl. Qed.
Lemma sub_box_trans a b c : sub_box a b -> sub_box b c -> sub_box a c.
Proof.
  intros H. revert c. induction H as [|x y a b H _ IH]; intros c Hc; inversion Hc as [|y' z b' c' Hyz Hbc]; subst; constructor.
  - destruct H, Hyz. split; eapply Qle_trans; eauto.
  - apply IH; auto.
Qed.

Lemma hash_bb_spec dz D (obb : list box) : boxes F D obb ->
  length (hash_bb F dz D obb) = D /\ bounds F obb (hash_bb F dz D obb).
Proof.
  intros [Hne Hb]. destruct obb as [|b0 obb]; [congruence|]. unfold hash_bb.
  change (fun acc b => map (fun '(x, y) => dbl_range_merge F x y) (combine acc b)) with merge_box.
  assert (H0 : length b0 = D) by (apply Hb; left; auto).
  assert (Hr : forall b, In b obb -> length b = D) by (intros; apply Hb; right; auto). clear Hb Hne.
  assert (G : forall l acc, length acc = D -> (forall b, In b l -> length b = D) ->
    length (fold_left merge_box l acc) = D /\ sub_box acc (fold_left merge_box l acc) /\
    (forall b, In b l -> sub_box b (fold_left merge_box l acc)) /\
    forall c, sub_box acc c -> (forall b, In b l -> sub_box b c) -> sub_box (fold_left merge_box l acc) c).
  { induction l as [|b l IH]; intros acc La Hl; cbn [fold_left].
    - split; auto. split; [apply sub_box_refl|]. split; [intros b []|]. auto.
    - destruct (merge_box_spec D acc b La (Hl b (or_introl eq_refl))) as (M0 & M1 & M2 & M3).
      destruct (IH (merge_box acc b) M0 (fun x Hx => Hl x (or_intror Hx))) as (I0 & I1 & I2 & I3).
      split; auto. split; [eapply sub_box_trans; eauto|]. split.
      + intros b' [<-|Hb']; auto. eapply sub_box_trans; eauto.
      + intros c Hc Hlc. apply I3; [apply M3; auto; apply Hlc; left; auto|intros; apply Hlc; right; auto]. }
  destruct (G obb b0 H0 Hr) as (G0 & G1 & G2 & G3). split; auto. split.
  - intros b [<-|Hb]; auto.
  - intros c Hc. apply G3; [apply Hc; left; auto|intros; apply Hc; right; auto].
Qed.

Variable rnd : Q -> Q.
Hypothesis R : rounding rnd.
Notation pos := (pos F rnd).
Notation clear := (clear F rnd).
Notation cell_range := (cell_range F rnd).

Definition ranges_of (n : nat) (bd b : box) : list (nat * nat) :=
  map (fun rc => cell_range n (snd rc) (fst rc)) (combine b bd).
Definition digits (n : nat) (bd : box) (x : list dbl) : list nat :=
  map (fun xc => cell_of F rnd n (snd xc) (fst xc)) (combine x bd).

Lemma range_of_spec n c r : 1 <= n -> wide F rnd c -> (val (fst c) <= val (fst r))%Q ->
  (val (fst r) <= val (snd r))%Q -> (pos n c (fst r) < inject_Z (Z.of_nat n))%Q ->
  range_of F rnd n c r = cell_range n c r.
Proof.
  intros Hn Hw H1 H2 Hc. unfold range_of, FindptsSpec.cell_range.
  pose proof (pos_mono F rnd R n c _ _ Hw H2) as P1.
  assert (P0 : (0 <= pos n c (fst r))%Q) by (apply pos_nonneg; auto).
  assert (F0 : (0 <= Qfloor (pos n c (fst r)))%Z) by (rewrite <- (Qfloor_Z 0); apply Qfloor_resp_le; auto).
  pose proof (Qfloor_lt _ _ Hc).
  assert (B2 : (Qfloor (pos n c (fst r)) <= Qceiling (pos n c (snd r)))%Z).
  { rewrite Zle_Qle. pose proof (Qfloor_le (pos n c (fst r))). pose proof (Qle_ceiling (pos n c (snd r))). lra. }
  f_equal. destruct (Nat.eqb_spec (Nat.min n (Z.to_nat (Qceiling (pos n c (snd r))))) (Z.to_nat (Qfloor (pos n c (fst r))))); lia.
Qed.

Section W.
Variable w : nat.
Hypothesis w1 : 1 <= w.

Lemma ranges_ok n bd b : 1 <= n -> few w n -> sub_box b bd -> ordered b ->
  Forall2 (fun r c => wide F rnd c /\ (pos n c (fst r) < inject_Z (Z.of_nat n))%Q) b bd ->
  hash_ranges F rnd w n bd (hash_setfac F rnd bd n) b = Ok (ranges_of n bd b) /\
  Forall (fun ir => fst ir < snd ir <= n) (ranges_of n bd b).
Proof.
  intros Hn Hf Hs. revert Hn Hf. induction Hs as [|r c b bd Hrc _ IH]; intros Hn Hf Ho Hc.
  - split; constructor.
  - inversion Ho as [|? ? Ho1 Ho2]; subst. inversion Hc as [|? ? ? ? [Hw Hp] Hc2]; subst. destruct Hrc as [R1 R2].
    destruct (IH Hn Hf) as [E Hr]; auto.
    destruct (range_ok F rnd R w w1 n c r) as [E0 H0]; auto.
    rewrite range_of_spec in E0, H0 by auto.
    unfold hash_setfac in *. cbn [map hash_ranges]. rewrite E0. cbn [bind]. rewrite E. cbn [bind].
    split; [reflexivity|]. constructor; auto.
Qed.

Lemma index_ok n bd x : 1 <= n -> n ^ length bd <= 256 ^ w -> convertible F rnd w n bd x ->
  hash_index F rnd w n bd (hash_setfac F rnd bd n) x = Ok (cindex n (digits n bd x)) /\
  Forall (fun i => i < n) (digits n bd x) /\ length (digits n bd x) = length bd.
Proof.
  intros Hn Hl H. revert Hn Hl. induction H as [|x0 c x bd Hx _ IH]; intros Hn Hl.
  - repeat split; constructor.
  - destruct Hx as [Hw Hx]. cbn [length Nat.pow] in Hl.
    destruct IH as (I1 & I2 & I3); auto.
    { eapply Nat.le_trans; [|exact Hl]. rewrite <- (Nat.mul_1_l (n ^ length bd)) at 1. apply Nat.mul_le_mono_r; auto. }
    assert (Hc : cell_of F rnd n c x0 < n) by (unfold cell_of; lia).
    unfold hash_setfac in *. cbn [map hash_index]. rewrite I1. cbn [bind].
    rewrite aux_ok by auto. cbn [bind].
    assert (D1 : Forall (fun i => i < n) (digits n (c :: bd) (x0 :: x))) by (constructor; auto).
    assert (D2 : length (digits n (c :: bd) (x0 :: x)) = S (length bd)).
    { unfold digits in *. cbn [combine map length]. auto. }
    split; auto. f_equal. apply wrap_small. pose proof (cindex_lt n _ D1) as Hlt. rewrite D2 in Hlt.
    unfold digits in Hlt |- *. cbn [combine map fst snd cindex] in Hlt |- *. cbn [Nat.pow] in Hlt. lia.
Qed.

Lemma digits_in_ranges n bd b x : 1 <= n -> sub_box b bd -> in_box F x b ->
  Forall2 (fun r c => wide F rnd c /\ (pos n c (fst r) < inject_Z (Z.of_nat n))%Q) b bd ->
  below_top F rnd n bd b x ->
  Forall2 (fun i ir => fst ir <= i < snd ir) (digits n bd x) (ranges_of n bd b).
Proof.
  intros Hn Hs. revert x. induction Hs as [|r c b bd Hrc _ IH]; intros x Hx Hc Ht.
  - inversion Hx; subst. constructor.
  - inversion Hx as [|x0 r' x' b' Hx0 Hx']; subst. inversion Hc as [|? ? ? ? [Hw Hp] Hc2]; subst. inversion Ht as [|? ? ? ? Ht1 Ht2]; subst.
    destruct Hrc as [R1 R2].
    unfold digits, ranges_of. cbn [combine map fst snd]. constructor; [|apply IH; auto].
    rewrite <- range_of_spec; auto; [|lra]. apply (cell_in_range F rnd R 1 (le_n 1)); auto; tauto.
Qed.
End W.

(** *** The table *)
Variable usize : nat.
Hypothesis us1 : 1 <= usize.
Variable dzero : dbl.
Variable D : nat.
Hypothesis D2 : 2 <= D.
Variable obb : list box.
Hypothesis Hob : boxes F D obb.
Notation bd := (hash_bb F dzero D obb).
Hypothesis Hcl : forall b, In b obb -> clear bd b.
Variable nu max_size : nat.
Hypothesis Hfit : sizes_fit F rnd usize nu D bd obb.
Notation entries := (entries F rnd).

Lemma bd_length : length bd = D.
Proof. apply (hash_bb_spec dzero D obb Hob). Qed.
Lemma bd_sub b : In b obb -> sub_box b bd.
Proof. apply (hash_bb_spec dzero D obb Hob). Qed.

(** A number of cells that the code tries. *)
Definition tried (n : nat) : Prop := 1 <= n /\ n ^ D + 1 + entries n bd obb < 256 ^ usize.
Lemma tried_few n : tried n -> few usize n.
Proof. intros [H1 H2]. apply (few_of_pow usize us1 n D); auto. lia. Qed.

Lemma box_ranges n b : tried n -> In b obb ->
  hash_ranges F rnd usize n bd (hash_setfac F rnd bd n) b = Ok (ranges_of n bd b) /\
  Forall (fun ir => fst ir < snd ir <= n) (ranges_of n bd b) /\ length (ranges_of n bd b) = D.
Proof.
  intros Ht Hb. destruct (ranges_ok usize us1 n bd b) as [E H]; auto.
  - apply Ht.
  - apply tried_few; auto.
  - apply bd_sub; auto.
  - apply Hob; auto.
  - apply Hcl; auto. apply Ht.
  - repeat split; auto. unfold ranges_of. rewrite map_length, combine_length, bd_length.
    destruct Hob as [_ Hb']. destruct (Hb' b Hb). lia.
Qed.

Lemma covered_prod n b : covered F rnd n bd b = prod (widths (ranges_of n bd b)).
Proof. unfold covered, prod, widths, ranges_of. rewrite map_map. reflexivity. Qed.

Lemma cells_box n b : tried n -> In b obb ->
  cells usize n (ranges_of n bd b) = map (cindex n) (multi (ranges_of n bd b)) /\
  length (cells usize n (ranges_of n bd b)) = covered F rnd n bd b.
Proof.
  intros Ht Hb. destruct (box_ranges n b Ht Hb) as (_ & H & L).
  assert (E : cells usize n (ranges_of n bd b) = map (cindex n) (multi (ranges_of n bd b))).
  { apply cells_multi; auto; [|rewrite L; destruct Ht; lia]. eapply Forall_impl; [|exact H]. cbn; intros; lia. }
  split; auto. rewrite E, map_length, (multi_length usize us1), covered_prod. auto.
Qed.

Lemma count_ok n : tried n -> hash_count F rnd usize bd obb n = Ok (entries n bd obb).
Proof.
  intros Ht. unfold hash_count.
  assert (G : forall l a, incl l obb -> a + entries n bd l < 256 ^ usize ->
    foldM (fun count b => irs <- hash_ranges F rnd usize n bd (hash_setfac F rnd bd n) b ;;
      Ok (wrap usize (count + fold_left (fun ci ir => wrap usize (ci * usub usize (snd ir) (fst ir))) irs 1))) l a =
    Ok (a + entries n bd l)).
  { induction l as [|b l IH]; intros a Hi Hl; cbn [foldM].
    - f_equal. unfold FindptsSpec.entries. cbn. lia.
    - assert (Hb : In b obb) by (apply Hi; left; auto).
      destruct (box_ranges n b Ht Hb) as (E & H & L). rewrite E. cbn [bind].
      unfold FindptsSpec.entries in Hl. cbn [map fold_right] in Hl. fold (entries n bd l) in Hl.
      rewrite (count_fold usize us1 n) with (a := 1); auto.
      + rewrite Nat.mul_1_l, <- covered_prod, wrap_small by lia. rewrite IH.
        * f_equal. unfold FindptsSpec.entries. cbn [map fold_right]. lia.
        * intros x Hx. apply Hi. right; auto.
        * lia.
      + apply few_lt; auto. apply tried_few; auto.
      + rewrite L, Nat.mul_1_l. destruct Ht. lia. }
  apply (G obb 0); [apply incl_refl|]. destruct Ht. lia.
Qed.

Lemma tried_lt n : 1 <= n -> n < nu \/ n = 1 -> tried n.
Proof. intros H1 H2. split; auto. apply Hfit; auto. Qed.

Lemma entries_one : entries 1 bd obb = length obb.
Proof.
  assert (G : forall l, incl l obb -> entries 1 bd l = length l).
  { induction l as [|b l IH]; intros Hi; auto. unfold FindptsSpec.entries. cbn [map fold_right length]. fold (entries 1 bd l).
    rewrite IH by (intros x Hx; apply Hi; right; auto). rewrite covered_prod.
    destruct (box_ranges 1 b (tried_lt 1 (le_n 1) (or_intror eq_refl)) (Hi b (or_introl eq_refl))) as (_ & H & _).
    replace (prod (widths (ranges_of 1 bd b))) with 1; auto.
    induction H as [|ir irs Hir _ IHr]; cbn [widths map prod fold_right]; auto.
    unfold widths, prod in IHr. rewrite <- IHr. lia. }
  apply G, incl_refl.
Qed.

Definition good (nl size : nat) : Prop :=
  tried nl /\ size = nl ^ D + 1 + entries nl bd obb /\ (size <= max_size \/ nl = 1).

Lemma opt_loop_ok : forall fuel nl nu' size, nl <= nu' <= nu -> nu' - nl <= 2 ^ fuel -> good nl size ->
  exists nl' size', opt_loop F rnd usize fuel bd obb max_size nl nu' size = Ok (nl', size') /\ good nl' size'.
Proof.
  destruct Hfit as [Hnu _].
  induction fuel as [|fuel IH]; intros nl nu' size H1 H2 G; cbn [opt_loop];
    rewrite usub_ok by (auto; lia).
  - cbn in H2. destruct (Nat.leb_spec (nu' - nl) 1); [|lia]. exists nl, size. auto.
  - destruct (Nat.leb_spec (nu' - nl) 1) as [Hd|Hd]; [exists nl, size; auto|].
    assert (Hh : 1 <= (nu' - nl) / 2 < nu' - nl).
    { split; [apply Nat.div_le_lower_bound; lia|apply Nat.div_lt; lia]. }
    assert (Hh2 : (nu' - nl) / 2 <= 2 ^ fuel).
    { apply Nat.div_le_upper_bound; [lia|]. cbn [Nat.pow] in H2. lia. }
    assert (Hh3 : nu' - nl - (nu' - nl) / 2 <= 2 ^ fuel).
    { pose proof (Nat.div_mod (nu' - nl) 2 ltac:(lia)). pose proof (Nat.mod_upper_bound (nu' - nl) 2 ltac:(lia)). cbn [Nat.pow] in H2. lia. }
    rewrite wrap_small by lia. set (nm := nl + (nu' - nl) / 2) in *.
    assert (Ht : tried nm) by (apply tried_lt; lia).
    rewrite count_ok by auto. cbn [bind]. rewrite bd_length, power_ok by (try apply Ht; destruct Ht; lia).
    rewrite wrap_small by (apply Ht).
    destruct (Nat.leb_spec (nm ^ D + 1 + entries nm bd obb) max_size).
    + apply IH; [lia|lia|]. split; auto.
    + apply IH; auto; lia.
Qed.

Lemma opt_size_ok : exists nl size,
  hash_opt_size F rnd usize bd obb max_size nu = Ok (nl, size) /\ good nl size.
Proof.
  destruct Hfit as [Hnu Hn]. pose proof (tried_lt 1 (le_n 1) (or_intror eq_refl)) as Ht.
  assert (E1 : 1 ^ D + 1 + entries 1 bd obb = 2 + length obb) by (rewrite entries_one, Nat.pow_1_l; lia).
  apply opt_loop_ok; [lia| |].
  - replace (2 ^ (8 * usize)) with (256 ^ usize); [lia|]. change 256 with (2 ^ 8). rewrite <- Nat.pow_mul_r. auto.
  - destruct Ht as [Ht1 Ht2]. rewrite wrap_small by lia. repeat split; auto.
Qed.

Lemma filter_length_le {X} (f : X -> bool) l : length (filter f l) <= length l.
Proof. induction l as [|x l IH]; cbn [filter length]; auto. destruct (f x); cbn [length]; lia. Qed.

(** The pairs (element, cell). *)
Definition pairs (n : nat) : list (nat * nat) :=
  flat_map (fun '(e, b) => map (pair e) (cells usize n (ranges_of n bd b))) (combine (seq 0 (length obb)) obb).

Lemma foldM_flat {A B S} (f : S -> B -> res S) (g : A -> list B) l s :
  foldM f (flat_map g l) s = foldM (fun s a => foldM f (g a) s) l s.
Proof.
  revert s. induction l as [|a l IH]; intros s; cbn [flat_map foldM]; auto. rewrite foldM_app.
  destruct (foldM f (g a) s); cbn [bind]; auto.
Qed.
Lemma foldM_map {A B S} (f : S -> B -> res S) (g : A -> B) l s : foldM f (map g l) s = foldM (fun s a => f s (g a)) l s.
Proof. revert s. induction l as [|a l IH]; intros s; cbn [map foldM]; auto. destruct (f s (g a)); cbn [bind]; auto. Qed.
Lemma foldM_ext {A S} (f g : S -> A -> res S) l : (forall a s, In a l -> f s a = g s a) -> forall s, foldM f l s = foldM g l s.
Proof.
  induction l as [|a l IH]; intros H s; cbn [foldM]; auto. rewrite (H a s (or_introl eq_refl)).
  destruct (g s a); cbn [bind]; auto. apply IH. intros; apply H; right; auto.
Qed.

Lemma for_cells_pairs {S} n (body : nat -> nat -> S -> res S) s : tried n ->
  for_cells F rnd usize n bd (hash_setfac F rnd bd n) obb body s =
  foldM (fun s '(e, c) => body e c s) (pairs n) s.
Proof.
  intros Ht. unfold for_cells, pairs. rewrite foldM_flat. apply foldM_ext. intros [e b] s' Hin.
  apply in_combine_r in Hin. destruct (box_ranges n b Ht Hin) as (E & _). rewrite E. cbn [bind].
  rewrite foldM_map. reflexivity.
Qed.

Lemma pairs_cells n p : tried n -> In p (pairs n) -> snd p < n ^ D.
Proof.
  intros Ht Hp. unfold pairs in Hp. apply in_flat_map in Hp. destruct Hp as ([e b] & Hin & Hp).
  apply in_combine_r in Hin. apply in_map_iff in Hp. destruct Hp as (c & <- & Hc). cbn [snd].
  destruct (cells_box n b Ht Hin) as [E _]. rewrite E in Hc. apply in_map_iff in Hc. destruct Hc as (is & <- & Hi).
  destruct (box_ranges n b Ht Hin) as (_ & H & L). apply in_multi in Hi. rewrite <- L, <- (Forall2_len _ _ _ Hi).
  apply cindex_lt. clear - Hi H. induction Hi; constructor; inversion H; subst; auto; lia.
Qed.
Lemma pairs_length n : tried n -> length (pairs n) = entries n bd obb.
Proof.
  intros Ht. unfold pairs.
  assert (G : forall l s, incl l obb ->
    length (flat_map (fun '(e, b) => map (pair e) (cells usize n (ranges_of n bd b))) (combine (seq s (length l)) l)) = entries n bd l).
  { induction l as [|b l IH]; intros s Hi; auto. cbn [length seq combine flat_map]. rewrite app_length, map_length, IH by (intros x Hx; apply Hi; right; auto).
    destruct (cells_box n b Ht (Hi b (or_introl eq_refl))) as [_ ->]. reflexivity. }
  apply G, incl_refl.
Qed.

Lemma fold_max (f : nat -> nat) l : forall a, a <= fold_left (fun mx i => if mx <? f i then f i else mx) l a /\
  forall i, In i l -> f i <= fold_left (fun mx i => if mx <? f i then f i else mx) l a.
Proof.
  induction l as [|j l IH]; intros a; cbn [fold_left].
  - split; auto. intros i [].
  - destruct (IH (if a <? f j then f j else a)) as [I1 I2]. destruct (Nat.ltb_spec a (f j)).
    + split; [lia|]. intros i [<-|Hi]; auto.
    + split; [lia|]. intros i [<-|Hi]; auto. lia.
Qed.

Theorem build_ok : exists h size, hash_build F rnd usize dzero D obb max_size nu = Ok h /\
  good (hash_n F h) size /\ length (offset F h) = size /\ bnd F h = bd /\ fac F h = hash_setfac F rnd bd (hash_n F h) /\
  forall c, c < hash_n F h ^ D ->
    exists b e, nth_error (offset F h) c = Some b /\ nth_error (offset F h) (c + 1) = Some e /\
      e - b <= hash_max F h /\
      mapM (rd (offset F h)) (seq b (e - b)) = Ok (bucket (pairs (hash_n F h)) c).
Proof.
  destruct opt_size_ok as (hn & size & E & G). destruct G as (Ht & Es & Gs) eqn:EG. clear EG.
  assert (Hlen : length (pairs hn) = entries hn bd obb) by (apply pairs_length; auto).
  assert (Hp : power usize hn D = hn ^ D) by (apply power_ok; destruct Ht; auto; lia).
  set (m := hn ^ D) in *. destruct Ht as [Hn Htl] eqn:EHt. fold m in Htl.
  assert (Ht' : tried hn) by exact Ht. clear EHt.
  assert (Pc : forall p, In p (pairs hn) -> snd p < m) by (intros; apply pairs_cells; auto).
  assert (Hm : 1 <= m) by (apply Nat.neq_0_lt_0, Nat.pow_nonzero; lia).
  unfold hash_build. rewrite E. cbn [bind]. rewrite Hp.
  rewrite for_cells_pairs by auto.
  assert (Hcb : forall c, cnt (pairs hn) c <= length (pairs hn)) by (intros; apply filter_length_le).
  assert (E1 : repeat 0 m = map (fun _ => 0) (seq 0 m)).
  { clear. rewrite <- (seq_length m 0) at 1. induction (seq 0 m); cbn; f_equal; auto. }
  rewrite E1, (phase1 m usize us1 (pairs hn) (fun _ => 0)) by (auto; intros c _; specialize (Hcb c); lia).
  cbn [bind plus]. change (map (fun c => cnt (pairs hn) c) (seq 0 m)) with (map (cnt (pairs hn)) (seq 0 m)).
  rewrite (rd_ok _ 0 (cnt (pairs hn) 0)) by (rewrite nth_error_map, seq_nth_error by lia; auto). cbn [bind].
  rewrite wrap_small by lia. rewrite wr_ok by (rewrite repeat_length; lia). cbn [bind].
  assert (E2 : (upd (repeat 0 size) 0 (m + 1), m + 1, cnt (pairs hn) 0) =
               (map (start m (pairs hn)) (seq 0 1) ++ repeat 0 (size - 1), start m (pairs hn) 0, cnt (pairs hn) 0)).
  { replace size with (S (size - 1)) at 1 by lia. cbn [repeat upd seq map app]. unfold start, pre. cbn [seq map fold_right].
    rewrite Nat.add_0_r. reflexivity. }
  rewrite E2, (phase2 m usize us1 (pairs hn) Pc size) by (auto; lia). cbn [bind].
  set (mx := fold_left _ _ _). rewrite for_cells_pairs by auto.
  destruct (phase3 m usize us1 (pairs hn) Pc size ltac:(lia) ltac:(lia) (pairs hn) [] _ _ eq_refl
    (Build_filled m (pairs hn) size [] (pairs hn)
       (map (start m (pairs hn)) (seq 0 (m + 1)) ++ repeat 0 (size - (m + 1)))
       (map (cnt (pairs hn)) (seq 0 m)) ltac:(rewrite app_length, map_length, seq_length, repeat_length; lia)
       ltac:(intros c Hc; rewrite nth_error_app1 by (rewrite map_length, seq_length; lia);
             rewrite nth_error_map, seq_nth_error by lia; reflexivity)
       ltac:(intros c k v _ Hv; destruct k; discriminate) eq_refl)) as (offs & count & E3 & [F1 F2 F3 F4]).
  match type of E3 with foldM ?g _ _ = _ => rewrite (foldM_ext _ g) by (intros [? ?] [? ?] _; reflexivity) end.
  rewrite E3. cbn [bind].
  eexists. exists size. split; [reflexivity|]. cbn [hash_n offset bnd fac hash_max].
  split; [split; auto|]. split; auto. split; auto. split; auto.
  intros c Hc. exists (start m (pairs hn) c), (start m (pairs hn) (c + 1)).
  split; [apply F2; lia|]. split; [apply F2; lia|].
  replace (c + 1) with (S c) by lia. rewrite (start_S m usize us1 (pairs hn) size) by lia.
  replace (start m (pairs hn) c + cnt (pairs hn) c - start m (pairs hn) c) with (cnt (pairs hn) c) by lia.
  split. { apply (fold_max (cnt (pairs hn)) (seq 0 m)). apply in_seq. lia. }
  rewrite <- bucket_length.
  assert (Gm : forall l s, (forall k v, nth_error l k = Some v -> nth_error offs (s + k) = Some v) ->
    mapM (rd offs) (seq s (length l)) = Ok l).
  { induction l as [|v l IH]; intros s Hl; cbn [length seq mapM]; auto.
    rewrite (rd_ok offs s v) by (rewrite <- (Nat.add_0_r s); apply (Hl 0); auto). cbn [bind].
    rewrite IH; [reflexivity|]. intros k v' Hk. replace (S s + k) with (s + S k) by lia. apply Hl. auto. }
  apply Gm. intros k v Hv. apply F3; auto.
Qed.

(** The elements whose boxes cover the cell with the given digits. *)
Definition in_ranges (is : list nat) (irs : list (nat * nat)) : bool :=
  (length is =? length irs) && forallb (fun p => (fst (snd p) <=? fst p) && (fst p <? snd (snd p))) (combine is irs).
Lemma in_ranges_iff is : forall irs, in_ranges is irs = true <-> Forall2 (fun i ir => fst ir <= i < snd ir) is irs.
Proof.
  unfold in_ranges. induction is as [|i is IH]; intros [|ir irs]; cbn [length Nat.eqb combine forallb andb fst snd].
  - split; constructor.
  - split; [discriminate|intros H; inversion H].
  - split; [discriminate|intros H; inversion H].
  - specialize (IH irs). destruct (length is =? length irs) eqn:E; cbn [andb] in *.
    + rewrite !andb_true_iff, Nat.leb_le, Nat.ltb_lt, IH. split; [intros [H1 H2]; constructor; auto|].
      intros H; inversion H; subst; auto.
    + split; [discriminate|]. intros H. inversion H; subst. apply IH in H5. discriminate.
Qed.
Definition covers (n : nat) (is : list nat) (e : nat) : bool :=
  in_ranges is (ranges_of n bd (nth e obb [])).

Lemma bucket_elems n is : tried n -> length is = D -> Forall (fun i => i < n) is ->
  bucket (pairs n) (cindex n is) = filter (covers n is) (seq 0 (length obb)).
Proof.
  intros Ht Ld Hd. unfold bucket, pairs. rewrite filter_flat_map, map_flat_map.
  assert (G : forall l s, (forall k b, nth_error l k = Some b -> nth_error obb (s + k) = Some b) ->
    flat_map (fun a => map fst (filter (fun p => snd p =? cindex n is)
        (let '(e, b) := a in map (pair e) (cells usize n (ranges_of n bd b))))) (combine (seq s (length l)) l) =
    filter (covers n is) (seq s (length l))).
  { induction l as [|b l IH]; intros s Hs; auto.
    cbn [length seq combine flat_map filter]. rewrite IH by (intros k b' Hk; replace (S s + k) with (s + S k) by lia; apply Hs; auto).
    assert (Eb : nth_error obb s = Some b) by (rewrite <- (Nat.add_0_r s); apply (Hs 0); auto).
    assert (Hb : In b obb) by (eapply nth_error_In; eauto).
    assert (Ec : covers n is s = in_ranges is (ranges_of n bd b)) by (unfold covers; rewrite (nth_error_nth _ _ _ Eb); auto).
    rewrite Ec. rewrite filter_map, map_map. cbn [fst snd].
    destruct (cells_box n b Ht Hb) as [-> _]. destruct (box_ranges n b Ht Hb) as (_ & Hr & Lr).
    rewrite filter_map, map_map.
    assert (Ef : filter (fun x => cindex n x =? cindex n is) (multi (ranges_of n bd b)) =
                 if in_ranges is (ranges_of n bd b) then [is] else []).
    { assert (Hin : forall js, In js (multi (ranges_of n bd b)) -> cindex n js = cindex n is -> js = is).
      { intros js Hj Ej. apply in_multi in Hj. apply (cindex_inj n); auto.
        - clear - Hj Hr. induction Hj; constructor; inversion Hr; subst; auto; lia.
        - rewrite (Forall2_len _ _ _ Hj), Lr; auto. }
      pose proof (multi_NoDup (ranges_of n bd b)) as Nd.
      destruct (in_ranges is (ranges_of n bd b)) eqn:Er.
      - apply in_ranges_iff, in_multi in Er. revert Er Hin Nd. generalize (multi (ranges_of n bd b)).
        induction l0 as [|js l0 IHl]; intros Hi Hin Nd; [destruct Hi|]. apply NoDup_cons_iff in Nd. destruct Nd as [Nj Nd].
        cbn [filter]. destruct (Nat.eqb_spec (cindex n js) (cindex n is)) as [Ee|Ee].
        + rewrite (Hin js (or_introl eq_refl) Ee) in *. f_equal. apply filter_nil_all.
          intros ks Hk. apply Nat.eqb_neq. intros Ek. rewrite (Hin ks (or_intror Hk) Ek) in Hk. auto.
        + destruct Hi as [->|Hi]; [congruence|]. apply IHl; auto. intros ks Hk. apply Hin. right; auto.
      - apply filter_nil_all. intros js Hj. apply Nat.eqb_neq. intros Ej. rewrite (Hin js Hj Ej) in Hj.
        apply in_multi, in_ranges_iff in Hj. congruence. }
    rewrite Ef. destruct (in_ranges is (ranges_of n bd b)); reflexivity. }
  rewrite <- (G obb 0) at 1; auto.
Qed.
End P3.
