(** findpts: the merge of the results with one session. *)
From Verif Require Import Base BaseLemmas Sort SortSpec SortLemmas Net NetProof NetWords NetWordsProof
  Transfer TransferSpec TransferProof TransferProof2 TransferProof4 GsTop GsSpec GsSortProof GsTopProof3 GsSetupProof ListLemmas CrystalProof
  Findpts FindptsGlobal FindptsSpec
  FindptsProof1 FindptsProof2 FindptsProof3 FindptsProof5 FindptsGlobalProof1 FindptsGlobalProof2 FindptsGlobalProof4
  FindptsSearchProof1 FindptsSearchProof2 FindptsSearchProof3.
From Coq Require Import QArith Qround Lqa Sorting.Sorted.
Open Scope nat_scope.

Section Cands.
Variable F : doubles.
Notation dbl := (dbl F).
Notation result := (result F).
Variable rnd : Q -> Q.
Variable usize np : nat.
Variable dzero : dbl.
Variable D : nat.
Variable obb : nat -> list (box F).
Variable fd : nat -> findpts_data F.
Variable hn : nat.
Variable bd : box F.
Variable ms : bool.
Variable sessm : nat.
Variable n : nat -> nat.
Variable lb : nat -> box F.
Notation bt q e x := (box_test F (local F (fd q)) e x = true).
Notation sch q y := (searched F (local F (fd q)) sessm (psid F y)).
Notation local_res := (local_res F rnd obb fd sessm n lb).
Notation none := (none F dzero D).

(** The candidates of all processes. *)
Definition may (y : point F) (c : nat * nat) : Prop :=
  fst c < np /\ snd c < length (obb (fst c)) /\ sch (fst c) y /\ bt (fst c) (snd c) (px F y).
Definition must (y : point F) (c : nat * nat) : Prop := fst c < np /\ sch (fst c) y /\ bt (fst c) (snd c) (px F y) /\
  exists b, nth_error (obb (fst c)) (snd c) = Some b /\ in_box F (px F y) b /\
    below_top F rnd (n (fst c)) (lb (fst c)) b (px F y) /\ below_top F rnd hn bd b (px F y).
Definition sol (x : list dbl) (c : nat * nat) : found F := solve F (local F (fd (fst c))) (snd c) x.
Definition who (c : nat * nat) (o : result) : Prop := proc F o = fst c /\ el F o = snd c.

Lemma best_pair (is : nat -> result -> Prop) (is' : nat * nat -> result -> Prop) q x C o o' :
  best F nat (fun e => solve F (local F (fd q)) e x) is C o -> (forall e, is e o -> is' (q, e) o') ->
  code F o' = code F o -> r F o' = r F o -> dist2 F o' = dist2 F o ->
  best F (nat * nat) (sol x) is' (map (pair q) C) o'.
Proof.
  intros B Hi E1 E4 E5. destruct B as [[-> B]|(c & Ic & S & K & Er & Ed & M)]; [left; split; auto; congruence|].
  right. exists (q, c). split; [apply in_map; auto|]. unfold sol. cbn [fst snd]. rewrite E1, E4, E5.
  split; [auto|]. split; [auto|]. split; [auto|]. split; [auto|]. destruct M as [M|M]; [auto|]. right.
  intros c' Hc'. apply in_map_iff in Hc'. destruct Hc' as (e & <- & He). cbn [fst snd]. apply M. auto.
Qed.

(** What is known of process p after the search: the result o1 of the local search for point y, and the results l that came back. *)
Definition returned (p : nat) (y : point F) (o1 : result) (l : list result) : Prop :=
  (forall o, In o l -> goes_on F ms o1 = true /\ exists q o', q < np /\ q <> p /\ code F o' <> NOT_FOUND /\ local_res q y (none p) o' /\ o = snd (from_proc F usize q (0, o'))) /\
  (forall q e b, q < np -> q <> p -> goes_on F ms o1 = true -> must_loc F rnd obb fd sessm n lb q y e -> nth_error (obb q) e = Some b ->
     below_top F rnd hn bd b (px F y) ->
     exists o', In (snd (from_proc F usize q (0, o'))) l /\ code F o' <> NOT_FOUND /\ local_res q y (none p) o').

Hypothesis Hms : ms = false.
Lemma merged_answer p y o o1 l : p < np -> local_res p y o o1 -> returned p y o1 l ->
  answer F (may y) (must y) (sol (px F y)) who (set_proc F p (set_code F NOT_FOUND o)) (fold_left (merged F) l (set_proc F p o1)).
Proof.
  intros Hp (C & Ep & B & Bn & M & T) [Hl1 Hl2].
  destruct (Nat.eq_dec (code F o1) INTERNAL) as [Eint|Eint].
  { assert (El : l = []).
    { destruct l as [|o2 l]; auto. exfalso. destruct (Hl1 o2 (or_introl eq_refl)) as [Hg _]. unfold goes_on in Hg.
      rewrite Hms, Eint in Hg. discriminate. }
    rewrite El. cbn [fold_left]. destruct B as [[_ B]|(c & Ic & [Ec _] & K & Er & Ed & _)]; [rewrite B in Eint; discriminate|].
    right. exists (p, c). destruct (M c Ic) as (M1 & M2 & M3). unfold may, who, sol. cbn [fst snd set_proc proc el r dist2 code].
    split; [auto|]. split; [auto|]. split; [auto|]. split; [auto|]. split; [auto|]. intros c' _. left. auto. }
  assert (Hg : goes_on F ms o1 = true) by (unfold goes_on; rewrite Hms; cbn; apply negb_true_iff, Nat.eqb_neq; auto).
  destruct (merged_all F (nat * nat) (sol (px F y)) who) with (may := may y) (must := must y) (part := fun (o : result) (c : nat * nat) => fst c = proc F o) (l := l)
    (C := map (pair p) C) (o := set_proc F p o1) as (C' & B' & M' & I' & T' & E').
  - intros c a b Ea Eb [H2 H3]. split; congruence.
  - eapply best_pair; eauto. intros e [He _]. split; auto.
  - intros c Hc. apply in_map_iff in Hc. destruct Hc as (e & <- & He). unfold may. cbn [fst snd]. split; auto.
  - intros o2 H2. destruct (Hl1 o2 H2) as (_ & q & o' & Hq & Hne & Hc & (C2 & _ & B2 & _ & M2 & T2) & ->). unfold from_proc. cbn [fst snd proc].
    exists (map (pair q) C2). split.
    { destruct B2 as [[_ B2]|(c & Ic & _)]; [congruence|]. destruct C2; [destruct Ic|]. discriminate. }
    split; [eapply best_pair; eauto; intros e [He _]; split; auto|]. split.
    + intros c Hc'. apply in_map_iff in Hc'. destruct Hc' as (e & <- & He). unfold may. cbn [fst snd]. auto.
    + intros [q' e] [(Hq' & Hs & Hbt & b & Hb & Hin & Hb1 & Hb2) E]. cbn [fst snd] in *. subst q'. apply in_map. apply T2. split; [auto|]. split; [auto|]. exists b. auto.
  - eapply best_answer; eauto.
    + intros En. rewrite E' by auto. f_equal. apply Bn. destruct C as [|c C]; auto. exfalso. rewrite En in I'. apply (I' (p, c)). left. auto.
    + intros [q e] Hm. pose proof Hm as (Hq & Hs & Hbt & b & Hb & Hin & Hb1 & Hb2). cbn [fst snd] in *.
      assert (Hml : must_loc F rnd obb fd sessm n lb q y e) by (split; [auto|]; split; [auto|]; exists b; auto).
      destruct (Nat.eq_dec q p) as [->|Hne]; [apply I'; apply in_map; apply T; auto|].
      destruct (Hl2 q e b Hq Hne Hg Hml Hb Hb2) as (o' & Ho' & _).
      apply (T' (q, e) (snd (from_proc F usize q (0, o')))); auto.
Qed.
End Cands.

Section Returned.
Variable F : doubles.
Notation dbl := (dbl F).
Notation result := (result F).
Variable rnd : Q -> Q.
Variable usize np : nat.
Variable dzero : dbl.
Variable D : nat.
Variable obb : nat -> list (box F).
Variable fd : nat -> findpts_data F.
Variable hn : nat.
Variable bd : box F.
Variable ms : bool.
Variable sessm : nat.
Variable n : nat -> nat.
Variable lb : nat -> box F.
Notation local_res := (local_res F rnd obb fd sessm n lb).
Notation none := (none F dzero D).
Variable pts : nat -> list (point F).
Variable st1 : nat -> list result.
Variable arr : nat -> list (nat * result).
Hypothesis Ha1 : forall p i o, p < np -> In (i, o) (arr p) -> exists q o' y o1, q < np /\ q <> p /\ nth_error (pts p) i = Some y /\
     nth_error (st1 p) i = Some o1 /\ goes_on F ms o1 = true /\ code F o' <> NOT_FOUND /\ local_res q y (none p) o' /\ (i, o) = from_proc F usize q (i, o').
Hypothesis Ha2 : forall p i y o1 q e b, p < np -> q < np -> q <> p -> nth_error (pts p) i = Some y -> nth_error (st1 p) i = Some o1 ->
     goes_on F ms o1 = true -> must_loc F rnd obb fd sessm n lb q y e -> nth_error (obb q) e = Some b -> below_top F rnd hn bd b (px F y) ->
     exists o', In (from_proc F usize q (i, o')) (arr p) /\ code F o' <> NOT_FOUND /\ local_res q y (none p) o'.
Lemma arr_returned p i y o1 : p < np -> nth_error (pts p) i = Some y -> nth_error (st1 p) i = Some o1 ->
  returned F rnd usize np dzero D obb fd hn bd ms sessm n lb p y o1 (map snd (filter (fun x => fst x =? i) (arr p))).
Proof.
  intros Hp Hy Ho. split.
  - intros o2 H2. apply in_map_iff in H2. destruct H2 as ([j o3] & <- & H2). apply filter_In in H2. destruct H2 as [H2 E]. cbn [fst] in E. apply Nat.eqb_eq in E. subst j.
    destruct (Ha1 p i o3 Hp H2) as (q & o' & y' & o1' & Hq & Hne & Hy' & Ho' & Hg & Hc & Hl & E).
    rewrite Hy in Hy'. injection Hy' as <-. rewrite Ho in Ho'. injection Ho' as <-. split; [auto|]. exists q, o'.
    split; [auto|]. split; [auto|]. split; [auto|]. split; [auto|]. unfold from_proc in *. cbn [fst snd] in *. congruence.
  - intros q e b Hq Hne Hg Hm Hb Hbt. destruct (Ha2 p i y o1 q e b) as (o' & H1 & H2 & H3); auto. exists o'. split; [|auto].
    apply in_map_iff. exists (from_proc F usize q (i, o')). split; [reflexivity|]. apply filter_In. split; [auto|]. apply Nat.eqb_refl.
Qed.
Lemma arr_index p x : p < np -> length (st1 p) = length (pts p) -> In x (arr p) -> fst x < length (st1 p).
Proof.
  intros Hp L. destruct x as [i o]. intros H. destruct (Ha1 p i o Hp H) as (q & o' & y & o1 & _ & _ & _ & H1 & _). cbn [fst].
  eapply nth_error_Some_lt; eauto.
Qed.
End Returned.

Section Main.
Variable F : doubles.
Notation dbl := (dbl F).
Notation val := (val F).
Notation result := (result F).
Notation ds := (dsize F).
Variable rnd : Q -> Q.
Hypothesis R : rounding rnd.
Variable usize lsize INT_MAX np : nat.
Hypothesis us1 : 1 <= usize.
Hypothesis usls : usize <= lsize.
Hypothesis np1 : 1 <= np.
Hypothesis np_lim : np < 256 ^ usize.
Hypothesis max_lim : INT_MAX <= 256 ^ usize.
Variable dzero : dbl.
Variable D : nat.
Variable obb : nat -> list (box F).
Variable fd : nat -> findpts_data F.
Variable hn : nat.
Variable bd : box F.
Hypothesis bdl : length bd = D.
Hypothesis hn1 : 1 <= hn.
Hypothesis Hsz : hn ^ D < 256 ^ usize.
Hypothesis Hbox : forall q b, q < np -> In b (obb q) -> length b = D /\ sub_box F b bd /\
  Forall2 (fun r c => wide F rnd c /\ (pos F rnd hn c (fst r) < inject_Z (Z.of_nat hn))%Q) b bd.
Hypothesis Hh : forall r, r < np -> hash_n F (hash F (fd r)) = hn /\ bnd F (hash F (fd r)) = bd /\
  fac F (hash F (fd r)) = hash_setfac F rnd bd hn /\ lists_procs F rnd np hn bd obb r (offset F (hash F (fd r))).
Hypothesis Hims : forall q, q < np -> ims F (local F (fd q)) = false.
Hypothesis Hel : forall q, q < np -> length (obb q) < 256 ^ usize.
Hypothesis Hsol : forall q e x, q < np -> length (f_r F (solve F (local F (fd q)) e x)) = D.
Variable n : nat -> nat.
Variable lb : nat -> box F.
Hypothesis Hloc : forall q pts st, q < np -> length st = length pts ->
  (forall p, In p pts -> convertible F rnd usize (n q) (lb q) (px F p)) ->
  exists st', findptsms_local F rnd usize dzero (local F (fd q)) 0 pts st = Ok st' /\ length st' = length st /\
  forall i p o, nth_error pts i = Some p -> nth_error st i = Some o -> exists o', nth_error st' i = Some o' /\ local_res F rnd obb fd 0 n lb q p o o'.
Variable pts : nat -> list (list dbl).
Variable st : nat -> list result.
Hypothesis Hst : forall p, p < np -> length (st p) = length (pts p).
Hypothesis Hcv : forall p q x, p < np -> q < np -> In x (pts p) -> convertible F rnd usize (n q) (lb q) x.
Hypothesis Hcvg : forall p x, p < np -> In x (pts p) -> convertible F rnd lsize hn bd x.
Hypothesis Htot : total np pts * (words_for usize (D * ds + 2 * usize) + 3) * usize < INT_MAX.
Variable V : list (nat * nat * nat).
Hypothesis HV : forall p i q x bx c, p < np -> q < np -> p <> q -> nth_error (pts p) i = Some x -> In bx (obb q) ->
  cell_at F rnd hn bd x c -> cell_in_box F rnd hn bd bx c -> In (p, i, q) V.
Hypothesis HV1 : length V * (words_for usize (D * ds + 3 * usize) + 3) * usize < INT_MAX.
Hypothesis HV2 : length V * (words_for usize ((D + 2) * ds + 4 * usize) + 3) * usize < INT_MAX.
Notation pt p := (map (fun x => Pt F x 0) (pts p)).

Lemma total_map {X Y} m (g : X -> Y) T : total m (fun p => map g (T p)) = total m T.
Proof. rewrite !total_sum. f_equal. apply map_ext. intros p. apply map_length. Qed.

Theorem findpts_goes : exists st' : nat -> list result,
  (forall p, p < np -> length (st' p) = length (pts p) /\
     forall i x o, nth_error (pts p) i = Some x -> nth_error (st p) i = Some o ->
       exists o', nth_error (st' p) i = Some o' /\
         answer F (may F np obb fd 0 (Pt F x 0)) (must F rnd np obb fd hn bd 0 n lb (Pt F x 0)) (sol F fd x) (who F)
           (set_proc F p (set_code F NOT_FOUND o)) o') /\
  goes np (fun p => findpts F rnd usize lsize INT_MAX np p dzero D (fd p) (pts p) (st p))
    (fun p => Ret (st' p, FD F (local F (fd p)) (hash F (fd p)) None)).
Proof.
  destruct (stages_goes F rnd R usize lsize INT_MAX np us1 usls np1 np_lim max_lim dzero D obb fd hn bd bdl hn1 Hsz Hbox Hh false Hims 0 Hel Hsol n lb Hloc
    (fun p => pt p) st) with (V := V) as (st1 & arr & Hs1 & Ha1 & Ha2 & G); auto.
  - intros p Hp. rewrite map_length. auto.
  - intros p y Hp Hy. apply in_map_iff in Hy. destruct Hy as (x & <- & Hx). cbn [psid].
    assert (256 ^ 0 <= 256 ^ usize) by (apply Nat.pow_le_mono_r; lia). cbn in H. lia.
  - intros p q y Hp Hq Hy. apply in_map_iff in Hy. destruct Hy as (x & <- & Hx). cbn [px]. apply (Hcv p q x); auto.
  - intros p y Hp Hy. apply in_map_iff in Hy. destruct Hy as (x & <- & Hx). cbn [px]. eapply Hcvg; eauto.
  - rewrite total_map. auto.
  - intros p i q y bx c Hp Hq Hne Hy. rewrite nth_error_map in Hy. destruct (nth_error (pts p) i) as [x|] eqn:Ex; [|discriminate].
    injection Hy as <-. cbn [px]. eauto.
  - assert (Hm : exists st' : nat -> list result, forall p, p < np -> merge F (arr p) (map (set_proc F p) (st1 p)) = Ok (st' p) /\ length (st' p) = length (pts p) /\
      forall i x o, nth_error (pts p) i = Some x -> nth_error (st p) i = Some o ->
        exists o', nth_error (st' p) i = Some o' /\ answer F (may F np obb fd 0 (Pt F x 0)) (must F rnd np obb fd hn bd 0 n lb (Pt F x 0)) (sol F fd x) (who F)
           (set_proc F p (set_code F NOT_FOUND o)) o').
    { apply (finite_choice (fun p s => merge F (arr p) (map (set_proc F p) (st1 p)) = Ok s /\ length s = length (pts p) /\
      forall i x o, nth_error (pts p) i = Some x -> nth_error (st p) i = Some o ->
        exists o', nth_error s i = Some o' /\ answer F (may F np obb fd 0 (Pt F x 0)) (must F rnd np obb fd hn bd 0 n lb (Pt F x 0)) (sol F fd x) (who F)
           (set_proc F p (set_code F NOT_FOUND o)) o') [] np).
      intros p Hp. destruct (Hs1 p Hp) as [L1 H1].
      destruct (merge_ok F (arr p) (map (set_proc F p) (st1 p))) as (s & Es & Ls & Ns).
      { intros x Hx. rewrite map_length. exact (arr_index F rnd usize np dzero D obb fd false 0 n lb (fun p => pt p) st1 arr Ha1 p x Hp L1 Hx). }
      exists s. split; [auto|]. split; [rewrite Ls, map_length, L1, map_length; auto|].
      intros i x o Hx Ho. assert (Hy : nth_error (pt p) i = Some (Pt F x 0)) by (apply (map_nth_error (fun x => Pt F x 0)); auto).
      destruct (H1 i _ o Hy Ho) as (o1 & Ho1 & Hl). rewrite Ns, nth_error_map, Ho1. cbn [option_map]. eexists. split; [reflexivity|].
      apply (merged_answer F rnd usize np dzero D obb fd hn bd false 0 n lb eq_refl p (Pt F x 0) o o1); auto.
      exact (arr_returned F rnd usize np dzero D obb fd hn bd false 0 n lb (fun p => pt p) st1 arr Ha1 Ha2 p i (Pt F x 0) o1 Hp Hy Ho1). }
    destruct Hm as (st' & Hm). exists st'. split; [intros p Hp; apply Hm; auto|].
    eapply goes_trans.
    { apply (goes_ext np _ (fun p => pbind (findpts_search F rnd usize lsize INT_MAX np p dzero D (fd p) 0 (pt p) (st p))
        (fun '(st, out) => pbind (plift (merge F out st)) (fun st => Ret (st, FD F (local F (fd p)) (hash F (fd p)) None))))).
      intros p Hp. unfold findpts. rewrite Hims by auto. reflexivity. }
    eapply goes_trans.
    { apply (goes_bind np (fun p '(st, out) => pbind (plift (merge F out st)) (fun st => Ret (st, FD F (local F (fd p)) (hash F (fd p)) None))) _ _ G). }
    apply goes_ext. intros p Hp. cbn [pbind]. rewrite (proj1 (Hm p Hp)). reflexivity.
Qed.
End Main.
