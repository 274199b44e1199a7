(** findptsms with several sessions. *)
From Verif Require Import Base BaseLemmas Sort SortSpec SortLemmas Net NetProof NetWords NetWordsProof
  Transfer TransferSpec TransferProof TransferProof2 TransferProof4 GsTop GsSpec GsSortProof GsTopProof3 GsSetupProof GsCrProof2 ListLemmas CrystalProof
  Findpts FindptsGlobal FindptsMs FindptsSpec FindptsUserSpec FindptsMsSpec
  FindptsProof1 FindptsProof2 FindptsProof3 FindptsProof5 FindptsGlobalProof1 FindptsGlobalProof2 FindptsGlobalProof4
  FindptsSearchProof1 FindptsSearchProof2 FindptsSearchProof3 FindptsSearchProof4 FindptsMsProof1 FindptsMsProof2.
From Coq Require Import QArith Qround Lqa Sorting.Sorted.
Open Scope nat_scope.

Lemma SS_filter {X} (R : X -> X -> Prop) f l : StronglySorted R l -> StronglySorted R (filter f l).
Proof.
  induction 1 as [|a l Hs IH Hf]; cbn; [constructor|]. destruct (f a); [|auto]. constructor; [auto|].
  rewrite Forall_forall in *. intros x Hx. apply filter_In in Hx. apply Hf, Hx.
Qed.
Lemma SS_map_in {X Y} (g : X -> Y) (R : X -> X -> Prop) (R' : Y -> Y -> Prop) l : StronglySorted R l ->
  (forall x y, In x l -> In y l -> R x y -> R' (g x) (g y)) -> StronglySorted R' (map g l).
Proof.
  induction 1 as [|a l Hs IH Hf]; cbn; intros H; constructor.
  - apply IH. intros x y Hx Hy. apply H; auto.
  - rewrite Forall_forall in *. intros y Hy. apply in_map_iff in Hy. destruct Hy as (x & <- & Hx). apply H; auto.
Qed.

(** The merge. *)
Lemma merge_ms_ok (F : doubles) usize lsize dzero D (out : list (nat * result F)) st :
  (forall x, In x out -> fst x < length st /\ fst x < 256 ^ usize /\ elsid F (snd x) < 256 ^ usize) ->
  exists out' st', Permutation out out' /\ merge_ms F usize lsize dzero D out st = Ok st' /\ length st' = length st /\
    (forall i, StronglySorted (fun a b => elsid F a <= elsid F b) (map snd (filter (fun x => fst x =? i) out'))) /\
    forall i o, nth_error st i = Some o -> exists o', nth_error st' i = Some o' /\ final F i o (map snd (filter (fun x => fst x =? i) out')) o'.
Proof.
  intros H. destruct (sort_by_2' usize lsize (KU fst) (KU (fun x => elsid F (snd x))) out) as (B & N & E & HN & [P So _]).
  { intros x Hx. apply H. auto. }
  { intros x Hx. apply H. auto. }
  cbn [key_fun] in *. apply sorted_by_SS in So. cbv beta in So.
  assert (HB : forall x, In x B -> In x out) by (intros x Hx; apply (Permutation_in _ (Permutation_sym P)); auto).
  assert (S1 : StronglySorted (fun a b : nat * result F => fst a <= fst b) B).
  { rewrite <- (map_id B). eapply SS_map_in; [exact So|]. cbv beta. intros x y Hx Hy Hle. apply HB, HN in Hx. apply HB, HN in Hy. cbv beta in *.
    apply Nat.nlt_ge. intros Hlt. assert (fst y * N + N <= fst x * N) by nia. lia. }
  destruct (loop_ok F (length B) true B (MS F 0 0 false false (Res F 0 0 0 (repeat dzero D) dzero dzero 0) (Res F 0 0 0 (repeat dzero D) dzero dzero 0)) st (le_n _) S1) as (st' & E' & L & Hn).
  { intros x Hx. apply H. auto. }
  { left; auto. }
  exists B, st'. split; [auto|]. split; [unfold merge_ms; rewrite E; exact E'|]. split; [auto|]. split; [|exact Hn].
  intros i. eapply SS_map_in; [apply SS_filter; exact So|]. cbv beta. intros x y Hx Hy Hle. apply filter_In in Hx, Hy.
  destruct Hx as [_ Hx]. destruct Hy as [_ Hy]. apply Nat.eqb_eq in Hx, Hy. rewrite Hx, Hy in Hle. lia.
Qed.

Section Point.
Variable F : doubles.
Notation dbl := (dbl F).
Notation result := (result F).
Notation val := (val F).
Variable rnd : Q -> Q.
Variable usize np : nat.
Variable dzero : dbl.
Variable D : nat.
Variable obb : nat -> list (box F).
Variable fd : nat -> findpts_data F.
Variable hn : nat.
Variable bd : box F.
Variable sid : nat -> nat.
Variable sessm : nat.
Variable n : nat -> nat.
Variable lb : nat -> box F.
Hypothesis Hims : forall q, q < np -> ims F (local F (fd q)) = true /\ nsid F (local F (fd q)) = sid q.
Hypothesis Hsid : forall q, q < np -> sid q < 256 ^ usize.
Notation local_res := (local_res F rnd obb fd sessm n lb).
Notation none := (none F dzero D).
Notation may := (may F np obb fd sessm).
Notation must := (must F rnd np obb fd hn bd sessm n lb).
Notation sol := (sol F fd).

Definition is_ms (x : list dbl) (c : nat * nat) (o : result) : Prop :=
  who F c o /\ disti F o = f_disti F (sol x c) /\ elsid F o = sid (fst c).

Lemma group_best y G c g : (forall g, In g G -> good F (nat * nat) (sol (px F y)) (is_ms (px F y)) (fun c => sid (fst c)) g) ->
  NoDup (map (g_s F (nat * nat)) G) -> (forall c, must y c -> covers F (nat * nat) G c) ->
  In g G -> sid (fst c) = g_s F (nat * nat) g ->
  (f_internal F (sol (px F y) c) = true \/ forall c', In c' (g_C F (nat * nat) g) -> f_internal F (sol (px F y) c') = false /\ (val (f_dist2 F (sol (px F y) c)) <= val (f_dist2 F (sol (px F y) c')))%Q) ->
  session_best F sid (must y) (sol (px F y)) c.
Proof.
  intros Hg Hn Hc Ig Es M c' Hm Ec. destruct (Hc c' Hm) as (g' & Ig' & Ic'). destruct (Hg g' Ig') as (_ & _ & S').
  assert (Eg : g' = g).
  { specialize (S' c' Ic'). cbv beta in S'. assert (E2 : g_s F (nat * nat) g' = g_s F (nat * nat) g) by congruence.
    clear - Hn Ig Ig' E2. induction G as [|a G IH]; [destruct Ig|]. cbn in Hn. inversion Hn as [|? ? Hni Hnd]; subst.
    destruct Ig as [->|Ig], Ig' as [->|Ig']; auto.
    - exfalso. apply Hni. rewrite <- E2. apply in_map. auto.
    - exfalso. apply Hni. rewrite E2. apply in_map. auto. }
  subst g'. destruct M as [M|M]; [left; auto|right; apply M; auto].
Qed.

Lemma ms_answer p i y o o1 l o' : p < np -> local_res p y o o1 ->
  returned F rnd usize np dzero D obb fd hn bd true sessm n lb p y o1 l ->
  StronglySorted (fun a b => elsid F a <= elsid F b) l ->
  final F i (set_proc F p o1) l o' ->
  answer_ms F sid (may y) (must y) (sol (px F y)) (set_proc F p (set_code F NOT_FOUND o)) o'.
Proof.
  intros Hp (C & Ep & B & Bn & M & T) [Hl1 Hl2] Hs Hf. assert (Hg : goes_on F true o1 = true) by reflexivity.
  assert (HB : forall q C2 ob o2, q < np -> best F nat (fun e => solve F (local F (fd q)) e (px F y)) (is_el F (local F (fd q)) y) C2 ob ->
    o2 = Res F (code F ob) q (el F ob) (r F ob) (dist2 F ob) (disti F ob) (elsid F o2) -> (code F ob <> NOT_FOUND -> elsid F o2 = elsid F ob) ->
    best F (nat * nat) (sol (px F y)) (is_ms (px F y)) (map (pair q) C2) o2 /\ (C2 <> [] -> elsid F o2 = sid q)).
  { intros q C2 ob o2 Hq Hb E2 E3. destruct (Hims q Hq) as [Hi1 Hi2].
    assert (Ee : C2 <> [] -> elsid F o2 = sid q).
    { intros N. destruct Hb as [[Hb _]|(c & _ & [_ K] & Hc & _)]; [congruence|]. destruct (K Hi1) as [_ K2].
      rewrite E3; [congruence|]. rewrite Hc. destruct (f_internal F _); discriminate. }
    split; [|exact Ee].
    destruct Hb as [[-> Hb]|(c & Ic & [K0 K] & Hc & Er & Ed & Mx)]; [left; split; [reflexivity|rewrite E2; exact Hb]|].
    destruct (K Hi1) as [K1 K2]. assert (N : C2 <> []) by (destruct C2; [destruct Ic|discriminate]).
    right. exists (q, c). split; [apply in_map; auto|]. unfold is_ms, who, FindptsSearchProof4.sol. cbn [fst snd].
    split; [rewrite E2 at 1 2 3; cbn [proc el disti]; auto|]. split; [rewrite E2; cbn [code]; exact Hc|].
    split; [rewrite E2; cbn [r]; exact Er|]. split; [rewrite E2; cbn [dist2]; exact Ed|].
    destruct Mx as [Mx|Mx]; [left; rewrite E2; exact Mx|]. right. intros c' Hc'. apply in_map_iff in Hc'. destruct Hc' as (e & <- & He). cbn [fst snd].
    rewrite E2. cbn [dist2]. apply Mx. auto. }
  assert (Hmay : forall q C2 c, q < np -> (forall e, In e C2 -> e < length (obb q) /\ searched F (local F (fd q)) sessm (psid F y) /\ box_test F (local F (fd q)) e (px F y) = true) ->
    In c (map (pair q) C2) -> may y c /\ fst c = q).
  { intros q C2 c Hq H2 Hc. apply in_map_iff in Hc. destruct Hc as (e & <- & He). unfold FindptsSearchProof4.may. cbn [fst snd]. split; [split; auto|auto]. }
  destruct (HB p C o1 (set_proc F p o1) Hp B) as [Bp Sp]; [reflexivity|auto|].
  destruct (final_outcome F (nat * nat) (sol (px F y)) (is_ms (px F y)) (fun c => sid (fst c))) with
    (may := may y) (must := must y) (part := fun (o : result) (c : nat * nat) => fst c = proc F o) (o := set_proc F p o1) (C0 := map (pair p) C) (i := i) (l := l) (o' := o')
    as [(E0 & El & Eo)|(G & G1 & G2 & G3 & G4 & G5)]; auto.
  - intros c oo (_ & K1 & K2). auto.
  - intros c Hc. destruct (Hmay p C c Hp M Hc) as [H1 H2]. split; [auto|]. rewrite H2. symmetry. apply Sp. destruct C; [destruct Hc|discriminate].
  - intros opt Ho. destruct (Hl1 opt Ho) as (_ & q & ob & Hq & Hne & Hc & (C2 & _ & B2 & _ & M2 & T2) & E2).
    assert (N2 : C2 <> []) by (destruct B2 as [[_ B2]|(c & Ic & _)]; [congruence|destruct C2; [destruct Ic|discriminate]]).
    destruct (HB q C2 ob opt Hq B2) as [Bq Sq].
    { rewrite E2. reflexivity. }
    { intros _. rewrite E2. unfold from_proc. cbn [snd elsid]. apply dec_enc.
      destruct B2 as [[_ B2]|(c & _ & [_ K] & _)]; [congruence|]. destruct (Hims q Hq) as [Hi1 Hi2]. destruct (K Hi1) as [_ ->]. rewrite Hi2. auto. }
    exists (map (pair q) C2). split; [destruct C2; [congruence|discriminate]|]. split; [exact Bq|]. split.
    + intros c Hc'. destruct (Hmay q C2 c Hq M2 Hc') as [H1 H2]. split; [auto|]. rewrite H2. symmetry. auto.
    + intros [q' e] (Hq' & Hsc & Hbt & b & Hb & Hin & Hb1 & Hb2) E. rewrite E2 in E. unfold from_proc in E. cbn [fst snd proc] in *. subst q'. apply in_map. apply T2. split; [auto|]. split; [auto|]. exists b. auto.
  - left. assert (EC : C = []) by (destruct C; [auto|discriminate]). rewrite Eo, (Bn EC). split; [reflexivity|]. split; [reflexivity|].
    intros [q e] (Hq & Hsc & Hbt & b & Hb & Hin & Hb1 & Hb2). cbn [fst snd] in *.
    assert (Hml : must_loc F rnd obb fd sessm n lb q y e) by (split; [auto|]; split; [auto|]; exists b; auto).
    destruct (Nat.eq_dec q p) as [->|Hne]; [apply T in Hml; rewrite EC in Hml; destruct Hml|].
    destruct (Hl2 q e b Hq Hne Hg Hml Hb Hb2) as (ob & Ho' & _). rewrite El in Ho'. destruct Ho'.
  - right.
    assert (Hcov : forall c, must y c -> covers F (nat * nat) G c).
    { intros [q e] Hm. pose proof Hm as (Hq & Hsc & Hbt & b & Hb & Hin & Hb1 & Hb2). cbn [fst snd] in *.
      assert (Hml : must_loc F rnd obb fd sessm n lb q y e) by (split; [auto|]; split; [auto|]; exists b; auto).
      destruct (Nat.eq_dec q p) as [->|Hne]; [apply G4; left; apply in_map; apply T; auto|].
      destruct (Hl2 q e b Hq Hne Hg Hml Hb Hb2) as (ob & Ho' & _). apply (G5 _ (q, e) Ho' Hm). reflexivity. }
    assert (Hw : forall g, In g G -> exists w, may y w /\ sid (fst w) = g_s F (nat * nat) g /\ is_ms (px F y) w (g_w F (nat * nat) g) /\
      code F (g_w F (nat * nat) g) = (if f_internal F (sol (px F y) w) then INTERNAL else BORDER) /\
      r F (g_w F (nat * nat) g) = f_r F (sol (px F y) w) /\ dist2 F (g_w F (nat * nat) g) = f_dist2 F (sol (px F y) w) /\
      session_best F sid (must y) (sol (px F y)) w).
    { intros g Ig. destruct (G1 g Ig) as [(Bg & Ng & Sg) Mg]. destruct Bg as [[Bg _]|(c & Ic & I1 & I2 & I3 & I4 & I5)]; [congruence|].
      exists c. split; [auto|]. split; [apply Sg; auto|]. split; [auto|]. split; [auto|]. split; [auto|]. split; [auto|].
      apply (group_best y G c g); [intros; apply G1; auto|auto|auto|auto|apply Sg; auto|].
      destruct I5 as [I5|I5].
      - left. rewrite I2 in I5. destruct (f_internal F (sol (px F y) c)); [auto|discriminate].
      - right. intros c' Hc'. rewrite <- I4. apply I5. auto. }
    destruct G3 as (g & Ig & Eg & Tg). destruct (Hw g Ig) as (w & W1 & W2 & (W3 & W3' & _) & W4 & W5 & W6 & W7). exists w.
    rewrite Eg. split; [auto|]. split; [exact W3|]. split; [auto|]. split; [auto|]. split; [auto|]. split; [auto|].
    intros c' Hc'. destruct (Hcov c' Hc') as (g' & Ig' & Ic'). destruct (Hw g' Ig') as (w' & V1 & V2 & (V3 & V3' & _) & _ & _ & _ & V7).
    exists w'. split; [auto|]. split; [rewrite V2; symmetry; apply (G1 g' Ig'); auto|]. split; [auto|].
    rewrite <- W3', <- V3', <- Eg. apply Tg. auto.
Qed.
End Point.
