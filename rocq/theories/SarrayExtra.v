(** Further consequences of the sorting lemmas, in the form stated in Properties_Sort.v. *)
From Verif Require Import Base BaseLemmas Sort SortSpec SortLemmas SortMergeProof SortRadixProof SortProof
  Sarray SarraySpec SarrayProof.
From Coq Require Import ZifyBool ZifyNat ZifyN String Sorted.
Ltac Zify.zify_post_hook ::= idtac.
Local Open Scope list_scope.

Lemma sortv_sorted D us out A work :
  List.length out = List.length A -> List.length work = List.length A ->
  (forall v, In v A -> (v < 2 ^ (8 * N.of_nat D))%N) ->
  exists r, sortv D false us out A work = Ok r /\ Permutation A r /\ sorted_by N.ltb r.
Proof.
  intros Ho Hw Hv. destruct (sortv_ok D out A work Ho Hw Hv us) as (r & R & [P S _]). eauto.
Qed.

Lemma sorted_tail {D} (lt : D -> D -> bool) a l : sorted_by lt (a :: l) -> sorted_by lt l.
Proof. intros Hs i j x y H1 H2 H3. apply (Hs (S i) (S j) x y); auto. lia. Qed.

Lemma sorted_N_head a l x : sorted_by N.ltb (a :: l) -> In x l -> (a <= x)%N.
Proof.
  intros S Hx. apply In_nth_error in Hx as [i Hi].
  specialize (S 0 (Datatypes.S i) a x ltac:(lia) eq_refl Hi). lia.
Qed.

Lemma sorted_N_unique A r1 r2 :
  Permutation A r1 -> sorted_by N.ltb r1 -> Permutation A r2 -> sorted_by N.ltb r2 -> r1 = r2.
Proof.
  intros P1 S1 P2 S2. assert (P : Permutation r1 r2) by (etransitivity; [symmetry|]; eauto).
  clear A P1 P2. revert r2 P S2; induction r1 as [|a r1 IH]; intros r2 P S2.
  - apply Permutation_nil in P; auto.
  - destruct r2 as [|b r2]; [apply Permutation_sym, Permutation_nil in P; discriminate|].
    assert (a = b).
    { assert (Ha : In a (b :: r2)) by (eapply Permutation_in; [exact P|left; auto]).
      assert (Hb : In b (a :: r1)) by (eapply Permutation_in; [symmetry; exact P|left; auto]).
      destruct Ha as [->|Ha]; auto. destruct Hb as [->|Hb]; auto.
      pose proof (sorted_N_head _ _ _ S1 Hb). pose proof (sorted_N_head _ _ _ S2 Ha). lia. }
    subst b. f_equal. apply IH; eauto using sorted_tail. eapply Permutation_cons_inv; eauto.
Qed.

(** A stable sort of an ascending list of indices orders equal keys by index. *)
Lemma stable_seq_explicit {T} (ltb : T -> T -> bool) (A : list T) p :
  strict_weak ltb -> stably_sorts (index_lt ltb A) (seq 0 (List.length A)) p ->
  forall a b pa pb ka kb, a < b -> nth_error p a = Some pa -> nth_error p b = Some pb ->
    nth_error A pa = Some ka -> nth_error A pb = Some kb ->
    ltb kb ka = false /\ (equivb ltb ka kb = true -> pa < pb).
Proof.
  intros SW [P Ss F] a b pa pb ka kb Hab Ha Hb HA HB.
  assert (E : forall x y kx ky, nth_error A x = Some kx -> nth_error A y = Some ky ->
            index_lt ltb A x y = ltb kx ky) by (intros; unfold index_lt; rewrite H, H0; auto).
  split.
  - specialize (Ss a b pa pb Hab Ha Hb). rewrite (E _ _ _ _ HB HA) in Ss. auto.
  - intros Heq.
    assert (Hin : In pa (seq 0 (List.length A))).
    { apply in_seq. apply nth_error_Some_lt in HA. lia. }
    specialize (F pa Hin).
    (* the filtered output is an ascending list containing pa before pb *)
    assert (Srt : forall l, StronglySorted Nat.lt l -> forall f, StronglySorted Nat.lt (filter f l)).
    { intros l Hl f. induction Hl as [|x l Hl IHl Hx]; simpl; [constructor|].
      destruct (f x); auto. constructor; auto. apply Forall_forall. intros y Hy.
      apply filter_In in Hy as [Hy _]. rewrite Forall_forall in Hx. auto. }
    assert (Sq : forall n s, StronglySorted Nat.lt (seq s n)).
    { induction n as [|n IHn]; intros s; simpl; constructor; auto. apply Forall_forall.
      intros y Hy. apply in_seq in Hy. unfold Nat.lt. lia. }
    pose proof (Srt _ (Sq (List.length A) 0) (equivb (index_lt ltb A) pa)) as HS. rewrite <- F in HS.
    apply nth_error_split in Ha as (l1 & l2 & -> & La).
    rewrite nth_error_app2 in Hb by lia. replace (b - List.length l1) with (S (b - List.length l1 - 1)) in Hb by lia.
    simpl in Hb. apply nth_error_In in Hb.
    rewrite filter_app in HS. simpl in HS.
    assert (Ea : equivb (index_lt ltb A) pa pa = true).
    { unfold equivb. rewrite (E _ _ _ _ HA HA), (sw_irrefl _ SW). auto. }
    rewrite Ea in HS. clear - HS Hb Heq E HA HB.
    induction (filter (equivb (index_lt ltb A) pa) l1) as [|x l IH]; simpl in HS.
    + inversion HS as [|? ? _ Hf]; subst. rewrite Forall_forall in Hf. apply Hf. apply filter_In. split; auto.
      unfold equivb. rewrite (E _ _ _ _ HA HB), (E _ _ _ _ HB HA). exact Heq.
    + inversion HS; auto.
Qed.

Lemma sortp_explicit D perm A wlo whi w :
  List.length perm = List.length A -> List.length wlo = List.length A -> List.length whi = List.length A ->
  List.length w = List.length A ->
  (forall v, In v A -> (v < 2 ^ (8 * N.of_nat D))%N) ->
  exists p, sortp D false perm A wlo whi w = Ok p /\ is_perm (List.length A) p /\
    forall a b pa pb ka kb, a < b -> nth_error p a = Some pa -> nth_error p b = Some pb ->
      nth_error A pa = Some ka -> nth_error A pb = Some kb ->
      (ka <= kb)%N /\ (ka = kb -> pa < pb).
Proof.
  intros H1 H2 H3 H4 Hv.
  destruct (sortp_ok D false perm A wlo whi w) as (p & R & St); auto; [discriminate|].
  exists p. split; auto. split; [destruct St; auto|].
  intros a b pa pb ka kb Hab Ha Hb HA HB.
  destruct (stable_seq_explicit N.ltb A p N_ltb_sw St a b pa pb ka kb) as [G1 G2]; auto.
  split; [lia|]. intros ->. apply G2. unfold equivb. rewrite N.ltb_irrefl. auto.
Qed.

Lemma sortp_start_ok D perm A wlo whi w :
  List.length wlo = List.length A -> List.length whi = List.length A -> List.length w = List.length A ->
  (forall v, In v A -> (v < 2 ^ (8 * N.of_nat D))%N) ->
  is_perm (List.length A) perm ->
  exists p, sortp D true perm A wlo whi w = Ok p /\ stably_sorts (index_lt N.ltb A) perm p.
Proof.
  intros H1 H2 H3 Hv P. apply (sortp_ok D true perm A wlo whi w); auto.
  apply is_perm_length; auto.
Qed.

Lemma last_bad (mi ml : nat) k : ~ (1 <= k <= Z.of_nat (mi + ml))%Z ->
  forall keys2 keys1, exists k' l1 l2, keys1 ++ k :: keys2 = l1 ++ k' :: l2 /\
    ~ (1 <= k' <= Z.of_nat (mi + ml))%Z /\ keys_ok mi ml l2.
Proof.
  intros Hk. induction keys2 as [|x keys2 IH] using rev_ind; intros keys1.
  - exists k, keys1, []. split; auto. split; auto. intros y [].
  - destruct (IH keys1) as (k' & l1 & l2 & E & B & G).
    destruct (Z.leb_spec 1 x) as [Hx1|Hx1]; [destruct (Z.leb_spec x (Z.of_nat (mi + ml))) as [Hx2|Hx2]|].
    + exists k', l1, (l2 ++ [x]). split; [|split; auto].
      * rewrite (app_assoc keys1 (k :: keys2) [x] : keys1 ++ k :: keys2 ++ [x] = _), E, <- app_assoc. auto.
      * intros y Hy. apply in_app_or in Hy as [Hy|[<-|[]]]; auto.
    + exists x, (keys1 ++ k :: keys2), []. split; [|split; [lia|intros y []]].
      rewrite <- app_assoc. auto.
    + exists x, (keys1 ++ k :: keys2), []. split; [|split; [lia|intros y []]].
      rewrite <- app_assoc. auto.
Qed.

Lemma tuple_sort_any_bad_key {R} (DI DL mi ml md : nat)
  (Ai Al : list (list N)) (Ad : list (list R)) keys1 k keys2 perm0 wlo whi w n :
  List.length Ai = n -> List.length Al = n -> List.length perm0 = n ->
  List.length wlo = n -> List.length whi = n -> List.length w = n ->
  (forall c v, In c Ai -> In v c -> (v < 2 ^ (8 * N.of_nat DI))%N) ->
  (forall c v, In c Al -> In v c -> (v < 2 ^ (8 * N.of_nat DL))%N) ->
  ~ (1 <= k <= Z.of_nat (mi + ml))%Z ->
  tuple_sort DI DL mi ml md Ai Al Ad (keys1 ++ k :: keys2) perm0 wlo whi w = Abort.
Proof.
  intros L1 L2 L4 L5 L6 L7 HvI HvL Hk.
  destruct (last_bad mi ml k Hk keys2 keys1) as (k' & l1 & l2 & -> & B & G).
  destruct l2 as [|y l3] eqn:El2.
  - apply tuple_sort_bad_key; auto.
  - rewrite <- El2 in *.
    assert (HA : List.length (combine Ai Al) = n) by (rewrite combine_length; lia).
    destruct (tuple_sort_keys_ok DI DL mi ml md Ai Al wlo whi w perm0 ([], [])) with (keys := l2)
      as (p & Rr & _); auto; try lia. { rewrite El2; discriminate. }
    unfold tuple_sort.
    destruct (l1 ++ k' :: l2) eqn:EK; [destruct l1; discriminate|]. rewrite <- EK.
    rewrite rev_app_distr. cbn [rev]. rewrite !foldM_app, Rr. cbn [bind foldM].
    unfold tuple_sort_key at 1.
    destruct (Z.ltb_spec (k' - 1) 0); destruct (Z.leb_spec (Z.of_nat (mi + ml)) (k' - 1)); cbn; auto. lia.
Qed.

Lemma mapM_col_entry k A : 1 <= k -> (forall c, In c A -> k <= List.length c) ->
  mapM (col_entry k) A = Ok (map (fun c => nth (k - 1) c 0%N) A).
Proof.
  intros Hk H. induction A as [|c A IH]; cbn [mapM map]; auto.
  unfold col_entry at 1. destruct k as [|k]; [lia|].
  specialize (H c (or_introl eq_refl)) as Hc.
  rewrite (rd_ok _ _ (nth k c 0%N)) by (apply nth_error_nth'; lia). cbn [bind].
  rewrite IH by (intros; apply H; right; auto). cbn [bind].
  replace (S k - 1) with k by lia. auto.
Qed.

Lemma ituple_sort_ok DI mi (Ai : list (list N)) keys perm0 wlo whi w n :
  List.length Ai = n -> List.length perm0 = n -> List.length wlo = n -> List.length whi = n -> List.length w = n ->
  (forall c, In c Ai -> List.length c = mi) ->
  keys <> [] -> (forall k, In k keys -> 1 <= k <= mi) ->
  (forall c v, In c Ai -> In v c -> (v < 2 ^ (8 * N.of_nat DI))%N) ->
  exists Bi, ituple_sort DI Ai keys perm0 wlo whi w = Ok Bi /\
    stably_sorts (lexicographic (map (fun k x y => (nth (k - 1) x 0 <? nth (k - 1) y 0)%N) keys)) Ai Bi.
Proof.
  intros L1 L2 L3 L4 L5 Hc Hne Hk Hv.
  set (fs := map (fun k => FInt DI (fun c => nth (k - 1) c 0%N) wlo whi w) keys).
  destruct (sarray_sort_ok Ai perm0 fs) as (B & R & St).
  - unfold fs. destruct keys; [congruence|discriminate].
  - intros f Hf. unfold fs in Hf. apply in_map_iff in Hf as (k & <- & Hin). simpl.
    split; [|lia]. intros x Hx. destruct (Hk k Hin) as [Hk1 Hk2].
    apply Hv with x; auto. apply nth_In. rewrite Hc by auto. lia.
  - lia.
  - exists B. split.
    2:{ unfold fs in St. rewrite map_map in St. exact St. }
    unfold ituple_sort. destruct keys as [|k0 keys0] eqn:EK; [congruence|]. rewrite <- EK in *.
    unfold sarray_sort in R.
    enough (G : forall l, l <> [] -> (forall k, In k l -> 1 <= k <= mi) ->
       foldM (ituple_sort_key DI Ai wlo whi w) (rev l) (false, perm0) =
       bind (sort_fields Ai perm0 (map (fun k => FInt DI (fun c => nth (k - 1) c 0%N) wlo whi w) l))
            (fun p => Ok (true, p))).
    { rewrite G by auto. unfold fs in R. rewrite <- EK in R. clear fs St. set (fs := map _ keys) in *. destruct (sort_fields Ai perm0 fs); cbn [bind] in *; try discriminate; auto. }
    clear R St EK fs Hk Hne. induction l as [|k l IH]; intros Hne Hk; [congruence|].
    assert (Hcol : mapM (col_entry k) Ai = Ok (map (fun c => nth (k - 1) c 0%N) Ai)).
    { apply mapM_col_entry; [apply Hk; left; auto|]. intros c Hin. rewrite Hc by auto. apply Hk; left; auto. }
    destruct l as [|k2 l].
    + cbn [rev app foldM map sort_fields sort_field]. unfold ituple_sort_key at 1.
      rewrite Hcol. cbn [bind]. destruct (sortp _ _ _ _ _ _ _); auto.
    + change (rev (k :: k2 :: l)) with (rev (k2 :: l) ++ [k]). rewrite foldM_app, IH;
        [|discriminate|intros; apply Hk; right; auto].
      change (sort_fields Ai perm0 (map ?f (k :: k2 :: l))) with
        (perm <- sort_fields Ai perm0 (map f (k2 :: l)) ;; sort_field Ai true perm (f k)).
      generalize (sort_fields Ai perm0 (map (fun k => FInt DI (fun c => nth (k - 1) c 0%N) wlo whi w) (k2 :: l))).
      intros [p| | |]; cbn [bind foldM]; auto.
      unfold ituple_sort_key at 1. rewrite Hcol. cbn [bind sort_field].
      destruct (sortp _ _ _ _ _ _ _); auto.
Qed.

(** Concrete cases. *)
Lemma ex_sortv_300 : exists A out work, List.length A = 300 /\ List.length out = List.length A /\ List.length work = List.length A /\
  (forall v, In v A -> (v < 2 ^ (8 * N.of_nat 4))%N) /\
  sortv 4 false true out A work = Ok (map N.of_nat (seq 0 300)).
Proof.
  exists (map N.of_nat (rev (seq 0 300))), (repeat 0%N 300), (repeat 0%N 300).
  split; [reflexivity|]. split; [reflexivity|]. split; [reflexivity|]. split.
  - intros v Hv. apply in_map_iff in Hv as (i & <- & Hi). apply in_rev, in_seq in Hi.
    change (2 ^ (8 * N.of_nat 4))%N with 4294967296%N. lia.
  - vm_compute. reflexivity.
Qed.

Lemma ex_sortp : exists A perm wlo whi w, List.length A = 5 /\ is_perm 5 perm /\
  sortp 8 false perm A wlo whi w = Ok [1;3;0;2;4] /\ sortp 8 true perm A wlo whi w = Ok [3;1;4;2;0].
Proof.
  exists [7;3;7;3;7]%N, [4;3;2;1;0],
    (repeat (@SD N 0%N 0) 5), (repeat (@SD N 0%N 0) 5), (repeat 0 5).
  split; [reflexivity|]. split.
  - unfold is_perm. apply (Permutation_rev (seq 0 5)).
  - split; vm_compute; reflexivity.
Qed.

Lemma ex_permute : is_perm 5 [2;0;1;4;3] /\
  sarray_permute [10;11;12;13;14] [2;0;1;4;3] = Ok ([12;10;11;14;13], [2;0;1;4;3]%Z).
Proof.
  split; [|vm_compute; reflexivity]. unfold is_perm. simpl.
  apply NoDup_Permutation; [repeat constructor; simpl; lia..|].
  intros x; simpl; lia.
Qed.

Lemma ex_sarray_sort : exists A f1 f2 perm0, List.length A = 4 /\ field_ok A f1 /\ field_ok A f2 /\ List.length perm0 = List.length A /\
  key_lt f1 = (fun x y => (fst x <? fst y)%N) /\ key_lt f2 = (fun x y => (snd (A:=N) x <? snd y)%N) /\
  sarray_sort A perm0 [f1; f2] = Ok [(1,7);(1,9);(2,3);(2,4)]%N.
Proof.
  exists [(2,4);(1,9);(1,7);(2,3)]%N,
   (FInt 4 fst (repeat (@SD N 0%N 0) 4) (repeat (@SD N 0%N 0) 4) (repeat 0 4)),
   (FInt 4 snd (repeat (@SD N 0%N 0) 4) (repeat (@SD N 0%N 0) 4) (repeat 0 4)),
   (repeat 0 4).
  split; [reflexivity|]. split; [|split].
  1,2: cbn [field_ok]; split; [|repeat split; reflexivity]; intros x Hx;
    change (2 ^ (8 * N.of_nat 4))%N with 4294967296%N; simpl in Hx;
    repeat (destruct Hx as [<-|Hx]; [simpl; lia|]); destruct Hx.
  split; [reflexivity|]. split; [reflexivity|]. split; [reflexivity|]. vm_compute. reflexivity.
Qed.

Lemma ex_real : strict_weak Z.ltb /\ (forall a b, Z.geb a b = negb (Z.ltb a b)) /\
  sortv_real Z.ltb Z.geb true true [] [3;-1;2]%Z [] = Ok [-1;2;3]%Z.
Proof.
  split; [constructor; intros; lia|]. split; [intros; lia|]. vm_compute. reflexivity.
Qed.

Lemma ex_tuple_sort :
  exists wlo whi w, List.length wlo = 3 /\ List.length whi = 3 /\ List.length w = 3 /\
  tuple_sort 4 8 2 1 1 [[5;1];[3;2];[5;3]]%N [[7];[8];[6]]%N [["a"];["b"];["c"]]%string [1;3]%Z [0;0;0] wlo whi w
  = Ok ([[3;2];[5;3];[5;1]], [[8];[6];[7]], [["b"];["c"];["a"]]%string)%N.
Proof.
  exists (repeat (@SD N 0%N 0) 3), (repeat (@SD N 0%N 0) 3), (repeat 0 3).
  repeat (split; [reflexivity|]). vm_compute. reflexivity.
Qed.
