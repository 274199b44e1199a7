(** The distributed search: bytes of the messages, the transfer with given targets, the merge. *)
From Verif Require Import Base BaseLemmas Sort SortSpec SortLemmas Net NetProof NetWords NetWordsProof
  Transfer TransferSpec TransferProof TransferProof2 TransferProof4 GsTop GsSpec GsSortProof GsTopProof3 ListLemmas CrystalProof
  Findpts FindptsGlobal FindptsSpec
  FindptsProof1 FindptsProof2 FindptsProof3 FindptsProof5 FindptsGlobalProof1 FindptsGlobalProof2 FindptsGlobalProof4.
From Coq Require Import QArith Qround Lqa Sorting.Sorted.
Open Scope nat_scope.

(** *** Bytes *)
Section Bytes.
Variable F : doubles.
Notation dbl := (dbl F).
Notation ds := (dsize F).
Variable usize : nat.

Lemma dbls_length (x : list dbl) : length (dbls_bytes F x) = length x * ds.
Proof. unfold dbls_bytes. induction x as [|a x IH]; cbn [map concat length]; auto. rewrite app_length, dbl_bytes_length, IH. lia. Qed.
Lemma dbls_lt (x : list dbl) b : In b (dbls_bytes F x) -> b < 256.
Proof.
  unfold dbls_bytes. rewrite in_concat. intros (l & Hl & Hb). apply in_map_iff in Hl. destruct Hl as (a & <- & _).
  eapply dbl_bytes_lt; eauto.
Qed.
Lemma dbls_back (x : list dbl) rest : dbls_of F (length x) (dbls_bytes F x ++ rest) = x.
Proof.
  unfold dbls_of.
  assert (G : forall pre y, length pre + length y = length x -> x = pre ++ y -> 
    map (fun i => bytes_dbl F (firstn ds (skipn (i * ds) (dbls_bytes F x ++ rest)))) (seq (length pre) (length y)) = y).
  { intros pre y. revert pre. induction y as [|a y IH]; intros pre L E; cbn [length seq map]; auto. f_equal.
    - rewrite E. unfold dbls_bytes. rewrite map_app, concat_app. fold (dbls_bytes F pre). rewrite <- !app_assoc.
      rewrite <- dbls_length. rewrite skipn_app, skipn_all, Nat.sub_diag. cbn [app skipn map concat]. rewrite <- app_assoc.
      rewrite firstn_app, dbl_bytes_length, Nat.sub_diag. cbn [firstn]. rewrite app_nil_r, firstn_all2 by (rewrite dbl_bytes_length; lia).
      apply dbl_bytes_back.
    - specialize (IH (pre ++ [a])). rewrite app_length in IH. cbn [length] in IH. rewrite Nat.add_1_r in IH. apply IH; [cbn [length] in L; lia|].
      rewrite <- app_assoc. auto. }
  apply (G [] x); auto.
Qed.

Lemma set_field_app A v w C p : length A = p -> set_field usize p v (A ++ enc usize w ++ C) = A ++ enc usize v ++ C.
Proof.
  intros <-. unfold set_field. rewrite firstn_app, firstn_all, Nat.sub_diag. cbn [firstn]. rewrite app_nil_r. f_equal. f_equal.
  rewrite skipn_add, skipn_app, skipn_all, Nat.sub_diag. cbn [app skipn]. apply skipn_enc.
Qed.
Lemma field_app A w C p : length A = p -> w < 256 ^ usize -> field usize p (A ++ enc usize w ++ C) = w.
Proof.
  intros <- H. unfold field. rewrite skipn_app, skipn_all, Nat.sub_diag. cbn [app skipn]. rewrite firstn_enc. apply dec_enc. auto.
Qed.
Lemma uint_at_app A w C off k : length A = off + k * usize -> uint_at usize off k (A ++ enc usize w ++ C) = dec (enc usize w).
Proof.
  intros L. unfold uint_at. rewrite <- L, skipn_app, skipn_all, Nat.sub_diag. cbn [app skipn]. rewrite firstn_enc. auto.
Qed.

Variable D : nat.
Lemma sp_row x s : length (sp_x F x) = D -> sp_index F x < 256 ^ usize -> sp_proc F x < 256 ^ usize -> sp_sid F x < 256 ^ usize -> s < 256 ^ usize ->
  length (sp_bytes F usize x) = D * ds + 3 * usize /\ (forall b, In b (sp_bytes F usize x) -> b < 256) /\
  field usize (D * ds + usize) (sp_bytes F usize x) = sp_proc F x /\
  sp_of F usize D (sp_bytes F usize x) = x /\
  sp_of F usize D (set_field usize (D * ds + usize) s (sp_bytes F usize x)) = SP F (sp_x F x) (sp_index F x) s (sp_sid F x).
Proof.
  intros L H1 H2 H3 H4. unfold sp_bytes. destruct x as [x i p sd]. cbn [sp_x sp_index sp_proc sp_sid] in *.
  assert (Ld : length (dbls_bytes F x) = D * ds) by (rewrite dbls_length, L; auto).
  assert (Hof : forall p, p < 256 ^ usize -> sp_of F usize D (dbls_bytes F x ++ enc usize i ++ enc usize p ++ enc usize sd) = SP F x i p sd).
  { intros p' Hp. unfold sp_of. f_equal.
    - rewrite <- L at 1. apply dbls_back.
    - rewrite uint_at_app by (rewrite Ld; lia). apply dec_enc; auto.
    - rewrite app_assoc, uint_at_app by (rewrite app_length, Ld, enc_length; lia). apply dec_enc; auto.
    - rewrite !app_assoc, <- (app_nil_r (enc usize sd)), uint_at_app by (rewrite !app_length, Ld, !enc_length; lia). apply dec_enc; auto. }
  split; [rewrite !app_length, Ld, !enc_length; lia|]. split.
  { intros b Hb. rewrite !in_app_iff in Hb. destruct Hb as [Hb|[Hb|[Hb|Hb]]]; [eapply dbls_lt; eauto|eapply enc_byte; eauto..]. }
  split; [rewrite app_assoc; apply field_app; auto; rewrite app_length, Ld, enc_length; auto|].
  split; [apply Hof; auto|]. rewrite app_assoc, set_field_app by (rewrite app_length, Ld, enc_length; auto).
  rewrite <- app_assoc. apply Hof. auto.
Qed.

Lemma es_row x s : length (es_r F x) = D -> es_index F x < 256 ^ usize -> es_proc F x < 256 ^ usize -> es_el F x < 256 ^ usize -> s < 256 ^ usize ->
  length (es_bytes F usize x) = D * ds + 3 * usize /\ (forall b, In b (es_bytes F usize x) -> b < 256) /\
  field usize (D * ds + usize) (es_bytes F usize x) = es_proc F x /\
  es_of F usize D (set_field usize (D * ds + usize) s (es_bytes F usize x)) = ES F (es_r F x) (es_index F x) s (es_el F x).
Proof.
  intros L H1 H2 H3 H4. unfold es_bytes. destruct x as [x i p sd]. cbn [es_r es_index es_proc es_el] in *.
  assert (Ld : length (dbls_bytes F x) = D * ds) by (rewrite dbls_length, L; auto).
  split; [rewrite !app_length, Ld, !enc_length; lia|]. split.
  { intros b Hb. rewrite !in_app_iff in Hb. destruct Hb as [Hb|[Hb|[Hb|Hb]]]; [eapply dbls_lt; eauto|eapply enc_byte; eauto..]. }
  split; [rewrite app_assoc; apply field_app; auto; rewrite app_length, Ld, enc_length; auto|].
  rewrite app_assoc, set_field_app by (rewrite app_length, Ld, enc_length; auto). rewrite <- app_assoc.
  unfold es_of. f_equal.
  - rewrite <- L at 1. apply dbls_back.
  - rewrite uint_at_app by (rewrite Ld; lia). apply dec_enc; auto.
  - rewrite app_assoc, uint_at_app by (rewrite app_length, Ld, enc_length; lia). apply dec_enc; auto.
  - rewrite !app_assoc, <- (app_nil_r (enc usize sd)), uint_at_app by (rewrite !app_length, Ld, !enc_length; lia). apply dec_enc; auto.
Qed.

Lemma eo_row x s : eo_index F x < 256 ^ usize -> eo_proc F x < 256 ^ usize -> s < 256 ^ usize ->
  length (eo_bytes F usize x) = ds + 2 * usize /\ (forall b, In b (eo_bytes F usize x) -> b < 256) /\
  field usize (ds + usize) (eo_bytes F usize x) = eo_proc F x /\
  eo_of F usize (set_field usize (ds + usize) s (eo_bytes F usize x)) = EO F (eo_out F x) (eo_index F x) s.
Proof.
  intros H1 H2 H3. unfold eo_bytes. destruct x as [v i p]. cbn [eo_out eo_index eo_proc] in *.
  pose proof (dbl_bytes_length F v) as Ld.
  split; [rewrite !app_length, Ld, !enc_length; lia|]. split.
  { intros b Hb. rewrite !in_app_iff in Hb. destruct Hb as [Hb|[Hb|Hb]]; [eapply dbl_bytes_lt; eauto|eapply enc_byte; eauto..]. }
  rewrite app_assoc, <- (app_nil_r (enc usize p)).
  split; [apply field_app; auto; rewrite app_length, Ld, enc_length; auto|].
  rewrite set_field_app by (rewrite app_length, Ld, enc_length; auto). unfold eo_of. f_equal.
  - rewrite <- app_assoc, firstn_app, Ld, Nat.sub_diag. cbn [firstn]. rewrite app_nil_r, firstn_all2 by lia. apply dbl_bytes_back.
  - rewrite <- app_assoc, uint_at_app by (rewrite Ld; lia). apply dec_enc; auto.
  - rewrite uint_at_app by (rewrite app_length, Ld, enc_length; lia). apply dec_enc; auto.
Qed.

(** A result as it arrives from process s. *)
Definition from_proc (s : nat) (x : nat * result F) : nat * result F :=
  let o := snd x in (fst x, Res F (code F o) s (el F o) (r F o) (dist2 F o) (disti F o) (dec (enc usize (elsid F o)))).
Variable dzero : dbl.
Lemma op_row x s : length (r F (snd x)) = D -> fst x < 256 ^ usize -> code F (snd x) < 256 ^ usize -> el F (snd x) < 256 ^ usize ->
  proc F (snd x) < 256 ^ usize -> s < 256 ^ usize ->
  length (op_bytes F usize x) = (D + 2) * ds + 5 * usize /\ (forall b, In b (op_bytes F usize x) -> b < 256) /\
  field usize ((D + 2) * ds + 3 * usize) (op_bytes F usize x) = proc F (snd x) /\
  op_of F usize dzero D (set_field usize ((D + 2) * ds + 3 * usize) s (op_bytes F usize x)) = from_proc s x.
Proof.
  intros L H1 H2 H3 H4 H5. unfold op_bytes, from_proc. destruct x as [i [c p e x d2 di sd]]. cbn [fst snd r code el proc dist2 disti elsid] in *.
  assert (Lx : length (x ++ [d2; di]) = D + 2) by (rewrite app_length; cbn; lia).
  assert (Ld : length (dbls_bytes F (x ++ [d2; di])) = (D + 2) * ds) by (rewrite dbls_length, Lx; auto).
  split; [rewrite !app_length, Ld, !enc_length; lia|]. split.
  { intros b Hb. rewrite !in_app_iff in Hb. destruct Hb as [Hb|[Hb|[Hb|[Hb|[Hb|Hb]]]]]; [eapply dbls_lt; eauto|eapply enc_byte; eauto..]. }
  assert (A3 : forall p, dbls_bytes F (x ++ [d2; di]) ++ enc usize i ++ enc usize c ++ enc usize e ++ enc usize p ++ enc usize sd =
    (dbls_bytes F (x ++ [d2; di]) ++ enc usize i ++ enc usize c ++ enc usize e) ++ enc usize p ++ enc usize sd) by (intros; rewrite <- !app_assoc; auto).
  assert (L3 : length (dbls_bytes F (x ++ [d2; di]) ++ enc usize i ++ enc usize c ++ enc usize e) = (D + 2) * ds + 3 * usize)
    by (rewrite !app_length, Ld, !enc_length; lia).
  rewrite (A3 p). split; [apply field_app; auto|]. rewrite set_field_app by auto. rewrite <- (A3 s).
  set (row := dbls_bytes F (x ++ [d2; di]) ++ enc usize i ++ enc usize c ++ enc usize e ++ enc usize s ++ enc usize sd).
  assert (Ed : dbls_of F (D + 2) row = x ++ [d2; di]) by (rewrite <- Lx; apply dbls_back).
  unfold op_of. rewrite Ed.
  assert (E0 : uint_at usize ((D + 2) * ds) 0 row = i) by (unfold row; rewrite uint_at_app by (rewrite Ld; lia); apply dec_enc; auto).
  assert (E1 : uint_at usize ((D + 2) * ds) 1 row = c).
  { unfold row. rewrite app_assoc, uint_at_app by (rewrite app_length, Ld, enc_length; lia). apply dec_enc; auto. }
  assert (E2 : uint_at usize ((D + 2) * ds) 2 row = e).
  { unfold row. rewrite !app_assoc. rewrite <- 2 app_assoc. rewrite uint_at_app by (rewrite !app_length, Ld, !enc_length; lia). apply dec_enc; auto. }
  assert (E3 : uint_at usize ((D + 2) * ds) 3 row = s).
  { unfold row. rewrite A3, uint_at_app by (rewrite L3; lia). apply dec_enc; auto. }
  assert (E4 : uint_at usize ((D + 2) * ds) 4 row = dec (enc usize sd)).
  { unfold row. rewrite A3, app_assoc, <- (app_nil_r (enc usize sd)), uint_at_app by (rewrite app_length, L3, enc_length; lia). rewrite app_nil_r. auto. }
  rewrite E0, E1, E2, E3, E4. f_equal. f_equal.
  - rewrite <- L, firstn_app, firstn_all, Nat.sub_diag. cbn [firstn]. apply app_nil_r.
  - rewrite <- L, app_nth2, Nat.sub_diag by auto. auto.
  - rewrite <- L, app_nth2 by lia. replace (length x + 1 - length x) with 1 by lia. auto.
Qed.
End Bytes.

(** *** sarray_transfer_ext of records *)
Section Ext.
Variable usize INT_MAX np : nat.
Hypothesis us1 : 1 <= usize.
Hypothesis np_lim : np < 256 ^ usize.
Hypothesis max_lim : INT_MAX <= 256 ^ usize.
Lemma transfer_ext_ok {X} size (to : X -> row) (from : row -> X) (A : nat -> list (nat * X)) :
  1 <= size ->
  (forall s x, s < np -> In x (A s) -> fst x < np /\ length (to (snd x)) = size /\ (forall b, In b (to (snd x)) -> b < 256) /\
     from (to (snd x)) = snd x) ->
  total np A * (words_for usize size + 3) * usize < INT_MAX ->
  exists out : nat -> list X,
    (forall r, r < np -> Permutation (out r) (sent_to np r fst (fun _ x => snd x) A)) /\
    goes np (fun s => transfer_ext usize INT_MAX np s size to from (map fst (A s)) (map snd (A s))) (fun r => Ret (out r)).
Proof.
  intros H1 HA Ht.
  destruct (transfer_ext_goes usize INT_MAX np size (fun s => map to (map snd (A s))) (fun s => map fst (A s))
              (fun s => zero_scratch usize (length (map snd (A s))) ((size + usize - 1) / usize))) as (out & P & G); auto.
  - intros s Hs rw Hr. rewrite map_map in Hr. apply in_map_iff in Hr. destruct Hr as (x & <- & Hx). destruct (HA s x Hs Hx) as (_ & E1 & E2 & _). auto.
  - intros s Hs. rewrite !map_length. auto.
  - intros s p Hs Hp. apply in_map_iff in Hp. destruct Hp as (x & <- & Hx). apply (HA s x Hs Hx).
  - intros s Hs. unfold scratch_for, zero_scratch. cbn. rewrite !repeat_length, !map_length. repeat split; auto.
  - replace (length (concat (map (fun s => map to (map snd (A s))) (seq 0 np)))) with (total np A); auto.
    unfold total. clear. induction (seq 0 np); cbn [map concat]; auto. rewrite !app_length, !map_length, IHl. auto.
  - exists (fun r => map from (out r)). split.
    + intros r Hr. rewrite (P r Hr). unfold sent_to. rewrite concat_map, map_map.
      match goal with |- Permutation (concat (map ?f _)) (concat (map ?g _)) =>
        rewrite (map_ext_in f g); [reflexivity|] end.
      intros s Hs. apply in_seq in Hs. cbv beta. rewrite map_map.
      assert (E : combine (map fst (A s)) (map to (map snd (A s))) = map (fun x => (fst x, to (snd x))) (A s)).
      { generalize (A s). clear. induction l as [|x l IH]; cbn [map combine]; auto. rewrite IH. auto. }
      rewrite E, filter_map, map_map. cbn [fst snd]. apply map_ext_in. intros x Hx. apply filter_In in Hx. apply (HA s x); [lia|tauto].
    + exact (goes_bind np (fun _ R => Ret (map from R)) _ _ G).
Qed.
End Ext.

(** *** Dropping what was not found *)
Section Drop.
Variable F : doubles.
Lemma drop_spec (l : list (nat * result F)) : StronglySorted (fun x y => code F (snd x) <= code F (snd y)) l ->
  (forall x, In x l -> code F (snd x) <= NOT_FOUND) ->
  rev (drop_unfound F (rev l)) = filter (fun x => negb (code F (snd x) =? NOT_FOUND)) l.
Proof.
  intros Ss Hc.
  assert (G : forall m, (forall x, In x m -> code F (snd x) <= NOT_FOUND) -> StronglySorted (fun x y => code F (snd y) <= code F (snd x)) m ->
    drop_unfound F m = filter (fun x => negb (code F (snd x) =? NOT_FOUND)) m).
  { clear. induction m as [|x m IH]; intros Hc Hs; cbn [drop_unfound filter]; auto. inversion Hs as [|? ? Hs' Hf]; subst.
    destruct (Nat.eqb_spec (code F (snd x)) NOT_FOUND) as [E|E]; cbn [negb].
    - apply IH; auto. intros; apply Hc; right; auto.
    - f_equal. symmetry. apply FindptsProof4.filter_true. intros y Hy. rewrite Forall_forall in Hf. specialize (Hf y Hy).
      specialize (Hc x (or_introl eq_refl)). apply negb_true_iff. apply Nat.eqb_neq. unfold NOT_FOUND in *. lia. }
  rewrite G.
  - rewrite <- (rev_involutive l) at 2. generalize (rev l). clear. induction l as [|x l IH]; cbn [filter rev]; auto.
    rewrite filter_app. cbn [filter]. destruct (negb (code F (snd x) =? NOT_FOUND)); cbn [rev]; rewrite IH, ?app_nil_r; auto.
  - intros x Hx. apply Hc. apply in_rev. auto.
  - clear Hc G. induction Ss as [|x l Hs IH Hf]; cbn [rev]; [constructor|].
    rewrite Forall_forall in Hf. assert (Hf' : forall y, In y (rev l) -> code F (snd x) <= code F (snd y)) by (intros y Hy; apply Hf; apply in_rev; auto).
    revert IH Hf'. generalize (rev l). clear. induction l as [|y l IHl]; intros Hs Hf; cbn [app]; [repeat constructor|].
    inversion Hs as [|? ? Hs' Hl]; subst. constructor; [apply IHl; auto; intros; apply Hf; right; auto|].
    apply Forall_app. split; auto. constructor; auto. apply Hf. left. auto.
Qed.
End Drop.

(** *** Merging *)
Section Merge.
Variable F : doubles.
Variable E : Type.
Variable sol : E -> found F.
Variable is : E -> result F -> Prop.
Hypothesis is_ext : forall c o o', proc F o = proc F o' -> el F o = el F o' -> is c o -> is c o'.

Definition merged (o opt : result F) : result F :=
  if code F o =? INTERNAL then o
  else if (code F o =? NOT_FOUND) || (code F opt =? INTERNAL) || dlt F (dist2 F opt) (dist2 F o) then
    Res F (code F opt) (proc F opt) (el F opt) (r F opt) (dist2 F opt) (disti F o) (elsid F o)
  else o.

Lemma merged_best C1 C2 o1 o2 : best F E sol is C1 o1 -> best F E sol is C2 o2 -> C2 <> [] ->
  best F E sol is (C1 ++ C2) (merged o1 o2).
Proof.
  intros B1 B2 N2. destruct B2 as [[-> _]|(c2 & I2 & S2 & K2 & R2 & D2 & M2)]; [congruence|]. clear N2.
  unfold merged. destruct (Nat.eqb_spec (code F o1) INTERNAL) as [Ei|Ei].
  { destruct B1 as [[-> H]|(c1 & I1 & S1 & K1 & R1 & D1 & M1)]; [rewrite H in Ei; discriminate|].
    right. exists c1. split; [apply in_or_app; auto|]. repeat (split; auto). }
  assert (Take : (code F o2 = INTERNAL \/ forall c', In c' C1 -> f_internal F (sol c') = false /\ (val F (dist2 F o2) <= val F (f_dist2 F (sol c')))%Q) ->
    best F E sol is (C1 ++ C2) (Res F (code F o2) (proc F o2) (el F o2) (r F o2) (dist2 F o2) (disti F o1) (elsid F o1))).
  { intros H. right. exists c2. split; [apply in_or_app; auto|]. cbn [code r dist2]. split; [eapply is_ext; [| |exact S2]; reflexivity|].
    split; [auto|]. split; [auto|]. split; [auto|]. destruct H as [H|H]; [left; auto|]. destruct M2 as [M2|M2]; [left; auto|]. right.
    intros c' Hc'. apply in_app_or in Hc'. destruct Hc'; auto. }
  assert (Ho : code F o1 = NOT_FOUND -> C1 = []).
  { intros En. destruct B1 as [[-> _]|(c1 & _ & _ & K1 & _)]; auto. rewrite K1 in En. destruct (f_internal F (sol c1)); discriminate. }
  destruct (Nat.eqb_spec (code F o1) NOT_FOUND) as [En|En]; cbn [orb].
  { apply Take. right. rewrite (Ho En). intros c' []. }
  destruct B1 as [[-> H]|(c1 & I1 & S1 & K1 & R1 & D1 & M1)]; [congruence|]. destruct M1 as [M1|M1]; [congruence|].
  destruct (Nat.eqb_spec (code F o2) INTERNAL) as [Ei2|Ei2]; cbn [orb]; [apply Take; auto|].
  destruct (dlt F (dist2 F o2) (dist2 F o1)) eqn:Ed.
  - apply dlt_spec in Ed. apply Take. right. intros c' Hc'. destruct (M1 c' Hc') as [H1 H2]. split; auto. lra.
  - apply dlt_false in Ed. destruct M2 as [M2|M2]; [congruence|]. right. exists c1. split; [apply in_or_app; auto|].
    repeat (split; auto). right. intros c' Hc'. apply in_app_or in Hc'. destruct Hc' as [Hc'|Hc']; auto.
    destruct (M2 c' Hc') as [H1 H2]. split; auto. lra.
Qed.

(** Merging all arrivals. *)
Lemma merge_ok (arr : list (nat * result F)) : forall st, (forall x, In x arr -> fst x < length st) ->
  exists st', merge F arr st = Ok st' /\ length st' = length st /\
  forall i, nth_error st' i = option_map (fold_left merged (map snd (filter (fun x => fst x =? i) arr))) (nth_error st i).
Proof.
  induction arr as [|[j opt] arr IH]; intros st H; unfold merge; cbn [foldM].
  - exists st. split; [auto|]. split; [auto|]. intros i. cbn [filter map fold_left]. destruct (nth_error st i); auto.
  - destruct (nth_error_lt_Some st j) as [o Ho]; [apply (H (j, opt)); left; auto|].
    assert (Es : exists st1, merge_one F st (j, opt) = Ok st1 /\ length st1 = length st /\
      forall i, nth_error st1 i = if i =? j then Some (merged o opt) else nth_error st i).
    { unfold merge_one, merged. rewrite (rd_ok _ _ _ Ho). cbn [bind]. destruct (code F o =? INTERNAL).
      - exists st. split; [auto|]. split; [auto|]. intros i. destruct (Nat.eqb_spec i j) as [->|N]; auto.
      - destruct (_ || _).
        + rewrite wr_ok by (eapply nth_error_Some_lt; eauto). eexists. split; [reflexivity|]. split; [apply upd_length|].
          intros i. destruct (Nat.eqb_spec i j) as [->|N]; [apply nth_error_upd_eq; eapply nth_error_Some_lt; eauto|apply nth_error_upd_ne; auto].
        + exists st. split; [auto|]. split; [auto|]. intros i. destruct (Nat.eqb_spec i j) as [->|N]; auto. }
    destruct Es as (st1 & E1 & L1 & N1). rewrite E1. cbn [bind].
    destruct (IH st1) as (st' & E' & L' & N'); [intros x Hx; rewrite L1; apply H; right; auto|]. unfold merge in E'.
    exists st'. split; [exact E'|]. split; [congruence|]. intros i. rewrite N', N1. cbn [filter fst]. rewrite (Nat.eqb_sym j i).
    destruct (Nat.eqb_spec i j) as [->|N]; [rewrite Ho; reflexivity|reflexivity].
Qed.

Variable may must : E -> Prop.
(** A result that came back: the best of candidates C. *)
Definition sound (must' : E -> Prop) (o : result F) : Prop :=
  exists C, C <> [] /\ best F E sol is C o /\ (forall c, In c C -> may c) /\ forall c, must' c -> In c C.
Lemma merged_all (part : result F -> E -> Prop) (l : list (result F)) : forall C o, best F E sol is C o -> (forall c, In c C -> may c) ->
  (forall o, In o l -> sound (fun c => must c /\ part o c) o) ->
  exists C', best F E sol is C' (fold_left merged l o) /\ (forall c, In c C' -> may c) /\ (forall c, In c C -> In c C') /\
    (forall c o, In o l -> must c -> part o c -> In c C') /\ (C' = [] -> fold_left merged l o = o).
Proof.
  induction l as [|o2 l IH]; intros C o B M H; cbn [fold_left].
  - exists C. split; [auto|]. split; [auto|]. split; [auto|]. split; [intros c o' []|]. auto.
  - destruct (H o2 (or_introl eq_refl)) as (C2 & N2 & B2 & M2 & T2).
    destruct (IH (C ++ C2) (merged o o2)) as (C' & B' & M' & I' & T' & E').
    + apply merged_best; auto.
    + intros c Hc. apply in_app_or in Hc. destruct Hc; auto.
    + intros; apply H; right; auto.
    + exists C'. split; auto. split; auto. split; [intros; apply I'; apply in_or_app; auto|]. split.
      * intros c o' [<-|Ho] Hm Hp; [apply I'; apply in_or_app; right; apply T2; auto|eapply T'; eauto].
      * intros ->. exfalso. destruct C2 as [|c C2]; [congruence|]. apply (I' c). apply in_or_app. right. left. auto.
Qed.
End Merge.
