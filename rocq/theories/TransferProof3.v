(** Correctness of sarray_transfer_many: all processes together. *)
From Verif Require Import Base BaseLemmas Sort SortSpec SortProof SarrayExtra Net NetProof Crystal CrystalSpec CrystalProof
  Transfer TransferSpec TransferProof TransferProof2.
From Coq Require Import ZifyBool ZifyNat NArith Nnat.
Ltac Zify.zify_post_hook ::= Z.div_mod_to_equations.

Ltac perm_eq := match goal with |- Permutation ?a ?b =>
  let H := fresh in assert (H : a = b); [|rewrite H; apply Permutation_refl] end.

Lemma Forall2_len {A B} (R : A -> B -> Prop) l1 l2 : Forall2 R l1 l2 -> length l1 = length l2.
Proof. induction 1; simpl; auto. Qed.

Lemma perm_map_nth {A} (l : list A) d p : is_perm (length l) p -> Permutation l (map (fun i => nth i l d) p).
Proof.
  intros H. unfold is_perm in H.
  transitivity (map (fun i => nth i l d) (seq 0 (length l))); [|apply Permutation_map; auto].
  assert (E : l = map (fun i => nth i l d) (seq 0 (length l))); [|rewrite <- E; auto].
  apply nth_error_ext. intros i. rewrite nth_error_map.
  destruct (lt_dec i (length l)).
  - rewrite seq_nth_error by auto. cbn. rewrite (nth_error_nth' l d) by auto. auto.
  - rewrite !(proj2 (nth_error_None _ _)); auto; rewrite ?seq_length; lia.
Qed.

Section Top.
Variable usize INT_MAX np : nat.
Hypothesis us1 : 1 <= usize.
Hypothesis np_lim : np < ulim usize.
Hypothesis max_lim : INT_MAX <= ulim usize.
Variable size0 : nat.
Variable sizes' : list nat.
Notation sizes := (size0 :: sizes').
Variable ext set_src fixed : bool.
Variable p_off : nat.
Definition off1 := if ext then size0 else size0 - usize.
Definition rs := (off1 + sum sizes' + usize - 1) / usize.
Hypothesis pay1 : 1 <= off1 + sum sizes'.
Hypothesis poff_ok : ext = false -> p_off + usize <= size0.

Lemma rs_pos : 1 <= rs.
Proof. unfold rs. apply Nat.div_le_lower_bound; lia. Qed.
Lemma rs_room : off1 + sum sizes' <= rs * usize.
Proof.
  unfold rs. pose proof (Nat.div_mod (off1 + sum sizes' + usize - 1) usize ltac:(lia)).
  pose proof (Nat.mod_upper_bound (off1 + sum sizes' + usize - 1) usize ltac:(lia)). nia.
Qed.

Notation col := (nat * list row)%type.

(** What travels for a column. *)
Definition pk0 (r0 : row) : list byte := if ext then r0 else firstn p_off r0 ++ skipn (p_off + usize) r0.
Definition pk (c : list row) : list byte := pk0 (hd [] c) ++ concat (tl c).

(** The column made from a row of a message. *)
Definition unpk (x : nat * nat * list byte) : list row :=
  let '(t, s, b) := x in
  (if ext then firstn size0 (skipn 0 b)
   else firstn p_off b ++ enc usize (if set_src then s else t) ++ firstn (size0 - (p_off + usize)) (skipn p_off b))
  :: cut off1 sizes' b.

Lemma pk0_length r0 : length r0 = size0 -> length (pk0 r0) = off1.
Proof.
  intros H. unfold pk0, off1. destruct ext; auto. specialize (poff_ok eq_refl).
  rewrite app_length, firstn_length, skipn_length. lia.
Qed.

Lemma unpk_pk s (c : col) : Forall2 (fun r k => length r = k) (snd c) sizes ->
  unpk (fst c, s, pk (snd c)) = retag usize ext set_src p_off s c.
Proof.
  destruct c as [t c]. cbn [fst snd]. intros H. inversion H as [|r0 k rest ks H0 HR]; subst.
  unfold unpk, pk, retag. cbn [hd tl snd fst].
  pose proof (pk0_length r0 H0) as L0.
  replace (cut off1 sizes' (pk0 r0 ++ concat rest)) with rest.
  2:{ rewrite <- L0. symmetry. apply cut_concat; auto. }
  unfold pk0 in *. destruct ext.
  - rewrite skipn_O, firstn_len by auto. auto.
  - f_equal. specialize (poff_ok eq_refl). unfold set_field.
    assert (L1 : length (firstn p_off r0) = p_off) by (rewrite firstn_length; lia).
    rewrite <- app_assoc. rewrite firstn_len by auto. rewrite skipn_len by auto.
    f_equal. f_equal. apply firstn_len. rewrite skipn_length. lia.
Qed.

Lemma unpk_firstn t s b : unpk (t, s, firstn (off1 + sum sizes') b) = unpk (t, s, b).
Proof.
  unfold unpk. rewrite (cut_firstn usize us1 rs rs_pos) by lia. f_equal. unfold off1. destruct ext.
  - rewrite !skipn_O, firstn_firstn. f_equal. lia.
  - specialize (poff_ok eq_refl). rewrite firstn_firstn. rewrite skipn_firstn_comm, firstn_firstn. f_equal; [f_equal; lia|].
    f_equal. f_equal. lia.
Qed.

(** ** Sender *)
Section Sender.
Variable id : nat.
Variable T : list col.
Variable sc : scratch.
Hypothesis cols : columns_ok usize np ext p_off sizes T.
Hypothesis scr : scratch_for usize (length T) rs sc.
Hypothesis small : length T * (rs + 3) * usize < INT_MAX.
Definition A := arrays (length sizes) (map snd T).
Definition d0 : col := (0, []).

Lemma A_nth j pi : j < length sizes -> pi < length T -> nth pi (nth j A []) [] = nth j (snd (nth pi T d0)) [].
Proof.
  intros Hj Hp. unfold A, arrays.
  rewrite (nth_indep _ [] (map (fun c => nth 0 c []) (map snd T))) by (rewrite map_length, seq_length; auto).
  rewrite (map_nth (fun j => map (fun c => nth j c []) (map snd T))), seq_nth by auto.
  rewrite (nth_indep _ [] (nth (0 + j) (snd d0) [])) by (rewrite !map_length; auto).
  rewrite map_map. rewrite (map_nth (fun x : col => nth (0 + j) (snd x) [])). auto.
Qed.

Lemma row0_ok pi : pi < length T -> exists r0, nth_error (hd [] A) pi = Some r0 /\ r0 = hd [] (snd (nth pi T d0)) /\
  length r0 = size0 /\ (ext = false -> field usize p_off r0 = fst (nth pi T d0)).
Proof.
  intros Hp. exists (hd [] (snd (nth pi T d0))).
  destruct (cols (nth pi T d0) (nth_In _ _ Hp)) as (H1 & H2 & H3).
  split; [|split; [|split]]; auto.
  - unfold A, arrays. cbn [length seq map hd]. rewrite map_map, nth_error_map.
    rewrite (nth_error_nth' T d0) by auto. cbn. destruct (snd (nth pi T d0)); auto.
  - inversion H2; subst; auto.
  - intros E. destruct (H3 E) as (_ & ->). auto.
Qed.

Lemma sender_ok : exists ms,
  (perm <- sortp usize false (sc_perm sc) (map N.of_nat (map fst T)) (sc_lo sc) (sc_hi sc) (sc_w sc) ;;
   data <- (if ext then pack_ext usize id rs (hd [] A) size0 (map fst T) (sc_mem sc) perm
            else pack_int usize id rs (hd [] A) size0 p_off (sc_mem sc) perm) ;;
   pack_rest usize data off1 rs (combine (tl A) sizes') perm) = Ok (bytes usize rs ms) /\
  Forall (wf usize rs) ms /\
  Permutation (pfx (off1 + sum sizes') ms) (map (fun c => (fst c, id, pk (snd c))) T).
Proof.
  destruct scr as (S1 & S2 & S3 & S4 & S5).
  pose proof rs_pos as R1. pose proof rs_room as R2.
  destruct (sortp_explicit usize (sc_perm sc) (map N.of_nat (map fst T)) (sc_lo sc) (sc_hi sc) (sc_w sc)) as (perm & Es & Hp & _);
    try (rewrite ?map_length; auto; fail).
  { intros v Hv. apply in_map_iff in Hv as (t & <- & Ht). apply in_map_iff in Ht as (c & <- & Hc).
    destruct (cols c Hc) as (Hc1 & _). unfold ulim in np_lim.
    assert (E : (2 ^ (8 * N.of_nat usize) = N.of_nat (256 ^ usize))%N).
    { rewrite N.pow_mul_r. change (2 ^ 8)%N with (N.of_nat 256).
      rewrite <- Nat2N.inj_pow. auto. }
    rewrite E. lia. }
  rewrite !map_length in Hp. rewrite Es. cbn [bind].
  assert (Hin : forall pi, In pi perm -> pi < length T).
  { intros pi H. apply (Permutation_in pi (Permutation_sym Hp)) in H. apply in_seq in H. lia. }
  assert (Hlen : length perm = length T).
  { apply Permutation_length in Hp. rewrite seq_length in Hp. auto. }
  set (P := fun pi => fst (nth pi T d0)).
  set (C := fun pi => pk0 (hd [] (snd (nth pi T d0)))).
  assert (Hpack : exists ms, (if ext then pack_ext usize id rs (hd [] A) size0 (map fst T) (sc_mem sc) perm
            else pack_int usize id rs (hd [] A) size0 p_off (sc_mem sc) perm) = Ok (bytes usize rs ms) /\
      Forall (wf usize rs) ms /\ pfx off1 ms = map (fun pi => (P pi, id, C pi)) perm).
  { assert (Hlim : length perm * rs < ulim usize) by nia.
    assert (Hroom : length perm * (rs + 3) * usize <= length (sc_mem sc)) by (rewrite Hlen; auto).
    assert (HPlt : forall pi, pi < length T -> P pi < ulim usize - 1).
    { intros pi Hpi. unfold P. destruct (cols (nth pi T d0) (nth_In _ _ Hpi)) as (H1 & _). lia. }
    destruct (Bool.bool_dec ext true) as [Eext|Eext]; [|apply not_true_is_false in Eext]; rewrite Eext.
    - unfold pack_ext. apply (pack_body_ok usize us1 rs R1 id off1 ltac:(lia) P C _ _ (length T)); auto.
      + intros pi Hpi. unfold P. rewrite (rd_nth _ _ (fst d0)) by (rewrite map_length; auto). rewrite map_nth. auto.
      + intros pi Hpi. destruct (row0_ok pi Hpi) as (r0 & E1 & E2 & E3 & _).
        rewrite (rd_ok _ _ _ E1). cbn [bind]. rewrite (slice_mid r0 [] r0 []) by (rewrite ?app_nil_r; auto). cbn [bind].
        eexists. split; [reflexivity|]. intros out pre b post Hpre Hb. cbn [foldM fst snd].
        assert (Hr : length r0 <= length b) by (unfold off1 in R2; rewrite Eext in R2; lia).
        exists (r0 ++ skipn (length r0) b). rewrite Nat.add_0_r.
        rewrite (blit_mid _ pre (firstn (length r0) b) (skipn (length r0) b ++ post)).
        * cbn [bind]. rewrite <- app_assoc. split; auto. split.
          { rewrite app_length, skipn_length. lia. }
          unfold C, pk0. rewrite Eext, <- E2. apply firstn_len. unfold off1. rewrite Eext; auto.
        * rewrite <- (firstn_skipn (length r0) b) at 1. rewrite <- app_assoc. auto.
        * auto.
        * rewrite firstn_length. lia.
    - unfold pack_int. pose proof (poff_ok Eext) as Hpo.
      assert (Eo : off1 = size0 - usize) by (unfold off1; rewrite Eext; auto).
      apply (pack_body_ok usize us1 rs R1 id off1 ltac:(lia) P C _ _ (length T)); auto.
      + intros pi Hpi. destruct (row0_ok pi Hpi) as (r0 & E1 & E2 & E3 & E4). rewrite (rd_ok _ _ _ E1). cbn [bind].
        unfold slice. destruct (Nat.leb_spec (p_off + usize) (length r0)); [|lia]. cbn [bind].
        f_equal. apply E4; auto.
      + intros pi Hpi. destruct (row0_ok pi Hpi) as (r0 & E1 & E2 & E3 & _).
        rewrite (rd_ok _ _ _ E1). cbn [bind]. unfold slice.
        destruct (Nat.leb_spec (0 + p_off) (length r0)); [|lia]. cbn [bind].
        destruct (Nat.leb_spec (p_off + usize + (size0 - (p_off + usize))) (length r0)); [|lia]. cbn [bind].
        eexists. split; [reflexivity|]. intros out pre b post Hpre Hb. cbn [foldM fst snd].
        rewrite skipn_O. set (a := firstn p_off r0). 
        assert (Ha : length a = p_off) by (unfold a; rewrite firstn_length; lia).
        replace (firstn (size0 - (p_off + usize)) (skipn (p_off + usize) r0)) with (skipn (p_off + usize) r0).
        2:{ symmetry. apply firstn_all2. rewrite skipn_length. lia. }
        set (z := skipn (p_off + usize) r0). assert (Hz : length z = size0 - (p_off + usize)) by (unfold z; rewrite skipn_length; lia).
        exists (a ++ z ++ skipn (p_off + length z) b). rewrite Nat.add_0_r.
        rewrite (blit_mid _ pre (firstn p_off b) (skipn p_off b ++ post)).
        * cbn [bind]. 
          rewrite (blit_mid _ (pre ++ a) (firstn (length z) (skipn p_off b)) (skipn (p_off + length z) b ++ post)).
          -- cbn [bind]. rewrite <- !app_assoc. split; auto. split.
             { rewrite !app_length, skipn_length. lia. }
             unfold C, pk0. rewrite Eext, <- E2. fold a z. rewrite app_assoc. apply firstn_len. rewrite app_length. lia.
          -- rewrite <- !app_assoc. do 2 f_equal. rewrite <- (firstn_skipn (length z) (skipn p_off b)) at 1.
             rewrite <- app_assoc, skipn_skipn_add. auto.
          -- rewrite app_length. lia.
          -- rewrite firstn_length, skipn_length. lia.
        * rewrite <- (firstn_skipn p_off b) at 1. rewrite <- app_assoc. auto.
        * auto.
        * rewrite firstn_length. lia. }
  destruct Hpack as (ms & -> & Hw & Hpf). cbn [bind].
  destruct (pack_rest_ok usize us1 rs R1 perm (length T) Hin (tl A) sizes' off1 ms (fun pi => (P pi, id, C pi))) as (ms' & E' & W' & P'); auto.
  { unfold A, arrays. cbn [length seq map tl]. rewrite map_length, seq_length. auto. }
  { intros a k Hak. apply In_nth_error in Hak as (j & Hj).
    assert (Hj' : j < length sizes').
    { apply nth_error_Some_lt in Hj. rewrite combine_length in Hj. lia. }
    assert (Ea : a = nth (S j) A []).
    { assert (E1 : nth_error (tl A) j = Some a).
      { revert Hj. clear. generalize (tl A) sizes'. intros l1 l2. revert l2 j.
        induction l1 as [|x l1 IH]; intros [|y l2] [|j] H; try discriminate; simpl in *; [congruence|eauto]. }
      destruct A as [|x l]; cbn [tl] in E1; [destruct j; discriminate|]. cbn [nth]. symmetry. apply nth_error_nth. auto. }
    assert (Ek : nth_error sizes' j = Some k).
    { revert Hj. clear. generalize (tl A) sizes'. intros l1 l2. revert l2 j.
      induction l1 as [|x l1 IH]; intros [|y l2] [|j] H; try discriminate; simpl in *; [congruence|eauto]. }
    assert (La : length a = length T).
    { rewrite Ea. unfold A, arrays.
      rewrite (nth_indep _ [] (map (fun c => nth 0 c []) (map snd T))) by (rewrite map_length, seq_length; simpl; lia).
      rewrite (map_nth (fun j => map (fun c => nth j c []) (map snd T))). rewrite !map_length. auto. }
    split; auto. intros r Hr. apply (In_nth _ _ []) in Hr as (pi & Hpi & <-). rewrite La in Hpi.
    rewrite Ea, A_nth by (simpl; lia). destruct (cols (nth pi T d0) (nth_In _ _ Hpi)) as (_ & H2 & _).
    inversion H2 as [|r0 k0 rest ks Q1 Q2]; subst. cbn [nth].
    clear -Q2 Ek. revert j Ek. induction Q2 as [|x y l1 l2 E Q IH]; intros [|j] H; try discriminate; simpl in *; [congruence|auto]. }
  exists ms'. split; auto. split; auto. rewrite P'.
  transitivity (map (fun c => (fst c, id, pk (snd c))) (map (fun pi => nth pi T d0) perm)).
  - perm_eq. rewrite map_map. apply map_ext_in. intros pi Hpi. unfold P, C, pk. f_equal. f_equal. f_equal.
    specialize (Hin pi Hpi). destruct (cols (nth pi T d0) (nth_In _ _ Hin)) as (_ & H2 & _).
    assert (E : map (fun a => nth pi a []) (tl A) = tl (snd (nth pi T d0))); [|rewrite E; auto].
    assert (Lc : length (snd (nth pi T d0)) = length sizes) by (apply Forall2_len in H2; auto).
    apply nth_ext with (d := []) (d' := []).
    + rewrite map_length. unfold A, arrays. cbn [length seq map tl]. rewrite map_length, seq_length.
      destruct (snd (nth pi T d0)); simpl in *; lia.
    + intros j Hj. rewrite map_length in Hj.
      assert (LA : length (tl A) = length sizes') by (unfold A, arrays; cbn [length seq map tl]; rewrite map_length, seq_length; auto).
      assert (EM : nth j (map (fun a : list row => nth pi a []) (tl A)) [] = nth pi (nth j (tl A) []) []).
      { rewrite <- (map_nth (fun a : list row => nth pi a []) (tl A) [] j). apply nth_indep. rewrite map_length. auto. }
      rewrite EM.
      assert (ET : forall X (l : list X) (d : X), nth j (tl l) d = nth (S j) l d) by (intros X [|] d; simpl; auto; destruct j; auto).
      rewrite !ET. apply A_nth; simpl; lia.
  - apply Permutation_map. symmetry. apply perm_map_nth. auto.
Qed.
End Sender.

(** ** Receiver *)
Definition receive (maxs : list nat) (data : list byte) : res (nat * list (list row)) :=
  '(n, data, dn, caps, an) <-
          (if fixed then
             let max := fold_right Nat.min (hd 0 maxs) (tl maxs) in
             '(n, data, dn) <- cap_rows usize data rs max ;;
             Ok (n, data, dn, maxs, if max <? n then max else n)
           else
             n <- num_rows usize data rs ;;
             Ok (n, data, length data / usize, map (fun _ => n) sizes, n)) ;;
        a0 <- (if ext then unpack_more usize (hd 0 caps) size0 data dn 0 rs
               else unpack_int usize (hd 0 caps) size0 p_off data dn rs set_src) ;;
        l <- unpack_rest usize data dn off1 rs an (combine (tl caps) sizes') ;;
        Ok (n, a0 :: l).

Lemma min_le m l : fold_right Nat.min m l <= m /\ forall x, In x l -> fold_right Nat.min m l <= x.
Proof.
  induction l as [|y l [I1 I2]]; cbn [fold_right In]; [split; auto; intros x []|].
  split; [lia|]. intros x [->|Hx]; [lia|]. specialize (I2 x Hx). lia.
Qed.
Lemma min_ge m l n : n <= m -> (forall x, In x l -> n <= x) -> n <= fold_right Nat.min m l.
Proof.
  intros Hm. induction l as [|y l IH]; intros H; cbn [fold_right]; auto.
  assert (n <= y) by (apply H; left; auto). assert (n <= fold_right Nat.min m l) by (apply IH; intros; apply H; right; auto). lia.
Qed.

Lemma receive_ok maxs hs : Forall (wf usize rs) hs ->
  (forall t s b, In (t, s, b) (flat hs) -> t < ulim usize /\ s < ulim usize) ->
  (fixed = true -> length maxs = length sizes /\
     (forall m, In m maxs -> length (flat hs) <= m) /\ exists m, In m maxs /\ m * rs < ulim usize) ->
  receive maxs (bytes usize rs hs) = Ok (length (flat hs), arrays (length sizes) (map unpk (flat hs))).
Proof.
  intros Hw Hlt Hfix. unfold receive. pose proof rs_pos as R1. pose proof rs_room as R2.
  assert (H1 : exists caps,
    (if fixed then
             let max := fold_right Nat.min (hd 0 maxs) (tl maxs) in
             '(n, data, dn) <- cap_rows usize (bytes usize rs hs) rs max ;;
             Ok (n, data, dn, maxs, if max <? n then max else n)
           else
             n <- num_rows usize (bytes usize rs hs) rs ;;
             Ok (n, bytes usize rs hs, length (bytes usize rs hs) / usize, map (fun _ : nat => n) sizes, n)) =
    Ok (length (flat hs), bytes usize rs hs, wls rs hs, caps, length (flat hs)) /\
    length caps = length sizes /\ forall c, In c caps -> length (flat hs) <= c).
  { destruct fixed.
    - destruct (Hfix eq_refl) as (L & Hm & m & Hin & Hmr). exists maxs. split; [|split; auto].
      destruct maxs as [|m0 ms]; [discriminate|]. cbn [hd tl].
      destruct (min_le m0 ms) as [M1 M2]. set (mx := fold_right Nat.min m0 ms) in *.
      assert (G : length (flat hs) <= mx).
      { apply min_ge; [apply Hm; left; auto|intros; apply Hm; right; auto]. }
      assert (Gm : mx <= m) by (destruct Hin as [<-|Hin]; auto).
      rewrite (cap_rows_ok usize us1 rs R1 hs mx); auto; [|nia]. cbn [bind].
      destruct (Nat.ltb_spec mx (length (flat hs))); [lia|]. auto.
    - rewrite (num_rows_ok usize us1 rs R1 hs Hw). cbn [bind].
      exists (map (fun _ => length (flat hs)) sizes). split; [|split].
      + rewrite (bytes_length usize us1 rs R1 hs Hw), div_of by auto. auto.
      + apply map_length.
      + intros c Hc. apply in_map_iff in Hc as (_ & <- & _). auto. }
  destruct H1 as (caps & H1 & Lc & Hc). cbv zeta in H1 |- *. rewrite H1. cbn [bind].
  destruct caps as [|c0 caps]; [discriminate|]. cbn [hd tl]. cbn [length] in Lc. injection Lc as Lc.
  assert (H2 : (if ext then unpack_more usize c0 size0 (bytes usize rs hs) (wls rs hs) 0 rs
               else unpack_int usize c0 size0 p_off (bytes usize rs hs) (wls rs hs) rs set_src) =
     Ok (map (fun x => nth 0 (unpk x) []) (flat hs))).
  { assert (C0 : length (flat hs) <= c0) by (apply Hc; left; auto).
    unfold unpk. unfold off1 in R2.
    destruct ext.
    - rewrite (unpack_more_ok usize us1 rs R1 c0 size0 0 hs Hw) by lia. f_equal. apply map_ext.
      intros [[t s] b]. auto.
    - specialize (poff_ok eq_refl).
      rewrite (unpack_int_ok usize us1 rs R1 c0 size0 p_off set_src hs Hw) by (auto; lia). f_equal. apply map_ext.
      intros [[t s] b]. auto. }
  rewrite H2. cbn [bind].
  rewrite (unpack_rest_ok usize us1 rs R1 hs Hw) by (auto; intros; apply Hc; right; auto). cbn [bind].
  unfold arrays. cbn [length seq map]. rewrite map_map. do 3 f_equal.
  rewrite <- seq_shift, map_map. apply map_ext. intros j. rewrite map_map. apply map_ext.
  intros [[t s] b]. unfold unpk. cbn [nth snd]. auto.
Qed.

(** ** All together *)
Variable T : nat -> list col.
Variable sc : nat -> scratch.
Variable maxs : nat -> list nat.
Hypothesis cols_ok : forall s, s < np -> columns_ok usize np ext p_off sizes (T s).
Hypothesis scr_ok : forall s, s < np -> scratch_for usize (length (T s)) rs (sc s).
Hypothesis tot_ok : total np T * (rs + 3) * usize < INT_MAX.
Hypothesis fix_ok : fixed = true -> forall r, r < np -> length (maxs r) = length sizes /\
  (forall m, In m (maxs r) -> length (sent_to np r fst (fun _ c => c) T) <= m) /\
  exists m, In m (maxs r) /\ m * rs < ulim usize.

Lemma len_le_total s : s < np -> length (T s) <= total np T.
Proof.
  intros Hs. unfold total. assert (H : In s (seq 0 np)) by (apply in_seq; lia).
  apply in_split in H as (l1 & l2 & ->). rewrite map_app, concat_app. cbn [map concat]. rewrite !app_length. lia.
Qed.

Lemma many_unfold s : s < np ->
  sarray_transfer_many usize INT_MAX np s sizes (maxs s) fixed ext set_src p_off (map fst (T s))
    (arrays (length sizes) (map snd (T s))) (sc s) =
  pbind (plift (
   perm <- sortp usize false (sc_perm (sc s)) (map N.of_nat (map fst (T s))) (sc_lo (sc s)) (sc_hi (sc s)) (sc_w (sc s)) ;;
   data <- (if ext then pack_ext usize s rs (hd [] (A (T s))) size0 (map fst (T s)) (sc_mem (sc s)) perm
            else pack_int usize s rs (hd [] (A (T s))) size0 p_off (sc_mem (sc s)) perm) ;;
   pack_rest usize data off1 rs (combine (tl (A (T s))) sizes') perm)) (fun data =>
   pbind (crystal_router dec (enc usize) usize INT_MAX np s (chunks usize data)) (fun ws =>
   plift (receive (maxs s) (concat ws)))).
Proof. reflexivity. Qed.

Theorem transfer_many_goes : exists out : nat -> list (list row),
  (forall r, r < np -> Permutation (out r) (sent_to np r fst (retag usize ext set_src p_off) T)) /\
  goes np (fun s => sarray_transfer_many usize INT_MAX np s sizes (maxs s) fixed ext set_src p_off (map fst (T s))
              (arrays (length sizes) (map snd (T s))) (sc s))
          (fun r => Ret (length (out r), arrays (length sizes) (out r))).
Proof.
  pose proof rs_pos as R1.
  (* messages packed by every process *)
  destruct (finite_choice (fun s ms =>
     (perm <- sortp usize false (sc_perm (sc s)) (map N.of_nat (map fst (T s))) (sc_lo (sc s)) (sc_hi (sc s)) (sc_w (sc s)) ;;
      data <- (if ext then pack_ext usize s rs (hd [] (A (T s))) size0 (map fst (T s)) (sc_mem (sc s)) perm
            else pack_int usize s rs (hd [] (A (T s))) size0 p_off (sc_mem (sc s)) perm) ;;
      pack_rest usize data off1 rs (combine (tl (A (T s))) sizes') perm) = Ok (bytes usize rs ms) /\
      Forall (wf usize rs) ms /\
      Permutation (pfx (off1 + sum sizes') ms) (map (fun c => (fst c, s, pk (snd c))) (T s))) [] np) as (M & HM).
  { intros s Hs. apply sender_ok; auto. eapply Nat.le_lt_trans; [|exact tot_ok]. do 2 apply Nat.mul_le_mono_r. apply len_le_total; auto. }
  assert (Wall : Forall (wf usize rs) (concat (map M (seq 0 np)))).
  { apply Forall_forall. intros m Hm. apply in_concat in Hm as (l & Hl & Hm). apply in_map_iff in Hl as (s & <- & Hs).
    apply in_seq in Hs. destruct (HM s) as (_ & W & _); [lia|]. rewrite Forall_forall in W. auto. }
  assert (Hpfx : Permutation (pfx (off1 + sum sizes') (concat (map M (seq 0 np))))
                   (concat (map (fun s => map (fun c => (fst c, s, pk (snd c))) (T s)) (seq 0 np)))).
  { unfold pfx, flat. revert HM. generalize np. clear. intros n0. induction n0 as [|k IH]; intros HM; [constructor|].
    rewrite seq_S, !map_app, !concat_app, !map_app, !concat_app, !map_app. apply Permutation_app.
    - apply IH. intros; apply HM; lia.
    - cbn [map concat Nat.add]. rewrite !app_nil_r. destruct (HM k) as (_ & _ & P); [lia|]. exact P. }
  (* the router *)
  assert (Etot : length (words (enc usize) (map (toMsg usize) (concat (map M (seq 0 np))))) <= total np T * (rs + 3)).
  { destruct (words_toMsg usize us1 rs R1 _ Wall) as (_ & -> & _).
    etransitivity; [apply (wls_le usize us1 rs R1 _ Wall)|]. apply Nat.mul_le_mono_r.
    apply Permutation_length in Hpfx. unfold pfx in Hpfx. rewrite map_length in Hpfx. rewrite Hpfx.
    unfold total. apply Nat.eq_le_incl. clear. induction (seq 0 np); simpl; auto. rewrite !app_length, map_length. lia. }
  assert (Eall : all_msgs np (fun s => map (toMsg usize) (M s)) = map (toMsg usize) (concat (map M (seq 0 np)))).
  { unfold all_msgs. rewrite concat_map, map_map. auto. }
  destruct (crystal_router_goes dec (enc usize) (ulim usize) (fun n H => dec_enc usize n H) usize INT_MAX np us1
              ltac:(lia) max_lim (fun s => map (toMsg usize) (M s))) as (wout & Hwout & Gr).
  { intros p x Hp Hx. apply in_map_iff in Hx as (m & <- & Hm).
    destruct (HM p Hp) as (_ & W & P). rewrite Forall_forall in W. destruct (W m Hm) as (_ & _ & Hne).
    destruct m as [[t s] bl]. cbn [toMsg m_target snd] in *.
    destruct bl as [|b bl]; [simpl in Hne; lia|].
    assert (Hin : In (t, s, firstn (off1 + sum sizes') b) (pfx (off1 + sum sizes') (M p))).
    { unfold pfx. apply in_map_iff. exists (t, s, b). split; auto. unfold flat. apply in_concat.
      exists (hrows (t, s, b :: bl)). split; [apply in_map; auto|left; auto]. }
    apply (Permutation_in _ P) in Hin. apply in_map_iff in Hin as (c & E & Hc). injection E as E _ _.
    destruct (cols_ok p Hp c Hc) as (Hlt & _). lia. }
  { rewrite Eall. nia. }
  (* what every process received *)
  destruct (finite_choice (fun r (ht : list hmsg * list (nat * col)) =>
     wout r = map (toMsg usize) (fst ht) /\ Forall (wf usize rs) (fst ht) /\
     pfx (off1 + sum sizes') (fst ht) = map (fun sc => (fst (snd sc), fst sc, pk (snd (snd sc)))) (snd ht) /\
     Permutation (snd ht) (concat (map (fun s => map (pair s) (filter (fun c => fst c =? r) (T s))) (seq 0 np))))
     ([], []) np) as (HT & HHT).
  { intros r Hr. specialize (Hwout r Hr). rewrite Eall in Hwout. unfold for_proc in Hwout.
    rewrite filter_map in Hwout. apply Permutation_map_inv in Hwout as (hs & E & Hp).
    assert (Hf : filter (fun x => m_target (toMsg usize x) =? r) (concat (map M (seq 0 np))) =
                 filter (fun m : hmsg => fst (fst m) =? r) (concat (map M (seq 0 np)))).
    { apply filter_ext. intros [[t s] bl]. auto. }
    rewrite Hf in Hp.
    assert (Q : Permutation (pfx (off1 + sum sizes') hs)
       (map (fun sc : nat * col => (fst (snd sc), fst sc, pk (snd (snd sc))))
         (concat (map (fun s => map (pair s) (filter (fun c => fst c =? r) (T s))) (seq 0 np))))).
    { transitivity (pfx (off1 + sum sizes') (filter (fun m : hmsg => fst (fst m) =? r) (concat (map M (seq 0 np))))).
      { unfold pfx. apply Permutation_map. apply flat_perm. symmetry. exact Hp. }
      unfold pfx. rewrite (flat_filter usize us1 rs R1).
      transitivity (filter (fun x : nat * nat * list byte => fst (fst x) =? r) (pfx (off1 + sum sizes') (concat (map M (seq 0 np))))).
      { unfold pfx. rewrite filter_map. perm_eq. f_equal. apply filter_ext. intros [[t s] b]. auto. }
      rewrite (Permutation_filter _ _ _ Hpfx). perm_eq.
      rewrite filter_concat, map_map, concat_map, map_map. f_equal. apply map_ext. intros s.
      rewrite filter_map, map_map. cbn [fst snd]. auto. }
    apply Permutation_map_inv in Q as (tl & E2 & Q). exists (hs, tl). cbn [fst snd]. repeat split; auto.
    - apply (Permutation_Forall Hp). apply Forall_forall. intros m Hm. apply filter_In in Hm as [Hm _].
      rewrite Forall_forall in Wall. auto.
    - symmetry. auto. }
  assert (Hin : forall r s c, r < np -> In (s, c) (snd (HT r)) -> s < np /\ In c (T s)).
  { intros r s c Hr Hi. destruct (HHT r Hr) as (_ & _ & _ & P). apply (Permutation_in _ P) in Hi.
    apply in_concat in Hi as (l & Hl & Hi). apply in_map_iff in Hl as (s1 & <- & Hs1). apply in_seq in Hs1.
    apply in_map_iff in Hi as (c1 & E & Hc1). injection E as -> ->. apply filter_In in Hc1 as [Hc1 _]. split; auto. lia. }
  set (out := fun r => map (fun sc : nat * col => retag usize ext set_src p_off (fst sc) (snd sc)) (snd (HT r))).
  assert (Hun : forall r, r < np -> map unpk (flat (fst (HT r))) = out r).
  { intros r Hr. destruct (HHT r Hr) as (_ & _ & P & _). unfold out.
    transitivity (map unpk (pfx (off1 + sum sizes') (fst (HT r)))).
    - unfold pfx. rewrite map_map. apply map_ext. intros [[t s] b]. symmetry. apply unpk_firstn.
    - rewrite P, map_map. apply map_ext_in. intros [s c] Hi. cbn [fst snd].
      destruct (Hin r s c Hr Hi) as [Hs Hc]. destruct (cols_ok s Hs c Hc) as (_ & H2 & _).
      apply unpk_pk. auto. }
  exists out. split.
  - intros r Hr. destruct (HHT r Hr) as (_ & _ & _ & P). unfold out, sent_to.
    rewrite (Permutation_map _ P). perm_eq. rewrite concat_map, map_map. f_equal. apply map_ext. intros s.
    rewrite map_map. auto.
  - eapply goes_trans.
    { apply (goes_ext np _ (fun s => pbind (crystal_router dec (enc usize) usize INT_MAX np s (words (enc usize) (map (toMsg usize) (M s))))
         (fun ws => plift (receive (maxs s) (concat ws))))).
      intros s Hs. rewrite many_unfold by auto. destruct (HM s Hs) as (-> & W & _). cbn [plift pbind].
      destruct (words_toMsg usize us1 rs R1 (M s) W) as (_ & _ & ->). auto. }
    eapply goes_trans; [apply goes_bind; exact Gr|].
    apply goes_ext. intros r Hr. destruct (HHT r Hr) as (-> & W & P & Q).
    destruct (words_toMsg usize us1 rs R1 _ W) as (-> & _ & _).
    rewrite receive_ok; auto.
    + cbn [plift]. rewrite (Hun r Hr). rewrite <- (Hun r Hr) at 1. rewrite map_length. auto.
    + intros t s b Hi.
      assert (Hi' : In (t, s, firstn (off1 + sum sizes') b) (pfx (off1 + sum sizes') (fst (HT r)))).
      { unfold pfx. apply in_map_iff. exists (t, s, b). auto. }
      rewrite P in Hi'. apply in_map_iff in Hi' as ([s1 c] & E & Hi'). injection E as E1 E2 _. cbn [fst snd] in *.
      destruct (Hin r s1 c Hr Hi') as [Hs Hc]. destruct (cols_ok s1 Hs c Hc) as (Hlt & _). lia.
    + intros Hfx. destruct (fix_ok Hfx r Hr) as (F1 & F2 & F3). split; auto. split; auto. intros m Hm.
      specialize (F2 m Hm). apply Permutation_length in Q.
      assert (L1 : length (flat (fst (HT r))) = length (snd (HT r))).
      { apply (f_equal (@length _)) in P. unfold pfx in P. rewrite !map_length in P. auto. }
      rewrite L1, Q. unfold sent_to in F2.
      etransitivity; [|exact F2]. apply Nat.eq_le_incl. clear.
      induction (seq 0 np); cbn [map concat]; auto. rewrite !app_length, !map_length. lia.
Qed.
End Top.
