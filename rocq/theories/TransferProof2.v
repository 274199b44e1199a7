(** Correctness of sarray_transfer_many, continued: the whole function on all processes. *)
From Verif Require Import Base BaseLemmas Sort SortSpec SortProof Net NetProof Crystal CrystalSpec CrystalProof
  Transfer TransferSpec TransferProof.
From Coq Require Import ZifyBool ZifyNat.
Ltac Zify.zify_post_hook ::= Z.div_mod_to_equations.

Lemma finite_choice {X} (R : nat -> X -> Prop) (x0 : X) n :
  (forall s, s < n -> exists x, R s x) -> exists f, forall s, s < n -> R s (f s).
Proof.
  induction n as [|n IH]; intros H; [exists (fun _ => x0); intros; lia|].
  destruct IH as [f Hf]; [intros; apply H; lia|]. destruct (H n) as [x Hx]; [lia|].
  exists (fun s => if s =? n then x else f s). intros s Hs.
  destruct (Nat.eqb_spec s n) as [->|Hn]; auto. apply Hf; lia.
Qed.

Lemma filter_map {A B} (f : A -> B) (p : B -> bool) l : filter p (map f l) = map f (filter (fun x => p (f x)) l).
Proof. induction l as [|x l IH]; simpl; auto. destruct (p (f x)); simpl; rewrite IH; auto. Qed.

Section TP2.
Variable usize : nat.
Hypothesis us1 : 1 <= usize.
Notation ulim := (ulim usize).
Notation enc := (enc usize).
Variable rs : nat.
Hypothesis rs1 : 1 <= rs.
Notation hbytes := (hbytes usize rs).
Notation bytes := (bytes usize rs).
Notation wl := (wl rs).
Notation wls := (wls rs).
Notation wf := (wf usize rs).
Notation wfb := (wfb usize rs).

(** ** Counting rows *)
Lemma sum_len_ok data : forall ms, Forall wf ms -> forall pre buf fuel n, data = pre ++ bytes ms -> length pre = buf * usize ->
  length ms < fuel ->
  sum_len usize fuel data buf (buf + wls ms) n = Ok (n + length (flat ms) * rs).
Proof.
  induction 1 as [|m ms Hm Hw IH]; intros pre buf fuel n E Hp Hf.
  - unfold TransferProof.wls. cbn. rewrite !Nat.add_0_r. destruct fuel; cbn; rewrite Nat.eqb_refl; auto.
  - destruct fuel as [|fuel]; [lia|]. cbn [length] in Hf.
    destruct m as [[t s0] bl]. destruct Hm as (Hm1 & Hm2 & Hm3). cbn [snd] in *.
    assert (Ew : wls (@cons hmsg (t, s0, bl) ms) = 3 + length bl * rs + wls ms) by reflexivity.
    assert (Ef : length (flat (@cons hmsg (t, s0, bl) ms)) = length bl + length (flat ms)).
    { unfold flat. cbn [map concat hrows]. rewrite app_length, map_length. auto. }
    cbn [sum_len]. destruct (Nat.eqb_spec buf (buf + wls (@cons hmsg (t, s0, bl) ms))); [lia|].
    assert (E' : data = pre ++ hbytes (t, s0, bl) ++ bytes ms) by exact E.
    rewrite (rdw_mid usize data (pre ++ enc t ++ enc s0) (length bl * rs) (concat bl ++ bytes ms) (buf + 2)); auto.
    2:{ rewrite E'. cbn [TransferProof.hbytes]. rewrite <- !app_assoc. auto. }
    2:{ rewrite !app_length, !enc_length. lia. }
    cbn [bind]. rewrite Ew.
    replace (buf + (3 + length bl * rs + wls ms)) with ((buf + length bl * rs + 3) + wls ms) by lia.
    rewrite (IH (pre ++ hbytes (t, s0, bl))).
    + rewrite Ef. f_equal. lia.
    + rewrite <- app_assoc. auto.
    + rewrite app_length, hbytes_length by auto. unfold TransferProof.wl. cbn [snd]. lia.
    + lia.
Qed.

Lemma num_rows_ok ms : Forall wf ms -> num_rows usize (bytes ms) rs = Ok (length (flat ms)).
Proof.
  intros H. unfold num_rows. rewrite (bytes_length usize us1 rs rs1 ms H) at 2. rewrite div_of by auto.
  pose proof (sum_len_ok (bytes ms) ms H [] 0 (S (length (bytes ms))) 0 eq_refl eq_refl (fuel_ok usize us1 rs rs1 ms H)) as E.
  cbn [Nat.add] in E. rewrite E. cbn [bind]. unfold udiv. destruct (Nat.eqb_spec rs 0); [lia|]. rewrite div_of; auto.
Qed.

Lemma cap_loop_ok data maxn : maxn < ulim -> forall ms, Forall wf ms -> forall pre buf fuel n,
  data = pre ++ bytes ms -> length pre = buf * usize -> length ms < fuel ->
  n + length (flat ms) * rs <= maxn ->
  cap_loop usize fuel data maxn buf (buf + wls ms) n = Ok (n + length (flat ms) * rs, data, buf + wls ms).
Proof.
  intros Hmax. induction 1 as [|m ms Hm Hw IH]; intros pre buf fuel n E Hp Hf Htot.
  - unfold TransferProof.wls. cbn. rewrite !Nat.add_0_r. destruct fuel; cbn; rewrite Nat.eqb_refl; auto.
  - destruct fuel as [|fuel]; [lia|]. cbn [length] in Hf.
    destruct m as [[t s0] bl]. destruct Hm as (Hm1 & Hm2 & Hm3). cbn [snd] in *.
    assert (Ew : wls (@cons hmsg (t, s0, bl) ms) = 3 + length bl * rs + wls ms) by reflexivity.
    assert (Ef : length (flat (@cons hmsg (t, s0, bl) ms)) = length bl + length (flat ms)).
    { unfold flat. cbn [map concat hrows]. rewrite app_length, map_length. auto. }
    cbn [cap_loop]. destruct (Nat.eqb_spec buf (buf + wls (@cons hmsg (t, s0, bl) ms))); [lia|].
    assert (E' : data = pre ++ hbytes (t, s0, bl) ++ bytes ms) by exact E.
    assert (E3 : data = (pre ++ enc t ++ enc s0) ++ enc (length bl * rs) ++ (concat bl ++ bytes ms)).
    { rewrite E'. cbn [TransferProof.hbytes]. rewrite <- !app_assoc. auto. }
    assert (L3 : length (pre ++ enc t ++ enc s0) = (buf + 2) * usize) by (rewrite !app_length, !enc_length; lia).
    rewrite (rdw_mid usize data (pre ++ enc t ++ enc s0) (length bl * rs) (concat bl ++ bytes ms) (buf + 2)); auto.
    cbn [bind]. rewrite Ef in Htot.
    assert (Hpre : length (pre ++ hbytes (t, s0, bl)) = (buf + length bl * rs + 3) * usize).
    { rewrite app_length, hbytes_length by auto. unfold TransferProof.wl. cbn [snd]. lia. }
    destruct (Nat.ltb_spec (n + length bl * rs) maxn).
    + rewrite Ew. replace (buf + (3 + length bl * rs + wls ms)) with ((buf + length bl * rs + 3) + wls ms) by lia.
      rewrite (IH (pre ++ hbytes (t, s0, bl))); auto.
      * rewrite Ef. do 2 f_equal. f_equal. lia.
      * rewrite <- app_assoc. auto.
      * lia.
      * lia.
    + (* n = maxn: nothing may be left *)
      assert (Hz : length (flat ms) = 0) by nia.
      assert (Hms : ms = []).
      { destruct ms as [|[[t1 s1] bl1] ms]; auto. inversion Hw as [|? ? Hx ?]; subst. destruct Hx as (_ & _ & Hx). cbn [snd] in Hx.
        unfold flat in Hz. cbn [map concat hrows] in Hz. rewrite app_length, map_length in Hz. lia. }
      subst ms. replace ((length bl * rs + (n + length bl * rs - maxn)) mod ulim) with (length bl * rs).
      2:{ replace (n + length bl * rs - maxn) with 0 by lia. rewrite Nat.add_0_r, Nat.mod_small; auto. }
      rewrite (wrw_mid usize data (pre ++ enc t ++ enc s0) (enc (length bl * rs)) (concat bl ++ bytes []) (buf + 2)); auto.
      2: apply enc_length.
      cbn [bind]. rewrite <- E3. rewrite Ew.
      replace (buf + (3 + length bl * rs + wls [])) with ((buf + length bl * rs + 3) + wls []) by lia.
      rewrite (sum_len_ok data [] (Forall_nil _) (pre ++ hbytes (t, s0, bl))); auto; [|rewrite <- app_assoc; auto|simpl; lia].
      cbn [bind]. rewrite Ef. change (length (flat [])) with 0.
      change (wls []) with 0.
      replace (n + length bl * rs + 0 * rs) with (n + (length bl + 0) * rs) by lia.
      replace (buf + 3 + length bl * rs) with (buf + length bl * rs + 3 + 0) by lia. auto.
Qed.

Lemma cap_rows_ok ms max : Forall wf ms -> max * rs < ulim -> length (flat ms) <= max ->
  cap_rows usize (bytes ms) rs max = Ok (length (flat ms), bytes ms, wls ms).
Proof.
  intros H Hm Hl. unfold cap_rows. rewrite Nat.mod_small by auto.
  rewrite (bytes_length usize us1 rs rs1 ms H) at 2. rewrite div_of by auto.
  pose proof (cap_loop_ok (bytes ms) (max * rs) Hm ms H [] 0 (S (length (bytes ms))) 0 eq_refl eq_refl
     (fuel_ok usize us1 rs rs1 ms H)) as E.
  cbn [Nat.add] in E. rewrite E by nia. cbn [bind]. unfold udiv. destruct (Nat.eqb_spec rs 0); [lia|].
  rewrite div_of; auto.
Qed.

(** ** Messages of the crystal router *)
Lemma chunks_concat ws : Forall (fun w => length w = usize) ws -> chunks usize (concat ws) = ws.
Proof.
  intros H. assert (L : length (concat ws) = length ws * usize).
  { induction H; simpl; auto. rewrite app_length. lia. }
  unfold chunks. rewrite L, div_of by auto. clear L.
  apply nth_error_ext. intros i. rewrite nth_error_map.
  destruct (lt_dec i (length ws)) as [Hi|Hi].
  - rewrite seq_nth_error by auto. cbn [option_map Nat.add]. revert i Hi.
    induction H as [|w ws Hw Hws IH]; intros i Hi; [simpl in Hi; lia|]. destruct i as [|i].
    + cbn [Nat.mul skipn concat nth_error]. f_equal. apply firstn_len. auto.
    + cbn [concat nth_error]. rewrite <- IH by (simpl in Hi; lia). f_equal. f_equal.
      replace (S i * usize) with (length w + i * usize) by lia.
      rewrite <- (skipn_skipn_add (i * usize) (length w)). rewrite (skipn_len w) by auto. auto.
  - rewrite !(proj2 (nth_error_None _ _)); auto; rewrite ?seq_length; lia.
Qed.

Lemma chunks_words b k : length b = k * usize ->
  concat (chunks usize b) = b /\ length (chunks usize b) = k /\ Forall (fun w => length w = usize) (chunks usize b).
Proof.
  intros H.
  assert (E : exists ws, b = concat ws /\ length ws = k /\ Forall (fun w => length w = usize) ws).
  { revert b H. induction k as [|k IH]; intros b H.
    - exists []. destruct b; [auto|discriminate].
    - destruct (IH (skipn usize b)) as (ws & E & L & F); [rewrite skipn_length; lia|].
      exists (firstn usize b :: ws). cbn [concat length]. rewrite <- E, firstn_skipn. repeat split; auto.
      constructor; auto. rewrite firstn_length. lia. }
  destruct E as (ws & -> & L & F). rewrite chunks_concat by auto. auto.
Qed.

Definition toMsg (m : hmsg) : msg (list byte) := let '(t, s, bl) := m in Msg t s (chunks usize (concat bl)).

Lemma toMsg_words m : wf m -> concat (msg_words enc (toMsg m)) = hbytes m /\
  length (msg_words enc (toMsg m)) = wl m /\ Forall (fun w => length w = usize) (msg_words enc (toMsg m)).
Proof.
  destruct m as [[t s] bl]. intros (H1 & _ & _). cbn [snd] in H1.
  destruct (chunks_words (concat bl) (length bl * rs) (concat_blocks usize us1 rs rs1 bl H1)) as (E1 & E2 & E3).
  unfold msg_words, toMsg, TransferProof.hbytes, TransferProof.wl. cbn [m_target m_source m_body concat length snd].
  rewrite E2, E1. repeat split; auto. repeat constructor; auto using enc_length.
Qed.

Lemma words_toMsg ms : Forall wf ms -> concat (words enc (map toMsg ms)) = bytes ms /\
  length (words enc (map toMsg ms)) = wls ms /\ chunks usize (bytes ms) = words enc (map toMsg ms).
Proof.
  intros H.
  assert (A : concat (words enc (map toMsg ms)) = bytes ms /\ length (words enc (map toMsg ms)) = wls ms /\
              Forall (fun w => length w = usize) (words enc (map toMsg ms))).
  { induction H as [|m ms Hm Hw (I1 & I2 & I3)]; [repeat split; constructor|].
    destruct (toMsg_words m Hm) as (M1 & M2 & M3).
    unfold words in *. cbn [map concat].
    rewrite concat_app, app_length, M1, M2, I1, I2. repeat split; auto. apply Forall_app; auto. }
  destruct A as (A1 & A2 & A3). repeat split; auto. rewrite <- A1. apply chunks_concat; auto.
Qed.

Lemma wls_le ms : Forall wf ms -> wls ms <= length (flat ms) * (rs + 3).
Proof.
  induction 1 as [|m ms Hm Hw IH]; [unfold TransferProof.wls; simpl; lia|].
  change (wls (m :: ms)) with (wl m + wls ms). destruct m as [[t s] bl]. destruct Hm as (_ & _ & H3).
  unfold flat in *. cbn [map concat hrows]. rewrite app_length, map_length.
  unfold TransferProof.wl. cbn [snd] in *. nia.
Qed.

Lemma flat_filter q ms : flat (filter (fun m : hmsg => fst (fst m) =? q) ms) =
  filter (fun x : nat * nat * list byte => fst (fst x) =? q) (flat ms).
Proof.
  unfold flat. induction ms as [|[[t s] bl] ms IH]; auto. cbn [filter map concat hrows fst]. rewrite filter_app.
  destruct (Nat.eqb_spec t q) as [E|E]; cbn [map concat hrows]; rewrite IH; f_equal.
  - induction bl; simpl; auto. destruct (Nat.eqb_spec t q); [|lia]. f_equal; auto.
  - induction bl; simpl; auto. destruct (Nat.eqb_spec t q); [lia|]. auto.
Qed.

Lemma flat_perm a b : Permutation a b -> Permutation (flat a) (flat b).
Proof. apply concat_map_perm. Qed.

(** ** pack_rest *)
Lemma pfx_more input off size ms ms' perm f :
  (forall pi, In pi perm -> length (nth pi input []) = size) -> off + size <= rs * usize -> Forall wf ms ->
  pfx off ms = map f perm -> flat ms' = map (newrow input off) (combine (flat ms) perm) ->
  pfx (off + size) ms' = map (fun pi => let '(t, s, c) := (f pi : nat * nat * list byte) in (t, s, c ++ nth pi input [])) perm.
Proof.
  intros Hs Ho Hw Hp Hf. unfold pfx in *. rewrite Hf. clear Hf.
  assert (Hb : forall t s b, In (t, s, b) (flat ms) -> length b = rs * usize).
  { intros t s b Hin. unfold flat in Hin. apply in_concat in Hin as (l & Hl & Hin).
    apply in_map_iff in Hl as ([[t1 s1] bl] & <- & Hl). cbn [hrows] in Hin. apply in_map_iff in Hin as (b1 & E & Hb1).
    injection E as -> -> ->. rewrite Forall_forall in Hw. destruct (Hw _ Hl) as (W & _). cbn [snd] in W.
    unfold TransferProof.wfb in W. rewrite Forall_forall in W. auto. }
  revert Hb Hp Hs. generalize (flat ms). intros fl. revert perm.
  induction fl as [|[[t s] b] fl IH]; intros [|pi perm] Hb Hp Hs; try discriminate; auto.
  cbn [combine map] in *. injection Hp as E1 E2. rewrite <- E1. f_equal.
  - cbn [newrow]. f_equal. unfold newb, over. specialize (Hs pi (or_introl eq_refl)).
    specialize (Hb t s b (or_introl eq_refl)).
    rewrite app_assoc. apply firstn_len. rewrite app_length, firstn_length. lia.
  - apply IH; auto.
    + intros t1 s1 b1 H1. apply (Hb t1 s1). right; auto.
    + intros p Hp. apply Hs. right; auto.
Qed.

Lemma pack_rest_ok perm n : (forall pi, In pi perm -> pi < n) ->
  forall (As : list (list row)) (sizes : list nat) off ms f, length As = length sizes ->
  (forall a k, In (a, k) (combine As sizes) -> length a = n /\ forall r, In r a -> length r = k) ->
  off + sum sizes <= rs * usize -> Forall wf ms -> pfx off ms = map f perm ->
  exists ms', pack_rest usize (bytes ms) off rs (combine As sizes) perm = Ok (bytes ms') /\ Forall wf ms' /\
    pfx (off + sum sizes) ms' =
    map (fun pi => let '(t, s, c) := (f pi : nat * nat * list byte) in
                   (t, s, c ++ concat (map (fun a => nth pi a []) As))) perm.
Proof.
  intros Hperm. induction As as [|a As IH]; intros [|k sizes] off ms f Hl Ha Ho Hw Hp; try discriminate.
  - exists ms. cbn [combine pack_rest sum fold_right map concat]. rewrite Nat.add_0_r. split; auto. split; auto.
    rewrite Hp. apply map_ext. intros pi. destruct (f pi) as [[t s] c]. rewrite app_nil_r; auto.
  - cbn [length] in Hl. injection Hl as Hl. cbn [combine pack_rest].
    destruct (Ha a k (or_introl eq_refl)) as [Ha1 Ha2].
    assert (Hk : forall pi, In pi perm -> length (nth pi a []) = k).
    { intros pi Hpi. apply Ha2, nth_In. rewrite Ha1. auto. }
    change (sum (k :: sizes)) with (k + sum sizes) in *.
    destruct (Nat.eqb_spec k 0) as [->|Hk0].
    + destruct (IH sizes off ms f Hl) as (ms' & E & W & Pf); auto.
      { intros a1 k1 H1. apply Ha. right; auto. }
      exists ms'. split; auto. split; auto. cbn [Nat.add]. rewrite Pf. apply map_ext_in. intros pi Hpi.
      destruct (f pi) as [[t s] c]. cbn [map concat]. specialize (Hk pi Hpi).
      destruct (nth pi a []); [auto|discriminate].
    + assert (Hlp : length perm = length (flat ms)).
      { apply (f_equal (@length _)) in Hp. unfold pfx in Hp. rewrite !map_length in Hp. auto. }
      destruct (pack_more_ok usize us1 rs rs1 a off k ltac:(lia) Ha2 ms perm Hw Hlp) as (ms1 & E1 & W1 & F1).
      { intros pi Hpi. rewrite Ha1. auto. }
      rewrite E1. cbn [bind].
      pose proof (pfx_more a off k ms ms1 perm f Hk ltac:(lia) Hw Hp F1) as P1.
      destruct (IH sizes (off + k) ms1 (fun pi => let '(t, s, c) := (f pi : nat * nat * list byte) in (t, s, c ++ nth pi a [])) Hl) as (ms' & E & W & Pf); [| |exact W1|exact P1|].
      { intros a1 k1 H1. apply Ha. right; auto. } { lia. }
      exists ms'. split; auto. split; auto. rewrite Nat.add_assoc, Pf. apply map_ext. intros pi.
      destruct (f pi) as [[t s] c]. cbn [map concat]. rewrite app_assoc. auto.
Qed.

(** ** unpack_rest *)
Fixpoint cut (off : nat) (sizes : list nat) (b : list byte) : list row :=
  match sizes with
  | [] => []
  | k :: sizes' => firstn k (skipn off b) :: cut (off + k) sizes' b
  end.

Lemma unpack_rest_ok ms : Forall wf ms -> forall sizes caps off, length caps = length sizes ->
  (forall c, In c caps -> length (flat ms) <= c) -> off + sum sizes <= rs * usize ->
  unpack_rest usize (bytes ms) (wls ms) off rs (length (flat ms)) (combine caps sizes) =
  Ok (map (fun j => map (fun x : nat * nat * list byte => nth j (cut off sizes (snd x)) []) (flat ms)) (seq 0 (length sizes))).
Proof.
  intros Hw. induction sizes as [|k sizes IH]; intros [|c caps] off Hl Hc Ho; try discriminate; auto.
  cbn [length] in Hl. injection Hl as Hl. cbn [combine unpack_rest].
  change (sum (k :: sizes)) with (k + sum sizes) in Ho.
  assert (Es : forall (g : nat -> list row), map g (seq 0 (length (k :: sizes))) = g 0 :: map (fun j => g (S j)) (seq 0 (length sizes))).
  { intros g. cbn [length seq map]. f_equal. rewrite <- seq_shift, map_map. auto. }
  destruct (Nat.eqb_spec k 0) as [->|Hk].
  - rewrite IH; auto; [|intros; apply Hc; right; auto]. cbn [bind]. rewrite Es. do 2 f_equal.
    + cbn [cut nth firstn]. clear. induction (flat ms); simpl; f_equal; auto.
    + apply map_ext. intros j. apply map_ext. intros x. cbn [cut nth]. rewrite Nat.add_0_r. auto.
  - rewrite (unpack_more_ok usize us1 rs rs1 c k off ms Hw); [|lia|apply Hc; left; auto]. cbn [bind].
    rewrite IH; auto; [|intros; apply Hc; right; auto|lia]. cbn [bind]. rewrite Es. auto.
Qed.

Lemma cut_firstn B : forall sizes off b, off + sum sizes <= B -> cut off sizes (firstn B b) = cut off sizes b.
Proof.
  induction sizes as [|k sizes IH]; intros off b H; auto. change (sum (k :: sizes)) with (k + sum sizes) in H.
  cbn [cut]. f_equal; [|apply IH; lia].
  rewrite skipn_firstn_comm, firstn_firstn. f_equal. lia.
Qed.

Lemma cut_concat : forall sizes rows pre, Forall2 (fun r k => length r = k) rows sizes ->
  cut (length pre) sizes (pre ++ concat rows) = rows.
Proof.
  intros sizes rows pre H. revert pre. induction H as [|r k rows sizes Hr H IH]; intros pre; auto.
  cbn [cut concat]. rewrite skipn_len by auto. rewrite firstn_len by auto. f_equal.
  specialize (IH (pre ++ r)). rewrite app_length, Hr, <- app_assoc in IH. auto.
Qed.
End TP2.
