(** Correctness of sarray_transfer_many. *)
From Verif Require Import Base BaseLemmas Sort SortSpec SortProof Net NetProof Crystal CrystalSpec CrystalProof
  Transfer TransferSpec.
From Coq Require Import ZifyBool ZifyNat.
Ltac Zify.zify_post_hook ::= Z.div_mod_to_equations.

(** ** Bytes *)
Lemma enc_length k : forall n, length (enc k n) = k.
Proof. induction k; intros n; simpl; auto. Qed.
Lemma dec_enc k : forall n, n < 256 ^ k -> dec (enc k n) = n.
Proof.
  induction k as [|k IH]; intros n H; cbn [enc dec].
  - simpl in H. lia.
  - rewrite Nat.pow_succ_r' in H. rewrite IH; [lia|]. apply Nat.div_lt_upper_bound; lia.
Qed.
Lemma enc_dec bs : (forall b, In b bs -> b < 256) -> enc (length bs) (dec bs) = bs.
Proof.
  induction bs as [|b bs IH]; intros H; cbn [length enc dec]; auto.
  assert (b < 256) by (apply H; left; auto).
  replace ((b + 256 * dec bs) mod 256) with b by lia.
  replace ((b + 256 * dec bs) / 256) with (dec bs) by lia.
  rewrite IH; auto. intros x Hx; apply H; right; auto.
Qed.
Lemma dec_lt bs : (forall b, In b bs -> b < 256) -> dec bs < 256 ^ length bs.
Proof.
  induction bs as [|b bs IH]; intros H; cbn [length dec]; [simpl; lia|].
  assert (b < 256) by (apply H; left; auto). rewrite Nat.pow_succ_r'.
  assert (dec bs < 256 ^ length bs) by (apply IH; intros x Hx; apply H; right; auto). nia.
Qed.

Lemma firstn_len {A} (l1 l2 : list A) n : n = length l1 -> firstn n (l1 ++ l2) = l1.
Proof. intros ->. rewrite firstn_app, Nat.sub_diag, firstn_all, firstn_O, app_nil_r. auto. Qed.
Lemma skipn_len {A} (l1 l2 : list A) n : n = length l1 -> skipn n (l1 ++ l2) = l2.
Proof. intros ->. rewrite skipn_app, Nat.sub_diag, skipn_all, skipn_O. auto. Qed.

Lemma skipn_skipn_add {A} a b (l : list A) : skipn a (skipn b l) = skipn (b + a) l.
Proof. revert l; induction b as [|b IH]; intros l; auto. destruct l; simpl; auto. apply skipn_nil. Qed.

Lemma slice_mid l a b c off len : l = a ++ b ++ c -> off = length a -> len = length b -> slice l off len = Ok b.
Proof.
  intros -> -> ->. unfold slice. rewrite !app_length.
  destruct (Nat.leb_spec (length a + length b) (length a + (length b + length c))); [|lia].
  rewrite skipn_len, firstn_len by auto. auto.
Qed.
Lemma blit_mid l a b c off x : l = a ++ b ++ c -> off = length a -> length x = length b ->
  blit l off x = Ok (a ++ x ++ c).
Proof.
  intros -> -> H. unfold blit. rewrite !app_length.
  destruct (Nat.leb_spec (length a + length x) (length a + (length b + length c))); [|lia].
  rewrite firstn_len by auto. do 3 f_equal. rewrite app_assoc. apply skipn_len. rewrite app_length; lia.
Qed.

Lemma div_of a b : 1 <= b -> a * b / b = a.
Proof. intros. apply Nat.div_mul. lia. Qed.

Section TP.
Variable usize : nat.
Hypothesis us1 : 1 <= usize.
Notation ulim := (ulim usize).
Notation rdw := (rdw usize).
Notation wrw := (wrw usize).
Notation enc := (enc usize).
Variable rs : nat.           (** row_size *)
Hypothesis rs1 : 1 <= rs.

Definition hmsg : Type := nat * nat * list (list byte).
Definition hbytes (m : hmsg) : list byte :=
  let '(t, s, bl) := m in enc t ++ enc s ++ enc (length bl * rs) ++ concat bl.
Definition bytes (ms : list hmsg) : list byte := concat (map hbytes ms).
Definition hrows (m : hmsg) : list (nat * nat * list byte) := let '(t, s, bl) := m in map (fun b => (t, s, b)) bl.
Definition flat (ms : list hmsg) := concat (map hrows ms).
Definition wl (m : hmsg) : nat := 3 + length (snd m) * rs.
Definition wls (ms : list hmsg) : nat := sum (map wl ms).
Definition wfb (bl : list (list byte)) : Prop := Forall (fun b => length b = rs * usize) bl.
Definition wf (m : hmsg) : Prop := wfb (snd m) /\ length (snd m) * rs < ulim /\ 1 <= length (snd m).

Lemma concat_blocks bl : wfb bl -> length (concat bl) = length bl * rs * usize.
Proof. induction 1; simpl; auto. rewrite app_length. lia. Qed.
Lemma hbytes_length m : wfb (snd m) -> length (hbytes m) = wl m * usize.
Proof.
  destruct m as [[t s] bl]. unfold hbytes, wl. cbn [snd]. intros H.
  rewrite !app_length, !enc_length, (concat_blocks bl H). lia.
Qed.
Lemma bytes_length ms : Forall wf ms -> length (bytes ms) = wls ms * usize.
Proof.
  induction 1 as [|m ms [H _] _ IH]; unfold bytes, wls in *; cbn [map concat sum fold_right]; auto.
  rewrite app_length, hbytes_length by auto. unfold sum in IH. lia.
Qed.
Lemma bytes_app a b : bytes (a ++ b) = bytes a ++ bytes b.
Proof. unfold bytes. rewrite map_app, concat_app. auto. Qed.
Lemma flat_app a b : flat (a ++ b) = flat a ++ flat b.
Proof. unfold flat. rewrite map_app, concat_app. auto. Qed.
Lemma bytes_one m : bytes [m] = hbytes m.
Proof. unfold bytes. simpl. apply app_nil_r. Qed.
Lemma flat_one m : flat [m] = hrows m.
Proof. unfold flat. simpl. apply app_nil_r. Qed.
Lemma wls_app a b : wls (a ++ b) = wls a + wls b.
Proof. unfold wls. induction a; simpl; auto. unfold sum in *. lia. Qed.

Lemma rdw_mid l a n c k : l = a ++ enc n ++ c -> length a = k * usize -> n < ulim -> rdw l k = Ok n.
Proof.
  intros -> Ha Hn. unfold Transfer.rdw. rewrite (slice_mid _ a (enc n) c); auto; [|rewrite enc_length; auto].
  cbn [bind]. rewrite dec_enc; auto.
Qed.
Lemma wrw_mid l a b c k n : l = a ++ b ++ c -> length a = k * usize -> length b = usize ->
  wrw l k n = Ok (a ++ enc n ++ c).
Proof. intros -> Ha Hb. unfold Transfer.wrw. apply (blit_mid _ a b c); auto. rewrite enc_length; auto. Qed.

(** ** Packing *)
Section Pack.
Variable id : nat.
Variable off1 : nat.
Hypothesis off1_le : off1 <= rs * usize.
Variable P : nat -> nat.               (** target of input row pi *)
Variable C : nat -> list byte.         (** what is copied for it *)
Variable get_p : nat -> res nat.
Variable copies : nat -> res (list (nat * list byte)).
Variable n : nat.
Hypothesis get_p_ok : forall pi, pi < n -> get_p pi = Ok (P pi).
Hypothesis P_lt : forall pi, pi < n -> P pi < ulim - 1.
Hypothesis copies_ok : forall pi, pi < n -> exists cs, copies pi = Ok cs /\
  forall out pre b post, length pre = out * usize -> length b = rs * usize ->
  exists b', foldM (fun m (c : nat * list byte) => blit m (out * usize + fst c) (snd c)) cs (pre ++ b ++ post) =
    Ok (pre ++ b' ++ post) /\ length b' = rs * usize /\ firstn off1 b' = C pi.

Definition pfx k (ms : list hmsg) := map (fun x : nat * nat * list byte => let '(t, s, b) := x in (t, s, firstn k b)) (flat ms).

Definition open (mem : list byte) (out : nat) (lenp : option nat) (lp len : nat) (done : list nat) : Prop :=
  exists ms0 bl L rest,
    mem = bytes ms0 ++ enc lp ++ enc id ++ L ++ concat bl ++ rest /\
    length L = usize /\ lenp = Some (wls ms0 + 2) /\ out = wls ms0 + 3 + length bl * rs /\
    len = length bl * rs /\ wfb bl /\ Forall wf ms0 /\
    pfx off1 (ms0 ++ [(lp, id, bl)]) = map (fun pi => (P pi, id, C pi)) done.

Definition pinv (M : nat) (s : pack_state) (done : list nat) : Prop :=
  let '(mem, out, lenp, lp, len) := s in
  length mem = M /\ out <= length done * (rs + 3) /\
  ((done = [] /\ out = 0 /\ lenp = None /\ lp = ulim - 1 /\ len = 0) \/
   (open mem out lenp lp len done /\ len <> 0)).

Lemma flat_length_open ms0 lp bl done :
  pfx off1 (ms0 ++ [(lp, id, bl)]) = map (fun pi => (P pi, id, C pi)) done -> length bl <= length done.
Proof.
  intros H. apply (f_equal (@length _)) in H. unfold pfx in H.
  rewrite !map_length, flat_app, app_length, flat_one in H. unfold hrows in H. rewrite map_length in H. lia.
Qed.

Lemma pack_step_inv M s done pi : pi < n -> pinv M s done -> (length done + 1) * (rs + 3) * usize <= M ->
  length done * rs < ulim -> exists s', pack_step usize id rs get_p copies s pi = Ok s' /\ pinv M s' (done ++ [pi]).
Proof.
  destruct s as [[[[mem out] lenp] lp] len]. intros Hpi (HM & Hout & Hinv) Hroom HMl.
  unfold pack_step. rewrite get_p_ok by auto. cbn [bind].
  pose proof (P_lt pi Hpi) as HP.
  (* header *)
  assert (Hhdr : exists mem1 out1 lenp1 len1,
     (if P pi =? lp then Ok (mem, out, lenp, lp, len)
      else
       mem <- match lenp with None => Ok mem | Some k => wrw mem k len end ;;
       mem <- wrw mem out (P pi) ;;
       mem <- wrw mem (out + 1) id ;;
       Ok (mem, out + 3, Some (out + 2), P pi, 0)) = Ok (mem1, out1, lenp1, P pi, len1) /\
     length mem1 = M /\ out1 <= length done * (rs + 3) + 3 /\ open mem1 out1 lenp1 (P pi) len1 done).
  { destruct Hinv as [(-> & -> & -> & -> & ->)|[Ho Hne]].
    - destruct (Nat.eqb_spec (P pi) (ulim - 1)); [lia|]. cbn [bind].
      cbn [length] in Hroom.
      assert (H3 : 3 * usize <= length mem) by nia.
      set (b1 := firstn usize mem). set (b2 := firstn usize (skipn usize mem)).
      set (b3 := firstn usize (skipn (2 * usize) mem)). set (r3 := skipn (3 * usize) mem).
      assert (E : mem = b1 ++ b2 ++ b3 ++ r3).
      { unfold b1, b2, b3, r3. rewrite <- (firstn_skipn usize mem) at 1. f_equal.
        rewrite <- (firstn_skipn usize (skipn usize mem)) at 1. f_equal.
        rewrite skipn_skipn_add. replace (usize + usize) with (2 * usize) by lia.
        rewrite <- (firstn_skipn usize (skipn (2 * usize) mem)) at 1. f_equal.
        rewrite skipn_skipn_add. f_equal. lia. }
      assert (L1 : length b1 = usize) by (unfold b1; rewrite firstn_length; lia).
      assert (L2 : length b2 = usize) by (unfold b2; rewrite firstn_length, skipn_length; lia).
      assert (L3 : length b3 = usize) by (unfold b3; rewrite firstn_length, skipn_length; lia).
      rewrite (wrw_mid mem [] b1 (b2 ++ b3 ++ r3) 0 (P pi)) by auto. cbn [bind app].
      rewrite (wrw_mid _ (enc (P pi)) b2 (b3 ++ r3) (0 + 1) id); auto; [|rewrite enc_length; lia]. cbn [bind].
      do 4 eexists. split; [reflexivity|]. split; [|split].
      + rewrite E in HM. rewrite !app_length in *. rewrite !enc_length. lia.
      + lia.
      + exists [], [], b3, r3. cbn [concat app]. split; [reflexivity|]. split; auto.
        unfold wls, sum. simpl. repeat split; auto; constructor.
    - destruct (Nat.eqb_spec (P pi) lp) as [->|Hd].
      { exists mem, out, lenp, len. repeat split; auto; try lia. }
      destruct Ho as (ms0 & bl & L & rest & Em & HL & -> & Eout & -> & Hbl & Hms & Hp).
      cbn [bind].
      assert (Lb : length (bytes ms0) = wls ms0 * usize) by (apply bytes_length; auto).
      assert (Lc : length (concat bl) = length bl * rs * usize) by (apply concat_blocks; auto).
      rewrite (wrw_mid mem (bytes ms0 ++ enc lp ++ enc id) L (concat bl ++ rest) (wls ms0 + 2)).
      2:{ rewrite Em, <- !app_assoc. auto. }
      2:{ rewrite !app_length, !enc_length. lia. }
      2: auto.
      cbn [bind].
      set (ms1 := ms0 ++ [(lp, id, bl)]).
      assert (W1 : wfb bl /\ length bl * rs < ulim /\ 1 <= length bl).
      { split; [auto|]. split; [|destruct bl; simpl in *; lia].
        apply flat_length_open in Hp. nia. }
      assert (Hms1 : Forall wf ms1) by (apply Forall_app; split; auto).
      assert (Eb1 : bytes ms1 = bytes ms0 ++ enc lp ++ enc id ++ enc (length bl * rs) ++ concat bl).
      { unfold ms1. rewrite bytes_app, bytes_one. reflexivity. }
      assert (Ew1 : wls ms1 = wls ms0 + 3 + length bl * rs).
      { unfold ms1. rewrite wls_app. unfold wls at 2, sum, wl. simpl. lia. }
      replace ((bytes ms0 ++ enc lp ++ enc id) ++ enc (length bl * rs) ++ concat bl ++ rest) with (bytes ms1 ++ rest)
        by (rewrite Eb1, <- !app_assoc; auto).
      assert (Lb1 : length (bytes ms1) = wls ms1 * usize) by (apply bytes_length; auto).
      assert (HM1 : length (bytes ms1 ++ rest) = M).
      { rewrite app_length, Lb1, Ew1. rewrite Em, !app_length, !enc_length in HM. lia. }
      assert (H3 : 3 * usize <= length rest).
      { rewrite app_length, Lb1, Ew1, <- Eout in HM1. nia. }
      set (b1 := firstn usize rest). set (b2 := firstn usize (skipn usize rest)).
      set (b3 := firstn usize (skipn (2 * usize) rest)). set (r3 := skipn (3 * usize) rest).
      assert (E : rest = b1 ++ b2 ++ b3 ++ r3).
      { unfold b1, b2, b3, r3. rewrite <- (firstn_skipn usize rest) at 1. f_equal.
        rewrite <- (firstn_skipn usize (skipn usize rest)) at 1. f_equal.
        rewrite skipn_skipn_add. replace (usize + usize) with (2 * usize) by lia.
        rewrite <- (firstn_skipn usize (skipn (2 * usize) rest)) at 1. f_equal.
        rewrite skipn_skipn_add. f_equal. lia. }
      assert (L1 : length b1 = usize) by (unfold b1; rewrite firstn_length; lia).
      assert (L2 : length b2 = usize) by (unfold b2; rewrite firstn_length, skipn_length; lia).
      assert (L3 : length b3 = usize) by (unfold b3; rewrite firstn_length, skipn_length; lia).
      rewrite (wrw_mid (bytes ms1 ++ rest) (bytes ms1) b1 (b2 ++ b3 ++ r3) out (P pi)); auto; [|rewrite E; auto|lia].
      cbn [bind].
      rewrite (wrw_mid _ (bytes ms1 ++ enc (P pi)) b2 (b3 ++ r3) (out + 1) id); auto;
        [|rewrite <- !app_assoc; auto|rewrite app_length, enc_length; lia].
      cbn [bind]. do 4 eexists. split; [reflexivity|]. split; [|split].
      + rewrite E in HM1. rewrite !app_length in *. rewrite !enc_length. lia.
      + lia.
      + exists ms1, [], b3, r3. cbn [concat app length]. rewrite <- !app_assoc. split; [reflexivity|].
        split; auto. split; [rewrite Eout, Ew1; f_equal; lia|]. split; [lia|]. split; [lia|].
        split; [constructor|]. split; auto.
        unfold pfx in *. rewrite flat_app, flat_one. cbn [hrows map]. rewrite app_nil_r. auto. }
  destruct Hhdr as (mem1 & out1 & lenp1 & len1 & -> & HM1 & Hout1 & ms0 & bl & L & rest & Em & HL & Elp & Eout & Elen & Hbl & Hms & Hp).
  cbn [bind]. destruct (copies_ok pi Hpi) as (cs & -> & Hcs). cbn [bind].
  assert (Lb : length (bytes ms0) = wls ms0 * usize) by (apply bytes_length; auto).
  assert (Lc : length (concat bl) = length bl * rs * usize) by (apply concat_blocks; auto).
  assert (Hr : rs * usize <= length rest).
  { rewrite Em, !app_length, !enc_length in HM1. nia. }
  set (b := firstn (rs * usize) rest). set (r1 := skipn (rs * usize) rest).
  assert (E : rest = b ++ r1) by (unfold b, r1; rewrite firstn_skipn; auto).
  assert (Hb : length b = rs * usize) by (unfold b; rewrite firstn_length; lia).
  set (pre := bytes ms0 ++ enc (P pi) ++ enc id ++ L ++ concat bl).
  assert (Hpre : length pre = out1 * usize).
  { unfold pre. rewrite !app_length, !enc_length. lia. }
  assert (Em' : mem1 = pre ++ b ++ r1) by (rewrite Em, E; unfold pre; rewrite <- !app_assoc; auto).
  rewrite Em'. destruct (Hcs out1 pre b r1 Hpre Hb) as (b' & -> & Hb' & Hf). cbn [bind].
  eexists. split; [reflexivity|]. split; [|split].
  - rewrite <- HM1, Em', !app_length. lia.
  - rewrite app_length. cbn [length]. lia.
  - right. split; [|lia]. exists ms0, (bl ++ [b']), L, r1.
    split; [unfold pre; rewrite concat_app; cbn [concat]; rewrite app_nil_r, <- !app_assoc; auto|].
    split; auto. split; auto. rewrite app_length. cbn [length]. split; [lia|]. split; [lia|].
    split; [apply Forall_app; split; auto|]. split; auto.
    rewrite map_app. cbn [map].
    unfold pfx in *. rewrite flat_app, flat_one in *. cbn [hrows] in *.
    rewrite map_app, map_map in *. rewrite map_app. cbn [map]. rewrite Hf. rewrite app_assoc, Hp. auto.
Qed.

Lemma pack_body_ok mem perm : (forall pi, In pi perm -> pi < n) ->
  length perm * (rs + 3) * usize <= length mem -> length perm * rs < ulim ->
  exists ms, pack_body usize id rs get_p copies mem perm = Ok (bytes ms) /\ Forall wf ms /\
    pfx off1 ms = map (fun pi => (P pi, id, C pi)) perm.
Proof.
  intros Hperm Hroom Hl. unfold pack_body.
  assert (H : forall l done s, pinv (length mem) s done -> (forall pi, In pi l -> pi < n) ->
    (length done + length l) * (rs + 3) * usize <= length mem -> (length done + length l) * rs < ulim ->
    exists s', foldM (pack_step usize id rs get_p copies) l s = Ok s' /\ pinv (length mem) s' (done ++ l)).
  { induction l as [|pi l IH]; intros done s Hs Hp Hr Hl1.
    - exists s. rewrite app_nil_r. auto.
    - cbn [length] in Hr. destruct (pack_step_inv (length mem) s done pi) as (s1 & E1 & I1); auto.
      { apply Hp; left; auto. } { nia. } { cbn [length] in Hl1. nia. }
      cbn [foldM]. rewrite E1. cbn [bind].
      destruct (IH (done ++ [pi]) s1 I1) as (s2 & E2 & I2); [intros; apply Hp; right; auto| | |].
      { rewrite app_length. cbn [length]. nia. }
      { rewrite app_length. cbn [length] in *. nia. }
      exists s2. rewrite <- app_assoc in I2. auto. }
  destruct (H perm [] (mem, 0, None, ulim - 1, 0)) as ([[[[mem1 out] lenp] lp] len] & -> & HM & Hout & HI).
  { unfold pinv. split; auto. split; [cbn [length]; lia|]. left; repeat split; auto. } { auto. } { cbn [length]. lia. } { cbn [length]. lia. }
  cbn [bind]. cbn [app] in *. destruct HI as [(-> & -> & -> & -> & ->)|[Ho Hne]].
  - exists []. cbn. split; auto.
  - destruct Ho as (ms0 & bl & L & rest & Em & HL & -> & Eout & -> & Hbl & Hms & Hp).
    assert (Lb : length (bytes ms0) = wls ms0 * usize) by (apply bytes_length; auto).
    assert (Lc : length (concat bl) = length bl * rs * usize) by (apply concat_blocks; auto).
    rewrite (wrw_mid mem1 (bytes ms0 ++ enc lp ++ enc id) L (concat bl ++ rest) (wls ms0 + 2)).
    2:{ rewrite Em, <- !app_assoc. auto. }
    2:{ rewrite !app_length, !enc_length. lia. }
    2: auto.
    cbn [bind].
    set (ms1 := ms0 ++ [(lp, id, bl)]).
    assert (W1 : wfb bl /\ length bl * rs < ulim /\ 1 <= length bl).
    { split; [auto|]. split; [|destruct bl; simpl in *; lia].
      apply flat_length_open in Hp. nia. }
    assert (Hms1 : Forall wf ms1) by (apply Forall_app; split; auto).
    assert (Eb1 : bytes ms1 = bytes ms0 ++ enc lp ++ enc id ++ enc (length bl * rs) ++ concat bl).
    { unfold ms1. rewrite bytes_app, bytes_one. reflexivity. }
    exists ms1. split; [|split; auto].
    replace ((bytes ms0 ++ enc lp ++ enc id) ++ enc (length bl * rs) ++ concat bl ++ rest) with (bytes ms1 ++ rest)
        by (rewrite Eb1, <- !app_assoc; auto).
    rewrite firstn_len; auto. rewrite bytes_length by auto. unfold ms1. rewrite wls_app.
    unfold wls at 2, sum, wl. simpl. lia.
Qed.
End Pack.

(** ** Walking over the messages *)
Lemma row_loop_const {S} (data : list byte) (body : nat -> S -> res S) (g : S -> list byte -> res S) (Q : list byte -> Prop) :
  (forall pre b post buf st, data = pre ++ b ++ post -> length pre = buf * usize -> length b = rs * usize ->
     Q b -> body buf st = g st b) ->
  forall bl, wfb bl -> (forall b, In b bl -> Q b) -> forall pre post buf fuel s,
  data = pre ++ concat bl ++ post -> length pre = buf * usize -> length bl <= fuel ->
  row_loop fuel rs body buf (buf + length bl * rs) s = (s' <- foldM g bl s ;; Ok (buf + length bl * rs, s')).
Proof.
  intros Hb. induction 1 as [|b bl Hbl Hw IH]; intros HQ pre post buf fuel s E Hp Hf.
  - cbn [length Nat.mul foldM bind]. rewrite Nat.add_0_r. destruct fuel; cbn [row_loop]; rewrite Nat.eqb_refl; auto.
  - cbn [length] in *. destruct fuel as [|fuel]; [lia|]. cbn [row_loop].
    destruct (Nat.eqb_spec buf (buf + Datatypes.S (length bl) * rs)); [nia|].
    cbn [concat] in E. rewrite <- app_assoc in E.
    rewrite (Hb pre b (concat bl ++ post) buf s E Hp Hbl) by (apply HQ; left; auto).
    cbn [foldM]. destruct (g s b) as [s1| | |]; auto. cbn [bind].
    replace (buf + Datatypes.S (length bl) * rs) with ((buf + rs) + length bl * rs) by lia.
    apply (IH (fun x Hx => HQ x (or_intror Hx)) (pre ++ b) post); [rewrite <- app_assoc; auto| |lia].
    rewrite app_length. lia.
Qed.

Lemma foldM_bind_app {A S} (f : S -> A -> res S) l1 l2 s :
  foldM f (l1 ++ l2) s = (s' <- foldM f l1 s ;; foldM f l2 s').
Proof.
  revert s; induction l1 as [|x l1 IH]; intros s; cbn [app foldM]; auto. destruct (f s x); cbn [bind]; auto.
Qed.

Lemma foldM_map {A B S} (h : A -> B) (f : S -> B -> res S) l s :
  foldM f (map h l) s = foldM (fun s a => f s (h a)) l s.
Proof. revert s; induction l as [|x l IH]; intros s; cbn; auto. destruct (f s (h x)); cbn; auto. Qed.

Lemma msg_loop_const {S} (data : list byte) (body : nat -> nat -> S -> res S)
    (g : S -> nat * nat * list byte -> res S) (Q : nat * nat * list byte -> Prop) :
  (forall t s bl pre1 post1 hdr pre b post buf st, data = pre1 ++ hbytes (t, s, bl) ++ post1 ->
     length pre1 = hdr * usize ->
     data = pre ++ b ++ post -> length pre = buf * usize -> length b = rs * usize -> Q (t, s, b) ->
     body hdr buf st = g st (t, s, b)) ->
  forall ms, Forall wf ms -> (forall x, In x (flat ms) -> Q x) -> forall pre buf fuel s,
  data = pre ++ bytes ms -> length pre = buf * usize -> length ms < fuel ->
  msg_loop usize fuel rs (fun _ => data) body buf (buf + wls ms) s = foldM g (flat ms) s.
Proof.
  intros Hb. induction 1 as [|m ms Hm Hw IH]; intros HQ pre buf fuel s E Hp Hf.
  - unfold wls. cbn. rewrite Nat.add_0_r. destruct fuel; cbn; rewrite Nat.eqb_refl; auto.
  - destruct fuel as [|fuel]; [lia|]. cbn [length] in Hf.
    destruct m as [[t s0] bl]. destruct Hm as (Hm1 & Hm2 & Hm3). cbn [snd] in *.
    assert (Ew : wls (@cons hmsg (t, s0, bl) ms) = 3 + length bl * rs + wls ms) by reflexivity.
    cbn [msg_loop]. destruct (Nat.eqb_spec buf (buf + wls (@cons hmsg (t, s0, bl) ms))); [lia|].
    assert (E' : data = pre ++ hbytes (t, s0, bl) ++ bytes ms) by exact E.
    rewrite (rdw_mid data (pre ++ enc t ++ enc s0) (length bl * rs) (concat bl ++ bytes ms) (buf + 2)); auto.
    2:{ rewrite E'. cbn [hbytes]. rewrite <- !app_assoc. auto. }
    2:{ rewrite !app_length, !enc_length. lia. }
    cbn [bind].
    rewrite (row_loop_const data (body buf) (fun st b => g st (t, s0, b)) (fun b => Q (t, s0, b))) with
      (pre := pre ++ enc t ++ enc s0 ++ enc (length bl * rs)) (post := bytes ms); auto.
    2:{ intros pre1 b post1 buf1 st H1 H2 H3 H4. apply (Hb t s0 bl pre (bytes ms) buf pre1 b post1 buf1 st); auto. }
    2:{ intros b Hbb. apply HQ. unfold flat. cbn [map concat hrows]. apply in_or_app. left. apply in_map; auto. }
    2:{ rewrite E'. cbn [hbytes]. rewrite <- !app_assoc. auto. }
    2:{ rewrite !app_length, !enc_length. lia. }
    2:{ rewrite E', !app_length. rewrite hbytes_length by auto. unfold wl. cbn [snd]. nia. }
    assert (Ef : flat (@cons hmsg (t, s0, bl) ms) = map (fun b => (t, s0, b)) bl ++ flat ms) by reflexivity.
    rewrite Ef, foldM_bind_app, foldM_map.
    match goal with |- context [foldM ?f bl s] => destruct (foldM f bl s) as [s1| | |] end; auto. cbn [bind].
    rewrite Ew. replace (buf + (3 + length bl * rs + wls ms)) with ((buf + 3 + length bl * rs) + wls ms) by lia.
    apply (IH (fun x Hx => HQ x ltac:(rewrite Ef; apply in_or_app; right; exact Hx)) (pre ++ hbytes (t, s0, bl))).
    + rewrite <- app_assoc. auto.
    + rewrite app_length, hbytes_length by auto. unfold wl. cbn [snd]. lia.
    + lia.
Qed.

Lemma put_rows cap (f : nat * nat * list byte -> row) l : forall rows, length rows + length l <= cap ->
  foldM (fun rows x => put_row cap rows (f x)) l rows = Ok (rows ++ map f l).
Proof.
  induction l as [|x l IH]; intros rows H; cbn [foldM map].
  - rewrite app_nil_r; auto.
  - cbn [length] in H. unfold put_row. destruct (Nat.ltb_spec (length rows) cap); [|lia]. cbn [bind].
    fold (put_row cap). change (fun rows0 x0 => if length rows0 <? cap then Ok (rows0 ++ [f x0]) else UB)
      with (fun rows x => put_row cap rows (f x)).
    rewrite IH; [rewrite <- app_assoc; auto|]. rewrite app_length. cbn [length]. lia.
Qed.

Lemma length_le_wls ms : length ms <= wls ms.
Proof.
  induction ms as [|m ms IH]; [unfold wls; simpl; lia|].
  change (wls (m :: ms)) with (wl m + wls ms). unfold wl. cbn [length]. lia.
Qed.

Lemma fuel_ok ms : Forall wf ms -> length ms < S (length (bytes ms)).
Proof. intros H. rewrite (bytes_length ms H). pose proof (length_le_wls ms). nia. Qed.

Lemma unpack_more_ok cap size off ms : Forall wf ms -> off + size <= rs * usize -> length (flat ms) <= cap ->
  unpack_more usize cap size (bytes ms) (wls ms) off rs =
  Ok (map (fun x : nat * nat * list byte => firstn size (skipn off (snd x))) (flat ms)).
Proof.
  intros Hw Hs Hc. unfold unpack_more.
  pose proof (msg_loop_const (bytes ms)
    (fun _ buf rows => x <- slice (bytes ms) (buf * usize + off) size ;; put_row cap rows x)
    (fun rows x => put_row cap rows (firstn size (skipn off (snd x)))) (fun _ => True)) as H.
  replace (wls ms) with (0 + wls ms) by lia.
  rewrite H with (ms := ms) (pre := []); auto.
  - rewrite put_rows; auto.
  - clear H. intros t s bl pre1 post1 hdr pre b post buf st _ _ E Hp Hb _. cbn [snd].
    rewrite (slice_mid _ (pre ++ firstn off b) (firstn size (skipn off b)) (skipn (off + size) b ++ post)); auto.
    + rewrite E, <- !app_assoc. f_equal. rewrite <- (firstn_skipn off b) at 1. rewrite <- app_assoc. f_equal.
      rewrite <- (firstn_skipn size (skipn off b)) at 1. rewrite <- app_assoc. rewrite skipn_skipn_add. auto.
    + rewrite app_length, firstn_length. lia.
    + rewrite firstn_length, skipn_length. lia.
  - apply fuel_ok; auto.
Qed.

Lemma unpack_int_ok cap size p_off set_src ms : Forall wf ms -> p_off + usize <= size -> size - usize <= rs * usize ->
  (forall t s b, In (t, s, b) (flat ms) -> t < ulim /\ s < ulim) ->
  length (flat ms) <= cap ->
  unpack_int usize cap size p_off (bytes ms) (wls ms) rs set_src =
  Ok (map (fun x : nat * nat * list byte => let '(t, s, b) := x in
        firstn p_off b ++ enc (if set_src then s else t) ++ firstn (size - (p_off + usize)) (skipn p_off b)) (flat ms)).
Proof.
  intros Hw Hp Hs Hlt Hc. unfold unpack_int.
  set (f := fun x : nat * nat * list byte => let '(t, s, b) := x in
        firstn p_off b ++ enc (if set_src then s else t) ++ firstn (size - (p_off + usize)) (skipn p_off b)).
  replace (wls ms) with (0 + wls ms) by lia.
  rewrite (msg_loop_const (bytes ms) _ (fun rows x => put_row cap rows (f x))
     (fun x => fst (fst x) < ulim /\ snd (fst x) < ulim)) with (ms := ms) (pre := []); auto.
  - rewrite put_rows; auto.
  - intros t s bl pre1 post1 hdr pre b post buf st E1 Hh E Hpre Hb [Ht Hs0]. cbn [fst snd] in *.
    assert (Er : rdw (bytes ms) (hdr + (if set_src then 1 else 0)) = Ok (if set_src then s else t)).
    { destruct set_src.
      - apply (rdw_mid _ (pre1 ++ enc t) s (enc (length bl * rs) ++ concat bl ++ post1)); auto.
        + rewrite E1. cbn [hbytes]. rewrite <- !app_assoc. auto.
        + rewrite app_length, enc_length. lia.
      - apply (rdw_mid _ pre1 t (enc s ++ enc (length bl * rs) ++ concat bl ++ post1)); auto.
        + rewrite E1. cbn [hbytes]. rewrite <- !app_assoc. auto.
        + lia. }
    rewrite Er. cbn [bind].
    rewrite (slice_mid _ pre (firstn p_off b) (skipn p_off b ++ post)); auto.
    2:{ rewrite E. rewrite <- (firstn_skipn p_off b) at 1. rewrite <- app_assoc. auto. }
    2:{ rewrite firstn_length. lia. }
    cbn [bind]. set (al := size - (p_off + usize)).
    rewrite (slice_mid _ (pre ++ firstn p_off b) (firstn al (skipn p_off b)) (skipn (p_off + al) b ++ post)); auto.
    + rewrite E, <- !app_assoc. f_equal. rewrite <- (firstn_skipn p_off b) at 1. rewrite <- app_assoc. f_equal.
      rewrite <- (firstn_skipn al (skipn p_off b)) at 1. rewrite <- app_assoc. rewrite skipn_skipn_add. auto.
    + rewrite app_length, firstn_length. lia.
    + rewrite firstn_length, skipn_length. unfold al. lia.
  - intros [[t s] b] Hx. cbn [fst snd]. eapply Hlt; eauto.
  - apply fuel_ok; auto.
Qed.

(** ** pack_more *)
Definition over (b : list byte) (off : nat) (x : list byte) := firstn off b ++ x ++ skipn (off + length x) b.

Lemma over_length b off x : off + length x <= length b -> length (over b off x) = length b.
Proof. intros H. unfold over. rewrite !app_length, firstn_length, skipn_length. lia. Qed.

Section More.
Variable input : list row.
Variable off size : nat.
Hypothesis off_le : off + size <= rs * usize.
Hypothesis input_size : forall r, In r input -> length r = size.

Let body : nat -> nat -> list byte * list nat -> res (list byte * list nat) :=
  fun _ buf s => let (data, perm) := s in
        match perm with
        | [] => UB
        | pi :: perm' =>
            r <- rd input pi ;; x <- slice r 0 size ;;
            data <- blit data (buf * usize + off) x ;; Ok (data, perm')
        end.

Definition newb (b : list byte) (pi : nat) : list byte := over b off (nth pi input []).
Definition newrow (x : (nat * nat * list byte) * nat) : nat * nat * list byte :=
  let '(t, s, b, pi) := x in (t, s, newb b pi).

Lemma body_ok hdr pre b post buf pi perm : pi < length input -> length pre = buf * usize -> length b = rs * usize ->
  body hdr buf (pre ++ b ++ post, pi :: perm) = Ok (pre ++ newb b pi ++ post, perm).
Proof.
  intros Hpi Hp Hb. unfold body. rewrite (rd_nth input pi []) by auto. cbn [bind].
  set (r := nth pi input []). assert (Hr : length r = size) by (apply input_size, nth_In; auto).
  rewrite (slice_mid r [] r []) by (rewrite ?app_nil_r; auto). cbn [bind].
  rewrite (blit_mid _ (pre ++ firstn off b) (firstn size (skipn off b)) (skipn (off + size) b ++ post)).
  - cbn [bind]. unfold newb, over. fold r. rewrite Hr, <- !app_assoc. auto.
  - rewrite <- !app_assoc. f_equal. rewrite <- (firstn_skipn off b) at 1. rewrite <- app_assoc. f_equal.
    rewrite <- (firstn_skipn size (skipn off b)) at 1. rewrite <- app_assoc. rewrite skipn_skipn_add. auto.
  - rewrite app_length, firstn_length. lia.
  - rewrite firstn_length, skipn_length. lia.
Qed.

Lemma newb_length b pi : pi < length input -> length b = rs * usize -> length (newb b pi) = rs * usize.
Proof.
  intros Hpi Hb. unfold newb. assert (length (nth pi input []) = size) by (apply input_size, nth_In; auto).
  rewrite over_length; lia.
Qed.

Lemma row_loop_more hdr : forall bl ps perm pre post buf fuel, wfb bl -> length ps = length bl ->
  (forall pi, In pi ps -> pi < length input) -> length pre = buf * usize -> length bl <= fuel ->
  exists bl', row_loop fuel rs (body hdr) buf (buf + length bl * rs) (pre ++ concat bl ++ post, ps ++ perm) =
     Ok (buf + length bl * rs, (pre ++ concat bl' ++ post, perm)) /\
   bl' = map (fun x => newb (fst x) (snd x)) (combine bl ps) /\ wfb bl' /\ length bl' = length bl.
Proof.
  induction bl as [|b bl IH]; intros ps perm pre post buf fuel Hw Hl Hps Hp Hf.
  - destruct ps; [|discriminate]. exists []. cbn [length Nat.mul concat app combine map].
    rewrite Nat.add_0_r. destruct fuel; cbn [row_loop]; rewrite Nat.eqb_refl; repeat split; auto; constructor.
  - destruct ps as [|pi ps]; [discriminate|]. cbn [length] in *. injection Hl as Hl.
    destruct fuel as [|fuel]; [lia|]. inversion Hw as [|? ? Hb Hw']; subst.
    assert (Hpi : pi < length input) by (apply Hps; left; auto).
    destruct (IH ps perm (pre ++ newb b pi) post (buf + rs) fuel Hw' Hl) as (bl' & E & E2 & E3 & E4).
    { intros q Hq; apply Hps; right; auto. }
    { rewrite app_length, newb_length; auto. lia. }
    { lia. }
    exists (newb b pi :: bl'). split; [|split; [|split]].
    + cbn [row_loop]. destruct (Nat.eqb_spec buf (buf + S (length bl) * rs)); [nia|].
      cbn [concat app]. rewrite <- app_assoc. rewrite (body_ok hdr pre b (concat bl ++ post)) by auto. cbn [bind].
      rewrite <- app_assoc in E. replace (buf + S (length bl) * rs) with (buf + rs + length bl * rs) by lia.
      rewrite E. rewrite <- !app_assoc. auto.
    + cbn [combine map fst snd]. rewrite E2. auto.
    + constructor; auto. apply newb_length; auto.
    + cbn [length]. auto.
Qed.

Lemma msg_loop_more : forall ms perm pre buf fuel, Forall wf ms -> length perm = length (flat ms) ->
  (forall pi, In pi perm -> pi < length input) -> length pre = buf * usize -> length ms < fuel ->
  exists ms', msg_loop usize fuel rs fst body buf (buf + wls ms) (pre ++ bytes ms, perm) =
     Ok (pre ++ bytes ms', []) /\ Forall wf ms' /\ flat ms' = map newrow (combine (flat ms) perm).
Proof.
  induction ms as [|m ms IH]; intros perm pre buf fuel Hw Hl Hps Hp Hf.
  - destruct perm; [|discriminate]. exists []. unfold wls. cbn [map sum fold_right].
    rewrite Nat.add_0_r. destruct fuel; cbn [msg_loop]; rewrite Nat.eqb_refl; auto.
  - destruct fuel as [|fuel]; [lia|]. cbn [length] in Hf. inversion Hw as [|? ? Hm Hw']; subst.
    destruct m as [[t s0] bl]. destruct Hm as (Hm1 & Hm2 & Hm3). cbn [snd] in *.
    assert (Ew : wls (@cons hmsg (t, s0, bl) ms) = 3 + length bl * rs + wls ms) by reflexivity.
    assert (Ef : flat (@cons hmsg (t, s0, bl) ms) = map (fun b => (t, s0, b)) bl ++ flat ms) by reflexivity.
    rewrite Ef, app_length, map_length in Hl.
    set (ps := firstn (length bl) perm). set (perm' := skipn (length bl) perm).
    assert (Eperm : perm = ps ++ perm') by (unfold ps, perm'; rewrite firstn_skipn; auto).
    assert (Lps : length ps = length bl) by (unfold ps; rewrite firstn_length; lia).
    assert (Lp' : length perm' = length (flat ms)) by (unfold perm'; rewrite skipn_length; lia).
    cbn [msg_loop]. destruct (Nat.eqb_spec buf (buf + wls (@cons hmsg (t, s0, bl) ms))); [lia|].
    cbn [fst].
    assert (E' : pre ++ bytes (@cons hmsg (t, s0, bl) ms) = (pre ++ enc t ++ enc s0 ++ enc (length bl * rs)) ++ concat bl ++ bytes ms).
    { unfold bytes. cbn [map concat hbytes]. rewrite <- !app_assoc. auto. }
    rewrite (rdw_mid _ (pre ++ enc t ++ enc s0) (length bl * rs) (concat bl ++ bytes ms) (buf + 2)); auto.
    2:{ rewrite E'. rewrite <- !app_assoc. auto. }
    2:{ rewrite !app_length, !enc_length. lia. }
    cbn [bind]. rewrite E'. rewrite Eperm.
    destruct (row_loop_more buf bl ps perm' (pre ++ enc t ++ enc s0 ++ enc (length bl * rs)) (bytes ms) (buf + 3)
       (length ((pre ++ enc t ++ enc s0 ++ enc (length bl * rs)) ++ concat bl ++ bytes ms)) Hm1 Lps) as (bl' & E & E2 & E3 & E4).
    { intros pi Hpi. apply Hps. rewrite Eperm. apply in_or_app; auto. }
    { rewrite !app_length, !enc_length. lia. }
    { rewrite !app_length, (concat_blocks bl) by auto. nia. }
    rewrite E. cbn [bind]. rewrite Ew.
    replace (buf + (3 + length bl * rs + wls ms)) with ((buf + 3 + length bl * rs) + wls ms) by lia.
    assert (E5 : (pre ++ enc t ++ enc s0 ++ enc (length bl * rs)) ++ concat bl' ++ bytes ms =
                 (pre ++ hbytes (t, s0, bl')) ++ bytes ms).
    { cbn [hbytes]. rewrite E4, <- !app_assoc. auto. }
    rewrite E5.
    destruct (IH perm' (pre ++ hbytes (t, s0, bl')) (buf + 3 + length bl * rs) fuel Hw' Lp') as (ms' & F1 & F2 & F3).
    { intros pi Hpi. apply Hps. rewrite Eperm. apply in_or_app; auto. }
    { rewrite app_length, hbytes_length by auto. unfold wl. cbn [snd]. lia. }
    { lia. }
    exists (@cons hmsg (t, s0, bl') ms'). rewrite F1. split; [|split].
    + rewrite <- app_assoc. auto.
    + constructor; auto. split; auto. cbn [snd]. lia.
    + assert (Ef' : flat (@cons hmsg (t, s0, bl') ms') = map (fun b => (t, s0, b)) bl' ++ flat ms') by reflexivity.
      rewrite Ef', Ef, F3. 
      assert (Ec : forall A B (a1 a2 : list A) (b1 b2 : list B), length a1 = length b1 ->
                 combine (a1 ++ a2) (b1 ++ b2) = combine a1 b1 ++ combine a2 b2).
      { clear. induction a1; intros a2 [|] b2 H; try discriminate; simpl; auto. f_equal. apply IHa1. simpl in H; lia. }
      rewrite Ec by (rewrite map_length; auto). rewrite map_app. f_equal.
      rewrite E2, map_map. generalize ps. clear. induction bl as [|b bl IH]; intros [|p ps]; simpl; auto. f_equal; auto.
Qed.

Lemma pack_more_ok ms perm : Forall wf ms -> length perm = length (flat ms) ->
  (forall pi, In pi perm -> pi < length input) ->
  exists ms', pack_more usize (bytes ms) off rs input size perm = Ok (bytes ms') /\ Forall wf ms' /\
    flat ms' = map newrow (combine (flat ms) perm).
Proof.
  intros Hw Hl Hp. unfold pack_more.
  destruct (msg_loop_more ms perm [] 0 (S (length (bytes ms))) Hw Hl Hp eq_refl (fuel_ok ms Hw)) as (ms' & E & H1 & H2).
  exists ms'. split; auto. rewrite (bytes_length ms Hw) at 2. rewrite div_of by auto.
  cbn [app Nat.add] in E. fold body. rewrite E. auto.
Qed.
End More.
End TP.
