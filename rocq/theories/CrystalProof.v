(** Correctness of the crystal router. *)
From Verif Require Import Base BaseLemmas Net NetProof Crystal CrystalSpec.
From Coq Require Import ZifyBool ZifyNat Permutation.
Ltac Zify.zify_post_hook ::= Z.div_mod_to_equations.

(** ** Lists *)
Lemma concat_map_app {A B} (f g : A -> list B) l :
  Permutation (concat (map (fun x => f x ++ g x) l)) (concat (map f l) ++ concat (map g l)).
Proof.
  induction l as [|x l IH]; simpl; auto. rewrite IH.
  rewrite <- !app_assoc. apply Permutation_app_head.
  rewrite (Permutation_app_comm (g x)). rewrite <- !app_assoc. apply Permutation_app_head.
  apply Permutation_app_comm.
Qed.

Lemma concat_map_perm {A B} (f : A -> list B) l l' :
  Permutation l l' -> Permutation (concat (map f l)) (concat (map f l')).
Proof. intros H. rewrite <- !flat_map_concat_map. apply Permutation_flat_map; auto. Qed.

Lemma filter_concat {A} (f : A -> bool) l : filter f (concat l) = concat (map (filter f) l).
Proof. induction l; simpl; auto. rewrite filter_app, IHl; auto. Qed.

Lemma Permutation_filter {A} (f : A -> bool) l l' :
  Permutation l l' -> Permutation (filter f l) (filter f l').
Proof.
  induction 1; simpl; auto.
  - destruct (f x); auto.
  - destruct (f x), (f y); auto. apply perm_swap.
  - etransitivity; eauto.
Qed.

Lemma filter_filter_sub {A} (f g : A -> bool) l :
  (forall x, f x = true -> g x = true) -> filter f (filter g l) = filter f l.
Proof.
  intros H. induction l as [|x l IH]; simpl; auto.
  destruct (g x) eqn:Eg; simpl.
  - destruct (f x); rewrite IH; auto.
  - destruct (f x) eqn:Ef; auto. rewrite (H x Ef) in Eg; discriminate.
Qed.

Lemma concat_length_perm {A} (l l' : list (list A)) : Permutation l l' -> length (concat l) = length (concat l').
Proof. induction 1; simpl; rewrite ?app_length in *; lia. Qed.

Lemma NoDup_map_inj {A B} (f : A -> B) l :
  (forall a b, In a l -> In b l -> f a = f b -> a = b) -> NoDup l -> NoDup (map f l).
Proof.
  induction l as [|x l IH]; intros Hf H; simpl; [constructor|]. inversion H; subst.
  constructor.
  - intros Hin. apply in_map_iff in Hin as (y & E & Hy). rewrite (Hf y x) in Hy; simpl; auto.
  - apply IH; auto. intros a b Ha Hb. apply Hf; simpl; auto.
Qed.

Lemma seq_mirror bl n k : k <= n ->
  map (fun p => n - 1 - (p - bl) + bl) (seq bl k) = rev (seq (bl + (n - k)) k).
Proof.
  revert n; induction k as [|k IH]; intros n Hk; auto.
  rewrite seq_S, map_app, IH by lia. cbn [map].
  replace (seq (bl + (n - S k)) (S k)) with ((bl + (n - S k)) :: seq (bl + (n - k)) k).
  - cbn [rev]. do 2 f_equal. lia.
  - cbn [seq]. do 2 f_equal. lia.
Qed.

Section CrystalProof.
Context {W : Type}.
Variable toN : W -> nat.
Variable ofN : nat -> W.
Variable lim : nat.
Hypothesis codec : forall n, n < lim -> toN (ofN n) = n.
Variable usize INT_MAX np : nat.
Hypothesis usize_pos : 1 <= usize.
Hypothesis np_lim : np <= lim.
Hypothesis max_lim : INT_MAX <= lim.
Notation msg := (msg W).
Notation words := (words ofN).
Notation msg_words := (msg_words ofN).

Lemma words_cons m ms : words (m :: ms) = msg_words m ++ words ms.
Proof. auto. Qed.
Lemma words_app a b : words (a ++ b) = words a ++ words b.
Proof. unfold CrystalSpec.words. rewrite map_app, concat_app; auto. Qed.
Lemma words_perm a b : Permutation a b -> length (words a) = length (words b).
Proof. intros H. apply concat_length_perm. apply Permutation_map; auto. Qed.
Lemma msg_words_length m : length (msg_words m) = 3 + length (m_body m).
Proof. reflexivity. Qed.
Lemma words_filter_le (f : msg -> bool) ms : length (words (filter f ms)) <= length (words ms).
Proof.
  induction ms as [|m ms IH]; cbn [filter]; auto.
  destruct (f m); rewrite ?words_cons, ?app_length; lia.
Qed.

(** ** crystal_move splits the list of messages *)
Definition goes_out (cutoff : nat) (hi : bool) (m : msg) : bool :=
  if hi then cutoff <=? m_target m else m_target m <? cutoff.

Definition fits (ms : list msg) : Prop := forall x, In x ms -> m_target x < lim /\ length (m_body x) < lim.

Lemma crystal_move_loop_words cutoff hi : forall ms fuel keep send, length ms <= fuel -> fits ms ->
  crystal_move_loop toN fuel cutoff hi (words ms) keep send =
  Ok (keep ++ words (filter (fun m => negb (goes_out cutoff hi m)) ms),
      send ++ words (filter (goes_out cutoff hi) ms)).
Proof.
  induction ms as [|m ms IH]; intros fuel keep send Hf Hfit.
  - destruct fuel; cbn; rewrite !app_nil_r; auto.
  - destruct fuel as [|fuel]; [simpl in Hf; lia|]. simpl in Hf.
    rewrite words_cons. 
    assert (E : forall A (a b : A), match msg_words m ++ words ms with [] => a | _ => b end = b) by reflexivity.
    cbn [crystal_move_loop]. rewrite E.
    unfold rd. replace (nth_error (msg_words m ++ words ms) 0) with (Some (ofN (m_target m))) by reflexivity.
    replace (nth_error (msg_words m ++ words ms) 2) with (Some (ofN (length (m_body m)))) by reflexivity.
    cbn [bind]. destruct (Hfit m (or_introl eq_refl)) as [Hft Hfl]. rewrite !codec by auto. rewrite app_length, msg_words_length.
    destruct (Nat.ltb_spec (3 + length (m_body m) + length (words ms)) (3 + length (m_body m))); [lia|].
    rewrite <- (msg_words_length m).
    rewrite firstn_app, skipn_app, firstn_all, skipn_all, Nat.sub_diag, firstn_O, skipn_O, app_nil_r, app_nil_l.
    change (if hi then cutoff <=? m_target m else m_target m <? cutoff) with (goes_out cutoff hi m).
    cbn [filter]. destruct (goes_out cutoff hi m); cbn [negb]; rewrite IH by (lia || (intros y Hy; apply Hfit; right; auto));
      rewrite ?words_cons, ?app_assoc; auto.
Qed.

Lemma words_length_ge ms : length ms <= length (words ms).
Proof. induction ms as [|m ms IH]; cbn [length]; [lia|]. rewrite words_cons, app_length, msg_words_length; lia. Qed.

Lemma crystal_move_words ms cutoff hi : fits ms ->
  crystal_move toN (words ms) cutoff hi =
  Ok (words (filter (fun m => negb (goes_out cutoff hi m)) ms), words (filter (goes_out cutoff hi) ms)).
Proof. intros H. unfold crystal_move. rewrite crystal_move_loop_words by (auto; apply words_length_ge). auto. Qed.

(** ** One stage *)
Section Stage.
Variable bl n : nat.
Hypothesis n2 : 2 <= n.
Hypothesis inside : bl + n <= np.
Definition nl := (n + 1) / 2.
Definition bh := bl + nl.
Definition inI p := (bl <=? p) && (p <? bl + n).
Definition targ0 p := n - 1 - (p - bl) + bl.
Definition targ p := if p =? targ0 p then bh else targ0 p.
Definition recvn p := if (n mod 2 =? 1) && (p =? bh) then 2 else if p =? targ0 p then 0 else 1.
Definition froms p : list nat :=
  (if 1 <=? recvn p then [targ p] else []) ++ (if recvn p =? 2 then [p - 1] else []).

Lemma stage_matched tag (x : nat -> list W) (cap : nat -> nat -> nat) :
  (forall p i q, inI p = true -> nth_error (froms p) i = Some q -> length (x q) <= cap p i) ->
  matched np inI (fun p => [(targ p, tag, x p)])
    (fun p => exchange_recvs p (recvn p) (targ p) tag (cap p))
    (fun p => map x (froms p)).
Proof.
  clear codec usize_pos np_lim max_lim toN ofN. intros Hcap.
  assert (HI : forall p, inI p = true <-> bl <= p < bl + n) by (intros; unfold inI; lia).
  assert (Hnl : 2 * nl = n \/ 2 * nl = n + 1) by (unfold nl; lia).
  assert (Hodd : n mod 2 = 1 <-> 2 * nl = n + 1) by (unfold nl; lia).
  constructor.
  - intros p _ _. cbn. constructor; auto. constructor.
  - intros p _ Hp. apply HI in Hp. unfold exchange_recvs.
    destruct (Nat.leb_spec 1 (recvn p)) as [H1|H1]; destruct (Nat.eqb_spec (recvn p) 2) as [H2|H2]; cbn [app map fst].
    + constructor; [|constructor; auto; constructor].
      intros [E|[]]. injection E as E. revert H2 E. unfold recvn, targ, targ0.
      destruct (Nat.eqb_spec (n mod 2) 1); destruct (Nat.eqb_spec p bh);
      destruct (Nat.eqb_spec p (n - 1 - (p - bl) + bl)); cbn [andb]; lia.
    + constructor; auto; constructor.
    + constructor; auto; constructor.
    + constructor.
  - intros p q t m Hp Hip [E|[]]. injection E as <- <- <-. apply HI in Hip.
    assert (Hq : bl <= targ p < bl + n).
    { unfold targ, targ0. destruct (Nat.eqb_spec p (n - 1 - (p - bl) + bl)); unfold bh; lia. }
    split; [lia|]. split; [apply HI; auto|].
    unfold exchange_recvs, recvn, targ, targ0.
    destruct (Nat.eqb_spec p (n - 1 - (p - bl) + bl)) as [E|E].
    + (* the middle process *)
      destruct (Nat.eqb_spec (n mod 2) 1); [|lia]. rewrite Nat.eqb_refl. cbn [andb Nat.leb Nat.eqb].
      destruct (Nat.eqb_spec bh (n - 1 - (bh - bl) + bl)); [unfold bh in *; lia|].
      exists (cap bh 1). right. left. f_equal. f_equal. unfold bh; lia.
    + set (q := n - 1 - (p - bl) + bl) in *.
      assert (Eq : n - 1 - (q - bl) + bl = p) by lia. rewrite Eq.
      destruct (Nat.eqb_spec q p); [lia|].
      exists (cap q 0). apply in_or_app. left.
      destruct ((n mod 2 =? 1) && (q =? bh)); left; auto.
  - intros q _ Hq. pose proof (proj1 (HI q) Hq) as Hq'.
    pose proof (Hcap q 0) as C0. pose proof (Hcap q 1) as C1.
    unfold exchange_recvs. unfold froms in *.
    assert (A0 : 1 <= recvn q -> targ q = targ0 q /\ q <> targ0 q /\ bl <= targ0 q < bl + n /\ targ (targ0 q) = q).
    { unfold recvn, targ, targ0. destruct (Nat.eqb_spec q (n - 1 - (q - bl) + bl)) as [E|E].
      - destruct (Nat.eqb_spec (n mod 2) 1); destruct (Nat.eqb_spec q bh); cbn [andb]; try lia; unfold bh in *; lia.
      - intros _. split; auto. split; auto. split; [lia|].
        replace (n - 1 - (n - 1 - (q - bl) + bl - bl) + bl) with q by lia.
        destruct (Nat.eqb_spec (n - 1 - (q - bl) + bl) q); [lia|]. auto. }
    assert (A1 : recvn q = 2 -> q = bh /\ bl <= q - 1 /\ targ (q - 1) = q).
    { unfold recvn. destruct (Nat.eqb_spec (n mod 2) 1); destruct (Nat.eqb_spec q bh); cbn [andb];
        destruct (q =? targ0 q); try lia; intros _; (split; [auto|]); (split; [unfold bh in *; lia|]);
        unfold targ, targ0; (destruct (Nat.eqb_spec (q - 1) (n - 1 - (q - 1 - bl) + bl)); [auto|unfold bh in *; lia]). }
    destruct (Nat.leb_spec 1 (recvn q)) as [H1|H1]; destruct (Nat.eqb_spec (recvn q) 2) as [H2|H2]; cbn [app map].
    + destruct (A0 H1) as (E1 & E2 & E3 & E4). destruct (A1 H2) as (F1 & F2 & F3).
      constructor; [|constructor; [|constructor]]; cbn [fst snd].
      * rewrite E1. split; [lia|]. split; [apply HI; auto|]. split; [|rewrite <- E1; apply C0; auto].
        rewrite E4. left; auto.
      * split; [lia|]. split; [apply HI; lia|]. split; [|apply C1; auto].
        rewrite F3. left; auto.
    + destruct (A0 H1) as (E1 & E2 & E3 & E4).
      constructor; [|constructor]; cbn [fst snd].
      rewrite E1. split; [lia|]. split; [apply HI; auto|]. split; [|rewrite <- E1; apply C0; auto].
      rewrite E4. left; auto.
    + lia.
    + constructor.
Qed.

Lemma froms_in p q : inI p = true -> In q (froms p) -> inI q = true.
Proof.
  intros Hp Hq.
  pose proof (stage_matched 0 (fun _ => []) (fun _ _ => 0)) as M. destruct M as [_ _ _ R]; [simpl; auto; lia|].
  assert (Hp' : p < np) by (unfold inI in *; lia).
  specialize (R p Hp' Hp). unfold exchange_recvs, froms in *.
  destruct (1 <=? recvn p); destruct (recvn p =? 2); cbn [app map In] in *;
    repeat match goal with H : Forall2 _ _ _ |- _ => inversion H; clear H; subst end; cbn [fst snd] in *;
    intuition subst; auto.
Qed.

(** What process p holds after the stage. *)
Definition stage_keep (m : nat -> list msg) p := filter (fun x => negb (goes_out bh (p <? bh) x)) (m p).
Definition stage_send (m : nat -> list msg) p := filter (goes_out bh (p <? bh)) (m p).
Definition stage_out (m : nat -> list msg) p := stage_keep m p ++ concat (map (stage_send m) (froms p)).

Lemma stage_goes tag (m : nat -> list msg) {A} (P : nat -> prog W A) (K : nat -> list W -> prog W A) :
  (forall p, inI p = true -> P p = pbind (crystal_exchange toN ofN p (words (stage_keep m p)) (words (stage_send m p))
                 (targ p) (recvn p) tag) (K p)) ->
  (forall p, inI p = true -> length (words (stage_send m p)) < lim) ->
  goes np P (fun p => if inI p then K p (words (stage_out m p)) else P p).
Proof.
  intros HP Hlim.
  set (cnt := fun p => [ofN (length (words (stage_send m p)))]).
  set (cs := fun p => map cnt (froms p)).
  set (count := fun p i => match nth_error (cs p) i with Some [c] => toN c | _ => 0 end).
  set (dat := fun p => words (stage_send m p)).
  set (K2 := fun p ms => pbind (if forallb (fun b : bool => b) (map (fun i => length (nth i ms []) =? count p i) (seq 0 (length ms)))
        then Ret (words (stage_keep m p) ++ concat ms) else Stop) (K p)).
  eapply goes_trans; [eapply (goes_comm np inI P
      (fun p => if inI p then comm [(targ p, tag + 1, dat p)] (exchange_recvs p (recvn p) (targ p) (tag + 1) (count p))
         (K2 p) else P p))|].
  - apply (stage_matched tag cnt (fun _ _ => 1)). intros; auto.
  - intros p _ ->. auto.
  - intros p Hp Hip. rewrite Hip. split.
    + rewrite HP by auto. unfold crystal_exchange. unfold comm. cbn [pbind]. reflexivity.
    + cbv beta. fold (cs p). change (fun i : nat => match nth_error (cs p) i with
       Some [c] => toN c | _ => 0 end) with (count p).
      assert (forallb (fun c : list W => length c =? 1) (cs p) = true) as ->.
      { apply forallb_forall. intros c Hc. apply in_map_iff in Hc as (q & <- & _). auto. }
      reflexivity.
  - assert (Hcount : forall p i q, inI p = true -> nth_error (froms p) i = Some q -> length (dat q) = count p i).
    { intros p i q Hp Hq. unfold count, cs, cnt. rewrite nth_error_map, Hq. cbn [option_map]. rewrite codec; auto. apply Hlim. apply (froms_in p); auto. eapply nth_error_In; eauto. }
    eapply goes_comm with (S := inI).
    + apply (stage_matched (tag + 1) dat count). intros p i q Hp Hq. rewrite (Hcount p i q Hp Hq). auto.
    + cbv beta. intros p _ ->. auto.
    + cbv beta. intros p Hp Hip. rewrite Hip. split; [reflexivity|].
      unfold K2.
      assert (forallb (fun b => b) (map (fun i => length (nth i (map dat (froms p)) []) =? count p i)
                (seq 0 (length (map dat (froms p))))) = true) as ->.
      { apply forallb_forall. intros b Hb. apply in_map_iff in Hb as (i & <- & Hi). apply in_seq in Hi.
        rewrite map_length in Hi. destruct (nth_error_lt_Some (froms p) i) as [q Hq]; [lia|].
        rewrite <- (Hcount p i q Hip Hq). rewrite (nth_error_nth (map dat (froms p)) i [] (x := dat q)); [lia|].
        rewrite nth_error_map, Hq. auto. }
      cbn [pbind]. unfold stage_out. rewrite words_app. do 2 f_equal.
      unfold dat. generalize (froms p) as l. induction l; simpl; auto. rewrite words_app, IHl; auto.
Qed.

Lemma stage_out_low m : Permutation (concat (map (stage_out m) (seq bl nl)))
  (filter (fun x => m_target x <? bh) (concat (map m (seq bl n)))).
Proof.
  assert (Hnl : 2 * nl = n \/ 2 * nl = n + 1) by (unfold nl; lia).
  unfold stage_out. rewrite concat_map_app.
  assert (Eseq : seq bl n = seq bl nl ++ seq (bl + nl) (n - nl)) by (rewrite <- seq_app; f_equal; lia).
  rewrite Eseq, map_app, concat_app, filter_app. clear Eseq.
  apply Permutation_app.
  - rewrite filter_concat, map_map. apply Permutation_refl'. f_equal. apply map_ext_in.
    intros p Hp. apply in_seq in Hp. unfold stage_keep. apply filter_ext. intros x. unfold goes_out.
    destruct (Nat.ltb_spec p bh); [lia|unfold bh in *; lia].
  - rewrite filter_concat, map_map.
    replace (concat (map (fun x => concat (map (stage_send m) (froms x))) (seq bl nl)))
      with (concat (map (fun p => stage_send m (targ0 p)) (seq bl (n - nl)))).
    + rewrite <- map_map with (f := targ0). unfold targ0. rewrite seq_mirror by lia.
      etransitivity; [apply concat_map_perm; symmetry; apply Permutation_rev|].
      replace (bl + (n - (n - nl))) with (bl + nl) by lia.
      apply Permutation_refl'. f_equal. apply map_ext_in. intros p Hp. apply in_seq in Hp.
      unfold stage_send. apply filter_ext. intros x. unfold goes_out.
      destruct (Nat.ltb_spec p bh); [unfold bh in *; lia|auto].
    + assert (Eseq : seq bl nl = seq bl (n - nl) ++ seq (bl + (n - nl)) (2 * nl - n)) by (rewrite <- seq_app; f_equal; lia).
      rewrite Eseq, map_app, concat_app. clear Eseq.
      assert (concat (map (fun x => concat (map (stage_send m) (froms x))) (seq (bl + (n - nl)) (2 * nl - n))) = []) as ->.
      { destruct Hnl as [H|H].
        - replace (2 * nl - n) with 0 by lia. auto.
        - replace (2 * nl - n) with 1 by lia. cbn [seq map concat]. rewrite app_nil_r.
          assert (froms (bl + (n - nl)) = []) as ->; auto.
          unfold froms, recvn, targ, targ0. destruct (Nat.eqb_spec (bl + (n - nl)) bh) as [E|E]; [unfold bh in E; lia|].
          rewrite andb_false_r. destruct (Nat.eqb_spec (bl + (n - nl)) (n - 1 - (bl + (n - nl) - bl) + bl)); [|lia].
          auto. }
      rewrite app_nil_r. f_equal. apply map_ext_in. intros p Hp. apply in_seq in Hp.
      unfold froms, recvn, targ. destruct (Nat.eqb_spec p bh); [unfold bh in *; lia|]. rewrite andb_false_r.
      destruct (Nat.eqb_spec p (targ0 p)); [unfold targ0 in *; lia|]. cbn. rewrite app_nil_r; auto.
Qed.

Lemma stage_out_high m : Permutation (concat (map (stage_out m) (seq bh (n - nl))))
  (filter (fun x => bh <=? m_target x) (concat (map m (seq bl n)))).
Proof.
  assert (Hnl : 2 * nl = n \/ 2 * nl = n + 1) by (unfold nl; lia).
  unfold stage_out. rewrite concat_map_app.
  assert (Eseq : seq bl n = seq bl nl ++ seq (bl + nl) (n - nl)) by (rewrite <- seq_app; f_equal; lia).
  rewrite Eseq, map_app, concat_app, filter_app. clear Eseq.
  etransitivity; [|apply Permutation_app_comm]. fold bh.
  apply Permutation_app.
  - rewrite filter_concat, map_map. apply Permutation_refl'. f_equal. apply map_ext_in.
    intros p Hp. apply in_seq in Hp. unfold stage_keep. apply filter_ext. intros x. unfold goes_out.
    destruct (Nat.ltb_spec p bh); [unfold bh in *; lia|lia].
  - rewrite filter_concat, map_map.
    set (g := fun q => filter (fun x : CrystalSpec.msg W => bh <=? m_target x) (m q)).
    assert (Hg : forall q, q < bh -> stage_send m q = g q).
    { intros q Hq. unfold stage_send, g. apply filter_ext. intros x. unfold goes_out.
      destruct (Nat.ltb_spec q bh); [auto|lia]. }
    replace (map (fun x => concat (map (stage_send m) (froms x))) (seq bh (n - nl)))
      with (map (fun p => g (targ0 p) ++ (if (n mod 2 =? 1) && (p =? bh) then g (bh - 1) else [])) (seq bh (n - nl))).
    2:{ apply map_ext_in. intros p Hp. apply in_seq in Hp.
        assert (E : p <> targ0 p) by (unfold targ0, bh in *; lia).
        assert (T : targ0 p < bh) by (unfold targ0, bh in *; lia).
        unfold froms, targ, recvn.
        destruct (Nat.eqb_spec p (targ0 p)); [contradiction|].
        destruct (Nat.eqb_spec p bh) as [->|Hb].
        - destruct (Nat.eqb_spec (n mod 2) 1); cbn; rewrite ?app_nil_r, !Hg by (unfold bh in *; lia); auto.
        - rewrite andb_false_r. cbn. rewrite !app_nil_r, Hg; auto. }
    rewrite concat_map_app.
    assert (E1 : Permutation (concat (map (fun p => g (targ0 p)) (seq bh (n - nl)))) (concat (map g (seq bl (n - nl))))).
    { rewrite <- map_map with (f := targ0).
      apply concat_map_perm. apply NoDup_Permutation.
      - apply NoDup_map_inj; [|apply seq_NoDup].
        intros a b Ha Hb. apply in_seq in Ha, Hb. unfold targ0, bh in *. lia.
      - apply seq_NoDup.
      - intros x. rewrite in_map_iff, in_seq. split.
        + intros (y & <- & Hy). apply in_seq in Hy. unfold targ0, bh in *; lia.
        + intros Hx. exists (targ0 x). rewrite in_seq. unfold targ0, bh; lia. }
    rewrite E1.
    assert (Eseq : seq bl nl = seq bl (n - nl) ++ seq (bl + (n - nl)) (2 * nl - n)) by (rewrite <- seq_app; f_equal; lia).
    rewrite Eseq, map_app, concat_app. clear Eseq. apply Permutation_app_head.
    destruct Hnl as [H|H].
    + replace (2 * nl - n) with 0 by lia.
      destruct (Nat.eqb_spec (n mod 2) 1); [lia|]. cbn [andb seq map concat].
      generalize (seq bh (n - nl)). induction l; simpl; auto.
    + replace (2 * nl - n) with 1 by lia.
      destruct (Nat.eqb_spec (n mod 2) 1); [|lia]. cbn [andb seq map concat]. rewrite app_nil_r.
      replace (n - nl) with (S (n - nl - 1)) at 1 by lia. cbn [seq map concat].
      rewrite Nat.eqb_refl.
      assert (concat (map (fun p => if p =? bh then g (bh - 1) else []) (seq (S bh) (n - nl - 1))) = []) as ->.
      { assert (E : forall p, In p (seq (S bh) (n - nl - 1)) -> p <> bh) by (intros p Hp; apply in_seq in Hp; lia).
        revert E. generalize (seq (S bh) (n - nl - 1)). induction l as [|a l IH]; intros E; simpl; auto.
        destruct (Nat.eqb_spec a bh) as [Ea|_]; [exfalso; apply (E a); [left|]; auto|]. rewrite IH; auto.
        intros p Hp; apply E; right; auto. }
      rewrite app_nil_r. replace (bh - 1) with (bl + (n - nl)) by (unfold bh; lia). apply Permutation_refl.
Qed.
End Stage.

(** ** All stages *)
Lemma crystal_loop_goes : forall n fuel bl tag (m : nat -> list msg), n <= fuel -> bl + n <= np ->
  (forall p x, bl <= p < bl + n -> In x (m p) -> bl <= m_target x < bl + n) ->
  length (words (concat (map m (seq bl n)))) * usize < INT_MAX ->
  exists out : nat -> list msg,
    (forall p, bl <= p < bl + n -> Permutation (out p) (for_proc p (concat (map m (seq bl n))))) /\
    forall P : nat -> prog W (list W),
      (forall p, bl <= p < bl + n -> P p = crystal_loop toN ofN usize INT_MAX p fuel bl n tag (words (m p))) ->
      goes np P (fun p => if inI bl n p then Ret (words (out p)) else P p).
Proof.
  induction n as [n IHn] using (well_founded_induction lt_wf).
  intros fuel bl tag m Hf Hin Hm Hsz.
  destruct (Nat.leb_spec n 1) as [Hn|Hn].
  - exists m. split.
    + intros p Hp. assert (n = 1) by lia. subst n. assert (p = bl) by lia. subst p.
      cbn [seq map concat]. rewrite app_nil_r.
      assert (E : forall l : list msg, (forall x, In x l -> bl <= m_target x < bl + 1) -> for_proc bl l = l).
      { unfold for_proc. induction l as [|x l IH]; intros Hl; cbn [filter]; auto.
        rewrite IH by (intros; apply Hl; right; auto). specialize (Hl x (or_introl eq_refl)).
        destruct (Nat.eqb_spec (m_target x) bl); auto; lia. }
      rewrite E; auto. intros x Hx. eapply Hm; eauto.
    + intros P HP. apply goes_ext. intros p Hp. destruct (inI bl n p) eqn:E; auto.
      rewrite HP by (unfold inI in E; lia). unfold crystal_loop.
      destruct fuel; destruct (Nat.leb_spec n 1); auto; lia.
  - destruct fuel as [|fuel]; [lia|].
    set (nl_ := nl n). set (bh_ := bh bl n).
    assert (Hnl : 2 * nl_ = n \/ 2 * nl_ = n + 1) by (unfold nl_, nl; lia).
    assert (Hbh : bh_ = bl + nl_) by reflexivity.
    set (m1 := stage_out bl n m).
    pose proof (stage_out_low bl n Hn Hin m) as Plo. fold nl_ bh_ m1 in Plo.
    pose proof (stage_out_high bl n Hn Hin m) as Phi. fold nl_ bh_ m1 in Phi.
    assert (Hall : forall x, In x (concat (map m (seq bl n))) -> bl <= m_target x < bl + n).
    { intros x Hx. apply in_concat in Hx as (l & Hl & Hx). apply in_map_iff in Hl as (p & <- & Hp).
      apply in_seq in Hp. eapply Hm; eauto. }
    assert (Hsmall : forall p, bl <= p < bl + n -> length (words (m p)) <= length (words (concat (map m (seq bl n))))).
    { intros p Hp. assert (Hp' : In p (seq bl n)) by (apply in_seq; lia).
      apply in_split in Hp' as (l1 & l2 & ->). rewrite map_app, concat_app, words_app. cbn [map concat].
      rewrite words_app, !app_length. lia. }
    assert (Hfits : forall p, bl <= p < bl + n -> fits (m p)).
    { intros p Hp x Hx. split; [specialize (Hm p x Hp Hx); lia|].
      specialize (Hsmall p Hp). apply in_split in Hx as (l1 & l2 & E). rewrite E in Hsmall.
      rewrite words_app, words_cons, !app_length, msg_words_length in Hsmall. nia. }
    destruct (IHn nl_ ltac:(lia) fuel bl (tag + 2) m1) as (olo & Hlo & Glo); [lia|lia| | |].
    { intros p x Hp Hx.
      assert (Hi : In x (concat (map m1 (seq bl nl_)))).
      { apply in_concat. exists (m1 p). split; auto. apply in_map. apply in_seq; lia. }
      apply (Permutation_in x Plo) in Hi. apply filter_In in Hi as [Hi Ht]. specialize (Hall x Hi). lia. }
    { rewrite (words_perm _ _ Plo). 
      pose proof (words_filter_le (fun x => m_target x <? bh_) (concat (map m (seq bl n)))). nia. }
    destruct (IHn (n - nl_) ltac:(lia) fuel bh_ (tag + 2) m1) as (ohi & Hhi & Ghi); [lia|lia| | |].
    { intros p x Hp Hx.
      assert (Hi : In x (concat (map m1 (seq bh_ (n - nl_))))).
      { apply in_concat. exists (m1 p). split; auto. apply in_map. apply in_seq; lia. }
      apply (Permutation_in x Phi) in Hi. apply filter_In in Hi as [Hi Ht]. specialize (Hall x Hi). lia. }
    { rewrite (words_perm _ _ Phi). 
      pose proof (words_filter_le (fun x => bh_ <=? m_target x) (concat (map m (seq bl n)))). nia. }
    exists (fun p => if p <? bh_ then olo p else ohi p). split.
    + intros p Hp. destruct (Nat.ltb_spec p bh_).
      * rewrite Hlo by lia. unfold for_proc. rewrite (Permutation_filter _ _ _ Plo).
        rewrite filter_filter_sub; auto. intros x; lia.
      * rewrite Hhi by lia. unfold for_proc. rewrite (Permutation_filter _ _ _ Phi).
        rewrite filter_filter_sub; auto. intros x; lia.
    + intros P HP.
      eapply goes_trans; [apply (stage_goes bl n Hn Hin tag m P
         (fun p data' => if p <? bh_ then crystal_loop toN ofN usize INT_MAX p fuel bl nl_ (tag + 2) data'
            else crystal_loop toN ofN usize INT_MAX p fuel bh_ (n - nl_) (tag + 2) data'))|].
      2:{ intros p Hp. unfold inI in Hp. pose proof (Hsmall p ltac:(lia)).
          pose proof (words_filter_le (goes_out bh_ (p <? bh_)) (m p)). unfold stage_send. fold bh_. nia. }
      { intros p Hp. unfold inI in Hp. rewrite HP by lia. cbn [crystal_loop].
        destruct (Nat.leb_spec n 1); [lia|].
        change (bl + (n + 1) / 2) with bh_. rewrite crystal_move_words by (apply Hfits; lia). cbn [plift pbind].
        destruct (Nat.leb_spec INT_MAX (length (words (filter (goes_out bh_ (p <? bh_)) (m p))) * usize)) as [Hl|Hl].
        { exfalso. pose proof (words_filter_le (goes_out bh_ (p <? bh_)) (m p)).
          pose proof (Hsmall p ltac:(lia)). nia. }
        reflexivity. }
      set (P1 := fun p => if inI bl n p then _ else P p).
      eapply goes_trans; [apply (Glo P1)|].
      { intros p Hp. unfold P1, inI. destruct (Nat.leb_spec bl p); [|lia]. destruct (Nat.ltb_spec p (bl + n)); [|lia].
        cbn [andb]. destruct (Nat.ltb_spec p bh_); [auto|lia]. }
      eapply goes_trans; [apply (Ghi (fun p => if inI bl nl_ p then Ret (words (olo p)) else P1 p))|].
      { intros p Hp. unfold P1, inI. destruct (Nat.leb_spec bl p); [|lia]. destruct (Nat.ltb_spec p (bl + n)); [|lia].
        destruct (Nat.ltb_spec p (bl + nl_)); [lia|].
        cbn [andb]. destruct (Nat.ltb_spec p bh_); [lia|auto]. }
      apply goes_ext. intros p Hp. unfold P1, inI.
      destruct (Nat.leb_spec bl p); destruct (Nat.ltb_spec p (bl + n)); destruct (Nat.leb_spec bh_ p);
       destruct (Nat.ltb_spec p (bl + nl_)); destruct (Nat.ltb_spec p bh_);
       destruct (Nat.ltb_spec p (bh_ + (n - nl_))); cbn [andb]; auto; lia.
Qed.

Theorem crystal_router_goes (m : nat -> list msg) :
  (forall p x, p < np -> In x (m p) -> m_target x < np) ->
  length (words (all_msgs np m)) * usize < INT_MAX ->
  exists out : nat -> list msg,
    (forall p, p < np -> Permutation (out p) (for_proc p (all_msgs np m))) /\
    goes np (fun p => crystal_router toN ofN usize INT_MAX np p (words (m p))) (fun p => Ret (words (out p))).
Proof.
  intros Hm Hsz. destruct (crystal_loop_goes np np 0 0 m) as (out & Ho & G); auto.
  { intros p x Hp Hx. specialize (Hm p x). lia. }
  exists out. split; [intros p Hp; apply Ho; lia|].
  eapply goes_trans; [apply G; reflexivity|]. apply goes_ext. intros p Hp.
  unfold inI. destruct (Nat.leb_spec 0 p); [|lia]. destruct (Nat.ltb_spec p (0 + np)); [auto|lia].
Qed.

End CrystalProof.

Section Posts.
Context {W : Type}.
Variable toN : W -> nat.
Variable ofN : nat -> W.
Variable usize INT_MAX np : nat.

(** ** Number of messages *)
Lemma posts_bind {A B} (k j : nat) (p : prog W A) (f : A -> prog W B) :
  posts_at_most k p -> (forall a, posts_at_most j (f a)) -> posts_at_most (k + j) (pbind p f).
Proof.
  intros H Hf. induction H; cbn [pbind].
  - specialize (Hf a). revert Hf. generalize (f a). intros q Hq.
    clear -Hq. induction Hq as [| |j0 s r f0 H IH|j0 h f0 H IH].
    + constructor.
    + constructor.
    + replace (k + S j0) with (S (k + j0)) by lia. constructor; auto.
    + constructor; auto.
  - constructor.
  - cbn [Nat.add]. constructor; auto.
  - constructor; auto.
Qed.

Lemma posts_le {A} k j (p : prog W A) : posts_at_most k p -> k <= j -> posts_at_most j p.
Proof.
  intros H; revert j; induction H; intros j Hj; try constructor; auto.
  destruct j as [|j]; [lia|]. constructor. intros h. apply H0. lia.
Qed.

Lemma exchange_posts id data work targ recvn tag :
  posts_at_most 2 (crystal_exchange toN ofN id data work targ recvn tag).
Proof.
  unfold crystal_exchange, comm. constructor. intros h. constructor. intros cs.
  destruct (forallb _ cs); [|constructor]. constructor. intros h'. constructor. intros ms.
  destruct (forallb _ _); constructor.
Qed.

Lemma crystal_loop_posts id : forall fuel bl n tag data k, n <= 2 ^ k ->
  posts_at_most (2 * k) (crystal_loop toN ofN usize INT_MAX id fuel bl n tag data).
Proof.
  induction fuel as [|fuel IH]; intros bl n tag data k Hk; cbn [crystal_loop];
    destruct (Nat.leb_spec n 1); try constructor.
  destruct k as [|k]; [simpl in Hk; lia|]. rewrite Nat.pow_succ_r' in Hk.
  replace (2 * S k) with (0 + (2 + 2 * k)) by lia. apply posts_bind.
  - destruct (crystal_move _ _ _ _); constructor.
  - intros [keep work]. destruct (INT_MAX <=? _); [constructor|]. apply posts_bind; [apply exchange_posts|].
    intros data'. destruct (id <? _); apply IH; lia.
Qed.

Theorem crystal_router_posts id data :
  posts_at_most (2 * Nat.log2_up np) (crystal_router toN ofN usize INT_MAX np id data).
Proof.
  apply crystal_loop_posts. destruct (le_lt_dec np 1) as [H|H].
  - destruct np as [|[|]]; simpl; try lia.
  - apply Nat.log2_up_spec; auto.
Qed.
End Posts.


(** In any run a program posts no more groups than it may. *)
Lemma posts_exec {W A} k (p0 : nat) : forall sched (st st' : list (pstate W A)) ps ps' n,
  nth_error st p0 = Some ps -> posts_at_most n (cur ps) -> length (log ps) + n <= k ->
  exec st sched = Some st' -> nth_error st' p0 = Some ps' -> length (log ps') <= k.
Proof.
  induction sched as [|[p b] sched IH]; intros st st' ps ps' n Hp Hn Hk H Hp'; cbn [exec] in H.
  - injection H as <-. rewrite Hp in Hp'. injection Hp' as <-. lia.
  - destruct (pstep b st p) as [s1|] eqn:E; [|discriminate].
    destruct (Nat.eq_dec p p0) as [->|Hne].
    + unfold pstep in E. rewrite Hp in E.
      destruct (cur ps) as [a| |s r f|h f] eqn:Ec; try discriminate.
      * injection E as <-. inversion Hn; subst.
        eapply IH; [| | |exact H|exact Hp'];
          [apply nth_error_upd_eq; eapply nth_error_Some_lt; eauto|cbn [cur]; eauto|
           cbn [log]; rewrite app_length; simpl; lia].
      * destruct (nth_error (log ps) h) as [[s r]|]; [|discriminate].
        destruct (recv_all _ _ _ _) as [ms|]; [|discriminate].
        destruct (b || _); [|discriminate]. injection E as <-. inversion Hn; subst.
        eapply IH; [| | |exact H|exact Hp'];
          [apply nth_error_upd_eq; eapply nth_error_Some_lt; eauto|cbn [cur]; eauto|
           cbn [log]; lia].
    + destruct (pstep_inv _ _ _ _ E) as (x & x' & l & _ & -> & _).
      apply (IH (upd st p x') st' ps ps' n); auto. rewrite nth_error_upd_ne; auto.
Qed.

(** Every group posted satisfies G. *)
Inductive posts_only {W A} (G : list (@send W) -> Prop) : prog W A -> Prop :=
| po_ret a : posts_only G (Ret a)
| po_stop : posts_only G Stop
| po_post s r f : G s -> (forall h, posts_only G (f h)) -> posts_only G (Post s r f)
| po_wait h f : (forall ms, posts_only G (f ms)) -> posts_only G (Wait h f).

Lemma po_bind {W A B} G (p : prog W A) (f : A -> prog W B) :
  posts_only G p -> (forall a, posts_only G (f a)) -> posts_only G (pbind p f).
Proof. intros H Hf. induction H; cbn [pbind]; auto; constructor; auto. Qed.

Lemma po_exec {W A} G (p0 : nat) : forall sched (st st' : list (pstate W A)) ps ps',
  nth_error st p0 = Some ps -> posts_only G (cur ps) -> (forall g, In g (log ps) -> G (fst g)) ->
  exec st sched = Some st' -> nth_error st' p0 = Some ps' -> forall g, In g (log ps') -> G (fst g).
Proof.
  induction sched as [|[p b] sched IH]; intros st st' ps ps' Hp Hn Hk H Hp'; cbn [exec] in H.
  - injection H as <-. rewrite Hp in Hp'. injection Hp' as <-. auto.
  - destruct (pstep b st p) as [s1|] eqn:E; [|discriminate].
    destruct (Nat.eq_dec p p0) as [->|Hne].
    + unfold pstep in E. rewrite Hp in E.
      destruct (cur ps) as [a| |s r f|h f] eqn:Ec; try discriminate.
      * injection E as <-. inversion Hn; subst.
        eapply IH; [| | |exact H|exact Hp'];
          [apply nth_error_upd_eq; eapply nth_error_Some_lt; eauto|cbn [cur]; eauto|].
        cbn [log]. intros g Hg. apply in_app_or in Hg as [Hg|[<-|[]]]; auto.
      * destruct (nth_error (log ps) h) as [[s r]|]; [|discriminate].
        destruct (recv_all _ _ _ _) as [ms|]; [|discriminate].
        destruct (b || _); [|discriminate]. injection E as <-. inversion Hn; subst.
        eapply IH; [| | |exact H|exact Hp'];
          [apply nth_error_upd_eq; eapply nth_error_Some_lt; eauto|cbn [cur]; eauto|auto].
    + destruct (pstep_inv _ _ _ _ E) as (x & x' & l & _ & -> & _).
      apply (IH (upd st p x') st' ps ps'); auto. rewrite nth_error_upd_ne; auto.
Qed.

Theorem crystal_router_log {W} (toN : W -> nat) (ofN : nat -> W) usize INT_MAX np
    (data : nat -> list W) sched st p ps :
  exec (start (map (fun p => crystal_router toN ofN usize INT_MAX np p (data p)) (seq 0 np))) sched = Some st ->
  nth_error st p = Some ps ->
  length (log ps) <= 2 * Nat.log2_up np /\ forall g, In g (log ps) -> length (fst g) = 1.
Proof.
  intros H Hp.
  assert (Hlen : forall (sched : list (nat * bool)) (s s' : list (pstate W (list W))),
            exec s sched = Some s' -> length s' = length s).
  { clear. induction sched as [|[q b] l IH]; intros s s' H; cbn [exec] in H; [injection H as <-; auto|].
    destruct (pstep b s q) as [s1|] eqn:E; [|discriminate]. rewrite (IH _ _ H).
    apply (proj1 (pstep_grows _ _ _ _ E)). }
  assert (Hp0 : p < np).
  { apply nth_error_Some_lt in Hp. rewrite (Hlen _ _ _ H) in Hp. unfold start in Hp.
    rewrite !map_length, seq_length in Hp. auto. }
  set (q0 := PS (crystal_router toN ofN usize INT_MAX np p (data p)) []).
  assert (E0 : nth_error (start (map (fun p => crystal_router toN ofN usize INT_MAX np p (data p)) (seq 0 np))) p = Some q0).
  { unfold start. rewrite nth_error_map, nth_error_map, seq_nth_error by auto. auto. }
  split.
  - eapply (posts_exec _ p sched _ st q0 ps (2 * Nat.log2_up np)); eauto.
    apply crystal_router_posts.
  - eapply (po_exec (fun s => length s = 1) p sched _ st q0 ps); eauto; [|intros g []].
    cbn [cur q0]. unfold crystal_router.
    assert (G : forall fuel bl n tag d, posts_only (fun s => length s = 1)
              (crystal_loop toN ofN usize INT_MAX p fuel bl n tag d)); [|apply G]. clear.
    induction fuel as [|fuel IH]; intros bl n tag d; cbn [crystal_loop];
      destruct (n <=? 1); try constructor.
    apply po_bind; [destruct (crystal_move _ _ _ _); constructor|].
    intros [keep work]. destruct (INT_MAX <=? _); [constructor|]. apply po_bind.
    + unfold crystal_exchange, comm. constructor; auto. intros h. constructor. intros cs.
      destruct (forallb _ cs); [|constructor]. constructor; auto. intros h'. constructor. intros ms.
      destruct (forallb _ _); constructor.
    + intros d'. destruct (p <? _); apply IH.
Qed.
