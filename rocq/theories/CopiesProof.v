(** Proofs for C60: the entries of a group on one process agree after gs, for every operation. *)
From Verif Require Import Base BaseLemmas Net NetProof Sort SortSpec SortLemmas Transfer TransferSpec OpsSpec Comm CommSpec CommProof
  KernelSpec ListLemmas GsTop GsSpec GsLocalProof GsSortProof GsTopProof1 GsTopProof4 GsExec GsCr Gs GsKernProof GsRunProof GsSetupProof GsSetupProof2 GsUserSpec GsUserProof GsUserProof2 TransferProof2 Param ParamGs BracketSpec BracketProof.

Lemma always_bind {W A C} np (P : nat -> prog W A) (r : nat -> A) (K : nat -> A -> prog W C) (s : nat -> C) :
  always_returns (map P (seq 0 np)) (map r (seq 0 np)) -> (forall p, p < np -> K p (r p) = Ret (s p)) ->
  always_returns (map (fun p => pbind (P p) (K p)) (seq 0 np)) (map s (seq 0 np)).
Proof.
  intros (n & V) HK. destruct (V [] (start (map P (seq 0 np))) eq_refl) as (rest & fin & E & F & _).
  apply (exec_stbind K) in E.
  replace (stbind K (start (map P (seq 0 np)))) with (start (map (fun p => pbind (P p) (K p)) (seq 0 np))) in E.
  - apply (one_schedule_decides _ rest _ _ E). unfold finished in *. apply nth_error_ext. intros p. apply (f_equal (fun l => nth_error l p)) in F.
    rewrite !nth_error_map in *. rewrite nth_error_stbind. destruct (lt_dec p np) as [Hp|Hp].
    + rewrite seq_nth_error in * by auto. cbn in *. destruct (nth_error fin p) as [ps|]; [|discriminate]. cbn in *. injection F as ->. cbn. rewrite HK; auto.
    + assert (N : nth_error (seq 0 np) p = None) by (apply nth_error_None; rewrite seq_length; lia). rewrite N in *. cbn in *. destruct (nth_error fin p); auto; discriminate.
  - apply nth_error_ext. intros p. rewrite nth_error_stbind. unfold start. rewrite !nth_error_map. destruct (nth_error (seq 0 np) p) as [q|] eqn:Eq; auto. cbn.
    assert (Hq : p < length (seq 0 np)) by (apply nth_error_Some; congruence). rewrite seq_length in Hq. rewrite seq_nth_error in Eq by auto. cbn in Eq. injection Eq as <-. auto.
Qed.

Lemma data_at_eq {T} mode vn (u : udata T) n f g : data_ok mode vn u n f -> data_ok mode vn u n g -> forall i k, i < n -> k < vn -> f i k = g i k.
Proof.
  intros [Hv D] [_ D'] i k Hi Hk. destruct mode, u as [l|ls]; try tauto.
  - destruct D as [-> D], D' as [_ D']. replace k with 0 by lia. apply (proj2 D) in Hi as A. apply (proj2 D') in Hi as B. congruence.
  - pose proof (proj2 D i k Hi Hk). pose proof (proj2 D' i k Hi Hk). congruence.
  - destruct D as [L D], D' as [_ D']. destruct (D k Hk) as (l & E & A). destruct (D' k Hk) as (l' & E' & B). pose proof (proj2 A i Hi). pose proof (proj2 B i Hi). congruence.
Qed.

Section Copies.
Variable usize np : nat.
Variable ids : nat -> list Z.
Variable hs : nat -> gs_data.
Hypothesis ok : handle_ok usize np ids hs.
Variable mode : gs_mode.
Variable vn : nat.
Hypothesis Hvn : vn <> 0.
Hypothesis Hmode : mode = mode_plain -> vn = 1.
Variable t : bool.
Notation UMAX := (UINT_MAX usize).
Context {T : Type}.
Variable op : T -> T -> T.
Variable e : T.
Notation prg2 op e u buf := (map (fun p => pbind (plift (gs_before op e UMAX mode vn t (hs p) (u p))) (fun u => remote_exec op e UMAX mode vn np p t (g_r (hs p)) u (buf p))) (seq 0 np)).

Lemma prg2_returns v u buf : (forall p, p < np -> data_ok mode vn (u p) (length (ids p)) (v p)) ->
  (forall p, p < np -> length (buf p) = vn * buffer_size (g_r (hs p))) ->
  exists w f, (forall p, p < np -> data_ok mode vn (w p) (length (ids p)) (f p)) /\ always_returns (prg2 op e u buf) (map w (seq 0 np)).
Proof.
  intros Hu Hb.
  set (v0 := fun q j k : nat => 0). destruct (finite_choice (fun p u => data_ok mode vn u (length (ids p)) (v0 p)) (UFlat []) np) as [un Hun]; [intros p Hp; apply data_exists; auto|].
  set (bn := fun p => repeat 0 (vn * buffer_size (g_r (hs p)))). assert (Ln : forall p, p < np -> length (bn p) = vn * buffer_size (g_r (hs p))) by (intros; apply repeat_length).
  destruct (finite_choice _ (UFlat []) np (before_ok Nat.add 0 nat_cmonoid usize np ids hs ok mode vn t v0 un Hun)) as [u1 H1].
  destruct (hk_remote _ _ _ _ ok nat Nat.add 0 mode vn t _ u1 bn nat_cmonoid ltac:(intros p Hp; apply H1; auto) Ln (before_neutral Nat.add 0 np ids vn t v0)) as (u2 & f & H2 & G2).
  assert (V : always_returns (prg2 Nat.add 0 un bn) (map u2 (seq 0 np))).
  { apply goes_always_fun. eapply goes_trans; [|exact G2]. apply goes_ext. intros p Hp. destruct (H1 p Hp) as [-> _]. auto. }
  set (R := fun (_ : T) (_ : nat) => True).
  destruct (r_always R _ _ (ru R) (prg2 op e u buf) (prg2 Nat.add 0 un bn) (map u2 (seq 0 np))) as (rs & F & Vt); auto.
  { apply f2_seq. intros p Hp. apply (rprog_bind R (ru R) (ru R)).
    - apply rprog_lift. unfold gs_before. apply (rres_bind (ru R) (ru R)); [apply r_local_gather with (R := R); [intros; exact I|apply (ru_data _ mode vn _ _ (length (ids p)) (v p) (v0 p)); auto; intros; exact I]|].
      intros a b Hab. destruct t; [exact Hab|apply r_init; auto; exact I].
    - intros a b Hab. apply r_remote with (R := R); try exact Hab; try (intros; exact I). unfold bn. apply f2_repeat; auto. intros; exact I. }
  destruct (f2_seq_inv _ (UFlat []) _ _ _ F) as [Er F1]. exists (fun p => nth p rs (UFlat [])), (fun p => at_u e mode vn (nth p rs (UFlat []))). split.
  - intros p Hp. destruct (H2 p Hp) as [D _]. apply (data_ru R e mode vn _ _ _ _ (F1 p Hp) D).
  - rewrite <- Er. exact Vt.
Qed.

(** Entries of one label on one process that gs sets from the same representative. *)
Theorem copies v u buf w f : (forall p, p < np -> data_ok mode vn (u p) (length (ids p)) (v p)) ->
  (forall p, p < np -> length (buf p) = vn * buffer_size (g_r (hs p))) ->
  (forall p, p < np -> data_ok mode vn (w p) (length (ids p)) (f p)) ->
  always_returns (map (fun p => gs_aux op e UMAX mode vn np p t (hs p) (u p) (buf p)) (seq 0 np)) (map w (seq 0 np)) ->
  forall p i j k, p < np -> i < length (ids p) -> j < length (ids p) -> k < vn ->
  label_at (ids p) i <> 0 -> label_at (ids p) i = label_at (ids p) j ->
  (t = true -> is_flagged (ids p) i = false /\ is_flagged (ids p) j = false) -> f p i k = f p j k.
Proof.
  intros Hu Hb Dw V. destruct (prg2_returns v u buf Hu Hb) as (w2 & f2 & D2 & V2).
  destruct (finite_choice (fun p u2 => gs_after UMAX mode vn t (hs p) (w2 p) = Ok u2 /\
    data_ok mode vn u2 (length (ids p)) (fun i k => scattered (local_groups t (ids p)) (fun j => f2 p j k) i (f2 p i k))) (UFlat []) np) as [w3 H3].
  { intros p Hp. unfold gs_after. replace (if t then g_local0 (hs p) else g_local1 (hs p)) with (encode UMAX (local_groups t (ids p)))
      by (destruct t; [rewrite (hk_local0 _ _ _ _ ok p Hp)|rewrite (hk_local1 _ _ _ _ ok p Hp)]; auto).
    apply local_scatter_ok; auto. apply local_valid; auto. apply (hk_size _ _ _ _ ok p Hp). apply local_apart. }
  pose proof (always_bind np _ w2 (fun p u => plift (gs_after UMAX mode vn t (hs p) u)) w3 V2 ltac:(intros p Hp; destruct (H3 p Hp) as [-> _]; auto)) as V3.
  assert (E : forall p, p < np -> w p = w3 p).
  { apply (returns_fun_at np _ _ _ V). erewrite map_ext; [exact V3|]. intros p. unfold gs_aux. destruct (gs_before op e UMAX mode vn t (hs p) (u p)); auto. }
  intros p i j k Hp Hi Hj Hk Hx Hl Hf. set (l := ids p) in *. set (x := label_at l i) in *.
  assert (Hh : has l x = true) by (apply has_label; auto).
  assert (S : forall m, m < length l -> label_at l m = x -> (t = true -> is_flagged l m = false) -> f p m k = f2 p (prim l x) k).
  { intros m Hm Em Fm. destruct (H3 p Hp) as [_ D3]. rewrite <- (E p Hp) in D3.
    assert (Q : f p m k = scattered (local_groups t l) (fun j => f2 p j k) m (f2 p m k)) by (apply (data_at_eq mode vn (w p) (length l) (f p) (fun i k => scattered (local_groups t l) (fun j => f2 p j k) i (f2 p i k))); auto; apply Dw; auto).
    rewrite Q. destruct (Nat.eq_dec m (prim l x)) as [->|N].
    - apply local_scattered_other. intros y Hy Hhy Hin. apply (in_members t l y _ Hhy) in Hin as (A & B & _). apply in_all_at in A as [_ A]. rewrite Em in A. subst y. auto.
    - apply (local_scattered l t (fun j => f2 p j k) x); auto. apply in_members; auto. split; [apply in_all_at; auto|auto]. }
  rewrite (S i), (S j); auto; intros; apply Hf; auto.
Qed.
End Copies.
