(** C62 for gs, gs_vec and gs_many. *)
From Verif Require Import Base BaseLemmas Net NetProof GsTop GsSpec GsTopProof1 GsExec Gs GsKernProof GsRunProof GsSetupProof GsUserSpec GsUserProof GsUserProof2 TransferProof2 BracketSpec BracketProof CopiesProof BracketProof2 ArCopiesProof.

Section User.
Variable usize lsize INT_MAX np : nat.
Variable ids : nat -> list Z.
Hypothesis fits : setup_fits usize lsize INT_MAX np ids.
Variable hs : nat -> gs_data.
Hypothesis given : setup_gives usize lsize INT_MAX np ids false gs_all_reduce hs.
Variable t : bool.
Context {T : Type}.
Variable op : T -> T -> T.
Variable e : T.

Definition alike (p i q j : nat) : Prop :=
  nth i (ids p) 0%Z <> 0%Z /\ (if t then nth i (ids p) 0%Z = nth j (ids q) 0%Z /\ (0 < nth i (ids p) 0)%Z else Z.abs (nth i (ids p) 0%Z) = Z.abs (nth j (ids q) 0%Z)).
Lemma labels_alike p q i j : alike p i q j ->
  label_at (ids p) i <> 0 /\ label_at (ids p) i = label_at (ids q) j /\ (t = true -> is_flagged (ids p) i = false /\ is_flagged (ids q) j = false).
Proof.
  intros [N S]. unfold label_at, is_flagged, id_at. destruct t; repeat split; intros; try discriminate; try (apply Z.ltb_ge); lia.
Qed.
Lemma ar_modes mode vn : vn <> 0 -> (mode = mode_plain -> vn = 1) -> forall v u buf w,
  (forall p, p < np -> data_ok mode vn (u p) (length (ids p)) (v p)) ->
  (forall p, p < np -> length (buf p) = vn * buffer_size (g_r (hs p))) ->
  always_returns (map (fun p => gs_aux op e (UINT_MAX usize) mode vn np p t (hs p) (u p) (buf p)) (seq 0 np)) (map w (seq 0 np)) ->
  exists f, (forall p, p < np -> data_ok mode vn (w p) (length (ids p)) (f p)) /\
    forall p q i j k, p < np -> q < np -> i < length (ids p) -> j < length (ids q) -> k < vn -> alike p i q j -> f p i k = f q j k.
Proof.
  intros Hv Hm v u buf w Hu Hb V. pose proof (setup_handle _ _ _ _ _ _ _ fits given) as ok. destruct (bracketing usize np ids hs ok mode vn Hv Hm t) as (tr & _ & R).
  destruct (R T op e v u buf Hu Hb) as (w' & D & V'). exists (fun p i k => eval op e v (tr p i k)).
  assert (E : forall p, p < np -> w p = w' p) by (apply (returns_fun_at np _ _ _ V V')).
  assert (D' : forall p, p < np -> data_ok mode vn (w p) (length (ids p)) (fun i k => eval op e v (tr p i k))) by (intros p Hp; rewrite E; auto).
  split; auto. intros p q i j k Hp Hq Hi Hj Hk S. destruct (labels_alike p q i j S) as (A & B & C).
  exact (ar_copies usize lsize INT_MAX np ids fits hs given mode vn t op e v u buf w _ Hu Hb D' V p q i j k Hp Hq Hi Hj Hk A B C).
Qed.

Lemma ar_gs u w p q i j : (forall p, p < np -> length (u p) = length (ids p)) -> gs_gives usize np op e t hs u w ->
  p < np -> q < np -> i < length (ids p) -> j < length (ids q) -> alike p i q j -> nth_error (w p) i = nth_error (w q) j.
Proof.
  intros Hu G Hp Hq Hi Hj S.
  destruct (ar_modes mode_plain 1 ltac:(lia) ltac:(auto) (fun p i k => nth i (u p) e) (fun p => UFlat (u p)) _ (fun p => UFlat (w p)) ltac:(intros; apply plain_data; auto) (buffers_exist e np hs 1) (G _ (buffers_exist e np hs 1))) as (f & D & F).
  destruct (D p Hp) as (_ & _ & _ & N). destruct (D q Hq) as (_ & _ & _ & N'). rewrite N, N' by auto. f_equal. apply F; auto.
Qed.
Lemma ar_vec vn u w p q i j k : 1 <= vn -> (forall p, p < np -> length (u p) = length (ids p) * vn) -> gs_vec_gives usize np op e vn t hs u w ->
  p < np -> q < np -> i < length (ids p) -> j < length (ids q) -> k < vn -> alike p i q j -> nth_error (w p) (i * vn + k) = nth_error (w q) (j * vn + k).
Proof.
  intros Hv Hu G Hp Hq Hi Hj Hk S. assert (Hv' : vn <> 0) by lia.
  destruct (ar_modes mode_vec vn Hv' ltac:(discriminate) (fun p i k => nth (i * vn + k) (u p) e) (fun p => UFlat (u p)) _ (fun p => UFlat (w p)) ltac:(intros; apply vec_data; auto) (buffers_exist e np hs vn) (G _ (buffers_exist e np hs vn))) as (f & D & F).
  destruct (D p Hp) as (_ & _ & N). destruct (D q Hq) as (_ & _ & N'). rewrite N, N' by auto. f_equal. apply F; auto.
Qed.
Lemma ar_many vn u w p q i j k : 1 <= vn -> (forall p, p < np -> length (u p) = vn /\ forall l, In l (u p) -> length l = length (ids p)) -> gs_many_gives usize np op e vn t hs u w ->
  p < np -> q < np -> i < length (ids p) -> j < length (ids q) -> k < vn -> alike p i q j -> nth_error (nth k (w p) []) i = nth_error (nth k (w q) []) j.
Proof.
  intros Hv Hu G Hp Hq Hi Hj Hk S. assert (Hv' : vn <> 0) by lia.
  destruct (ar_modes mode_many vn Hv' ltac:(discriminate) (fun p i k => nth i (nth k (u p) []) e) (fun p => UMany (u p)) _ (fun p => UMany (w p)) ltac:(intros; apply many_data; auto; apply Hu; auto) (buffers_exist e np hs vn) (G _ (buffers_exist e np hs vn))) as (f & D & F).
  destruct (D p Hp) as (_ & _ & N). destruct (N k Hk) as (l & El & _ & Nl). rewrite (nth_error_nth (w p) k [] El), !Nl by auto.
  destruct (D q Hq) as (_ & _ & N'). destruct (N' k Hk) as (l' & El' & _ & Nl'). rewrite (nth_error_nth (w q) k [] El'), !Nl' by auto. f_equal. apply F; auto.
Qed.
End User.
