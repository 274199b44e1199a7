(** Proofs for C60: the user-level forms. *)
From Verif Require Import Base BaseLemmas Net NetProof GsTop GsSpec GsTopProof1 GsExec Gs GsKernProof GsRunProof GsUserSpec GsUserProof GsUserProof2 TransferProof2 Param ParamGs BracketSpec BracketProof CopiesProof.
From Coq Require Import Permutation.

Section User.
Variable usize np : nat.
Variable ids : nat -> list Z.
Variable hs : nat -> gs_data.
Hypothesis ok : handle_ok usize np ids hs.
Variable t : bool.

Lemma bracket_modes mode vn : vn <> 0 -> (mode = mode_plain -> vn = 1) -> exists tr : nat -> nat -> nat -> expr,
  (forall p i k, p < np -> i < length (ids p) -> k < vn ->
     Permutation (leaves (tr p i k)) (map (fun c => (fst c, snd c, k)) (contributors np ids t p i))) /\
  forall (T : Type) (op : T -> T -> T) (e : T) v u buf,
    (forall p, p < np -> data_ok mode vn (u p) (length (ids p)) (v p)) ->
    (forall p, p < np -> length (buf p) = vn * buffer_size (g_r (hs p))) ->
    exists w, (forall p, p < np -> data_ok mode vn (w p) (length (ids p)) (fun i k => eval op e v (tr p i k))) /\
      always_returns (map (fun p => gs_aux op e (UINT_MAX usize) mode vn np p t (hs p) (u p) (buf p)) (seq 0 np)) (map w (seq 0 np)).
Proof.
  intros Hv Hm. destruct (bracketing usize np ids hs ok mode vn Hv Hm t) as (tr & P & R). exists tr. split; [|exact R].
  intros p i k Hp Hi Hk. rewrite <- contrib_eq by auto. apply P; auto.
Qed.

Context {T : Type}.
Variable op : T -> T -> T.
Variable e : T.
Lemma labels_same p i j : i < length (ids p) -> j < length (ids p) ->
  nth i (ids p) 0%Z <> 0%Z ->
  (if t then nth i (ids p) 0%Z = nth j (ids p) 0%Z /\ (0 < nth i (ids p) 0)%Z else Z.abs (nth i (ids p) 0%Z) = Z.abs (nth j (ids p) 0%Z)) ->
  label_at (ids p) i <> 0 /\ label_at (ids p) i = label_at (ids p) j /\ (t = true -> is_flagged (ids p) i = false /\ is_flagged (ids p) j = false).
Proof.
  intros Hi Hj N S. unfold label_at, is_flagged, id_at. destruct t; repeat split; intros; try discriminate; try (apply Z.ltb_ge); lia.
Qed.
Definition same (p i j : nat) : Prop :=
  nth i (ids p) 0%Z <> 0%Z /\ (if t then nth i (ids p) 0%Z = nth j (ids p) 0%Z /\ (0 < nth i (ids p) 0)%Z else Z.abs (nth i (ids p) 0%Z) = Z.abs (nth j (ids p) 0%Z)).
Lemma copies_modes mode vn : vn <> 0 -> (mode = mode_plain -> vn = 1) -> forall v u buf w,
  (forall p, p < np -> data_ok mode vn (u p) (length (ids p)) (v p)) ->
  (forall p, p < np -> length (buf p) = vn * buffer_size (g_r (hs p))) ->
  always_returns (map (fun p => gs_aux op e (UINT_MAX usize) mode vn np p t (hs p) (u p) (buf p)) (seq 0 np)) (map w (seq 0 np)) ->
  exists f, (forall p, p < np -> data_ok mode vn (w p) (length (ids p)) (f p)) /\
    forall p i j k, p < np -> i < length (ids p) -> j < length (ids p) -> k < vn -> same p i j -> f p i k = f p j k.
Proof.
  intros Hv Hm v u buf w Hu Hb V. destruct (bracketing usize np ids hs ok mode vn Hv Hm t) as (tr & _ & R).
  destruct (R T op e v u buf Hu Hb) as (w' & D & V'). exists (fun p i k => eval op e v (tr p i k)).
  assert (E : forall p, p < np -> w p = w' p) by (apply (returns_fun_at np _ _ _ V V')).
  assert (D' : forall p, p < np -> data_ok mode vn (w p) (length (ids p)) (fun i k => eval op e v (tr p i k))) by (intros p Hp; rewrite E; auto).
  split; auto. intros p i j k Hp Hi Hj Hk [S1 S2]. destruct (labels_same p i j Hi Hj S1 S2) as (A & B & C).
  exact (copies usize np ids hs ok mode vn Hv Hm t op e v u buf w _ Hu Hb D' V p i j k Hp Hi Hj Hk A B C).
Qed.

Lemma copies_gs u w p i j : (forall p, p < np -> length (u p) = length (ids p)) -> gs_gives usize np op e t hs u w ->
  p < np -> i < length (ids p) -> j < length (ids p) -> same p i j -> nth_error (w p) i = nth_error (w p) j.
Proof.
  intros Hu G Hp Hi Hj S.
  destruct (copies_modes mode_plain 1 ltac:(lia) ltac:(auto) (fun p i k => nth i (u p) e) (fun p => UFlat (u p)) _ (fun p => UFlat (w p)) ltac:(intros; apply plain_data; auto) (buffers_exist e np hs 1) (G _ (buffers_exist e np hs 1))) as (f & D & F).
  destruct (D p Hp) as (_ & _ & _ & N). rewrite !N by auto. f_equal. apply F; auto.
Qed.
Lemma copies_vec vn u w p i j k : 1 <= vn -> (forall p, p < np -> length (u p) = length (ids p) * vn) -> gs_vec_gives usize np op e vn t hs u w ->
  p < np -> i < length (ids p) -> j < length (ids p) -> k < vn -> same p i j -> nth_error (w p) (i * vn + k) = nth_error (w p) (j * vn + k).
Proof.
  intros Hv Hu G Hp Hi Hj Hk S. assert (Hv' : vn <> 0) by lia.
  destruct (copies_modes mode_vec vn Hv' ltac:(discriminate) (fun p i k => nth (i * vn + k) (u p) e) (fun p => UFlat (u p)) _ (fun p => UFlat (w p)) ltac:(intros; apply vec_data; auto) (buffers_exist e np hs vn) (G _ (buffers_exist e np hs vn))) as (f & D & F).
  destruct (D p Hp) as (_ & _ & N). rewrite !N by auto. f_equal. apply F; auto.
Qed.
Lemma copies_many vn u w p i j k : 1 <= vn -> (forall p, p < np -> length (u p) = vn /\ forall l, In l (u p) -> length l = length (ids p)) -> gs_many_gives usize np op e vn t hs u w ->
  p < np -> i < length (ids p) -> j < length (ids p) -> k < vn -> same p i j -> nth_error (nth k (w p) []) i = nth_error (nth k (w p) []) j.
Proof.
  intros Hv Hu G Hp Hi Hj Hk S. assert (Hv' : vn <> 0) by lia.
  destruct (copies_modes mode_many vn Hv' ltac:(discriminate) (fun p i k => nth i (nth k (u p) []) e) (fun p => UMany (u p)) _ (fun p => UMany (w p)) ltac:(intros; apply many_data; auto; apply Hu; auto) (buffers_exist e np hs vn) (G _ (buffers_exist e np hs vn))) as (f & D & F).
  destruct (D p Hp) as (_ & _ & N). destruct (N k Hk) as (l & El & _ & Nl). rewrite (nth_error_nth (w p) k [] El), !Nl by auto. f_equal. apply F; auto.
Qed.
End User.

Section Results.
Variable usize np : nat.
Variable ids : nat -> list Z.
Variable hs : nat -> gs_data.
Hypothesis ok : handle_ok usize np ids hs.
Variable t : bool.
Lemma bracket_gs : exists tr : nat -> nat -> expr,
  (forall p i, p < np -> i < length (ids p) -> Permutation (leaves (tr p i)) (map (fun c => (fst c, snd c, 0)) (contributors np ids t p i))) /\
  forall (T : Type) (op : T -> T -> T) (e : T) u, (forall p, p < np -> length (u p) = length (ids p)) ->
    gs_gives usize np op e t hs u (fun p => map (fun i => eval op e (fun q j _ => nth j (u q) e) (tr p i)) (seq 0 (length (ids p)))).
Proof.
  destruct (bracket_modes usize np ids hs ok t mode_plain 1 ltac:(lia) ltac:(auto)) as (tr & P & R). exists (fun p i => tr p i 0). split; [intros; apply P; auto|].
  intros T op e u Hu buf Hb.
  destruct (R T op e (fun p i k => nth i (u p) e) (fun p => UFlat (u p)) buf ltac:(intros; apply plain_data; auto) Hb) as (w & D & V).
  unfold gs. erewrite (map_ext_in _ w); [exact V|]. intros p Hp. apply in_seq in Hp. symmetry. apply (plain_list _ _ _ (D p ltac:(lia))).
Qed.
Lemma bracket_vec vn : 1 <= vn -> exists tr : nat -> nat -> nat -> expr,
  (forall p i k, p < np -> i < length (ids p) -> k < vn -> Permutation (leaves (tr p i k)) (map (fun c => (fst c, snd c, k)) (contributors np ids t p i))) /\
  forall (T : Type) (op : T -> T -> T) (e : T) u, (forall p, p < np -> length (u p) = length (ids p) * vn) ->
    gs_vec_gives usize np op e vn t hs u (fun p => map (fun m => eval op e (fun q j k => nth (j * vn + k) (u q) e) (tr p (m / vn) (m mod vn))) (seq 0 (length (ids p) * vn))).
Proof.
  intros Hv. assert (Hv' : vn <> 0) by lia. destruct (bracket_modes usize np ids hs ok t mode_vec vn Hv' ltac:(discriminate)) as (tr & P & R). exists tr. split; auto.
  intros T op e u Hu buf Hb.
  destruct (R T op e (fun p i k => nth (i * vn + k) (u p) e) (fun p => UFlat (u p)) buf ltac:(intros; apply vec_data; auto) Hb) as (w & D & V).
  unfold gs_vec. erewrite (map_ext_in _ w); [exact V|]. intros p Hp. apply in_seq in Hp. assert (Hp' : p < np) by lia.
  eapply data_ok_unique; [|apply (D p Hp')]. split; auto. split; [rewrite map_length, seq_length; auto|]. intros i k Hi Hk. rewrite nth_error_map, seq_nth_error by nia. cbn.
  rewrite Nat.div_add_l, Nat.div_small, Nat.add_0_r, (Nat.add_comm (i * vn)), Nat.mod_add, Nat.mod_small; auto.
Qed.
Lemma bracket_many vn : 1 <= vn -> exists tr : nat -> nat -> nat -> expr,
  (forall p i k, p < np -> i < length (ids p) -> k < vn -> Permutation (leaves (tr p i k)) (map (fun c => (fst c, snd c, k)) (contributors np ids t p i))) /\
  forall (T : Type) (op : T -> T -> T) (e : T) u, (forall p, p < np -> length (u p) = vn /\ forall l, In l (u p) -> length l = length (ids p)) ->
    gs_many_gives usize np op e vn t hs u (fun p => map (fun k => map (fun i => eval op e (fun q j k => nth j (nth k (u q) []) e) (tr p i k)) (seq 0 (length (ids p)))) (seq 0 vn)).
Proof.
  intros Hv. assert (Hv' : vn <> 0) by lia. destruct (bracket_modes usize np ids hs ok t mode_many vn Hv' ltac:(discriminate)) as (tr & P & R). exists tr. split; auto.
  intros T op e u Hu buf Hb.
  destruct (R T op e (fun p i k => nth i (nth k (u p) []) e) (fun p => UMany (u p)) buf ltac:(intros; apply many_data; auto; apply Hu; auto) Hb) as (w & D & V).
  unfold gs_many. erewrite (map_ext_in _ w); [exact V|]. intros p Hp. apply in_seq in Hp. assert (Hp' : p < np) by lia.
  eapply data_ok_unique; [|apply (D p Hp')]. split; auto. split; [rewrite map_length, seq_length; auto|]. intros k Hk.
  eexists. split; [rewrite nth_error_map, seq_nth_error by auto; reflexivity|]. cbn. split; [rewrite map_length, seq_length; auto|]. intros i Hi. rewrite nth_error_map, seq_nth_error by auto. auto.
Qed.
End Results.
