(** What the products of tensor.c compute for an addition and a multiplication with any properties: the terms are added
    from left to right. *)
From Verif Require Import Base Tensor TensorSpec.

Section Fold.
Variable A : Type.
Variable zero : A.
Variable add mul : A -> A -> A.
Notation arr := (list A).
Notation get := (get A zero).

(** ((a + f 0) + f 1) + ... + f (n-1). *)
Fixpoint acc (n : nat) (a : A) (f : nat -> A) : A :=
  match n with O => a | S m => acc m (add a (f 0)) (fun i => f (S i)) end.
Lemma acc_ext n : forall a f g, (forall i, i < n -> f i = g i) -> acc n a f = acc n a g.
Proof. induction n as [|n IH]; intros a f g H; cbn [acc]; auto. rewrite (H 0) by lia. apply IH. intros i Hi. apply H. lia. Qed.

Lemma fget_skipn a k i : get (skipn k a) i = get a (k + i).
Proof.
  unfold TensorSpec.get. revert a. induction k as [|k IH]; intros [|x a]; auto; cbn [skipn Nat.add nth]; [destruct i; auto|apply IH].
Qed.
Lemma fget_firstn a k i : i < k -> get (firstn k a) i = get a i.
Proof.
  unfold TensorSpec.get. revert a i. induction k as [|k IH]; intros [|x a] [|i] H; auto; try lia. cbn. apply IH. lia.
Qed.
Lemma fget_app a b i : get (a ++ b) i = if i <? length a then get a i else get b (i - length a).
Proof.
  unfold TensorSpec.get. destruct (Nat.ltb_spec i (length a)); [apply app_nth1; auto|apply app_nth2; auto].
Qed.

Lemma dot_fold n : forall a b s, n <= length a -> n <= length b ->
  dot_loop A add mul n a b s = Ok (acc n s (fun i => mul (get a i) (get b i))).
Proof.
  induction n as [|n IH]; intros a b s Ha Hb; [reflexivity|].
  destruct a as [|x a]; [cbn in Ha; lia|]. destruct b as [|y b]; [cbn in Hb; lia|]. cbn [dot_loop length] in *.
  rewrite IH by lia. reflexivity.
Qed.
Lemma clear_fold n : forall y, n <= length y -> exists y', clear A zero n y = Ok y' /\ written A zero y y' n (fun _ => zero).
Proof.
  induction n as [|n IH]; intros y H.
  - exists y. split; auto. split; auto. split; [lia|auto].
  - destruct y as [|x y]; [cbn in H; lia|]. cbn [clear length] in *. destruct (IH y ltac:(lia)) as (y' & E & L & H1 & H2). rewrite E.
    cbn [bind]. eexists. split; [reflexivity|]. split; [cbn; lia|]. unfold TensorSpec.get in *. split; intros [|i] Hi; cbn [nth]; auto; try lia.
    + apply H1. lia.
    + apply H2. lia.
Qed.
Lemma axpy_fold n : forall y M x, n <= length y -> n <= length M ->
  exists y', axpy A add mul n y M x = Ok (y', skipn n M) /\ written A zero y y' n (fun i => add (get y i) (mul (get M i) x)).
Proof.
  induction n as [|n IH]; intros y M x Hy HM.
  - exists y. split; auto. split; auto. split; [lia|auto].
  - destruct y as [|y0 y]; [cbn in Hy; lia|]. destruct M as [|a M]; [cbn in HM; lia|]. cbn [axpy length] in *.
    destruct (IH y M x ltac:(lia) ltac:(lia)) as (y' & E & L & H1 & H2). rewrite E. cbn [bind skipn].
    eexists. split; [reflexivity|]. split; [cbn; lia|]. unfold TensorSpec.get in *. split; intros [|i] Hi; cbn [nth]; auto; try lia.
    + apply H1. lia.
    + apply H2. lia.
Qed.
Lemma axpys_fold nk n : forall y M X, n <= length y -> nk * n <= length M -> nk <= length X ->
  exists y', axpys A add mul nk n y M X = Ok (y', skipn nk X) /\
    written A zero y y' n (fun i => acc nk (get y i) (fun k => mul (get M (i + k * n)) (get X k))).
Proof.
  induction nk as [|nk IH]; intros y M X Hy HM HX.
  - exists y. split; auto. split; auto.
  - destruct X as [|x X]; [cbn in HX; lia|]. cbn [axpys length] in *.
    destruct (axpy_fold n y M x Hy ltac:(lia)) as (y1 & E & L1 & H1 & H2). rewrite E. cbn [bind].
    destruct (IH y1 (skipn n M) X ltac:(lia)) as (y2 & E2 & L2 & H3 & H4); [rewrite skipn_length; lia|lia|].
    rewrite E2. exists y2. split; [auto|]. split; [lia|]. split; intros i Hi.
    + rewrite H3, H1 by auto. cbn [acc]. change (get (x :: X) 0) with x. replace (i + 0 * n) with i by lia. apply acc_ext.
      intros k Hk. rewrite fget_skipn. f_equal. f_equal. lia.
    + rewrite H4, H2 by auto. auto.
Qed.

(** The products, with the terms of each entry added from left to right: beginning with zero, or (y = M^T x) with the first term. *)
Definition MBf (nc : nat) (M : arr) (na : nat) (B : arr) (i j : nat) : A :=
  acc na zero (fun k => mul (get M (i + k * nc)) (get B (k + j * na))).
Definition MtBf (M : arr) (na : nat) (B : arr) (i j : nat) : A :=
  acc (na - 1) (mul (get M (i * na)) (get B (j * na))) (fun k => mul (get M (S k + i * na)) (get B (S k + j * na))).

Lemma mxv_fold y ny M x nx : ny <= length y -> ny * nx <= length M -> nx <= length x ->
  exists y', naive_mxv A zero add mul y ny M x nx = Ok y' /\ written A zero y y' ny (fun i => MBf ny M nx x i 0).
Proof.
  intros Hy HM Hx. unfold naive_mxv. destruct (clear_fold ny y Hy) as (y1 & E1 & L1 & H1 & H2). rewrite E1. cbn [bind].
  destruct (axpys_fold nx ny y1 M x ltac:(lia) ltac:(nia) Hx) as (y2 & E2 & L2 & H3 & H4). rewrite E2. cbn [bind].
  exists y2. split; auto. split; [lia|]. split; intros i Hi.
  - rewrite H3, H1 by auto. unfold MBf. apply acc_ext. intros k Hk. f_equal. f_equal. lia.
  - rewrite H4, H2 by auto. auto.
Qed.
Lemma mtxv_fold ny : forall y M x nx, 1 <= nx -> ny <= length y -> ny * nx <= length M -> nx <= length x ->
  exists y', naive_mtxv A add mul y ny M x nx = Ok y' /\ written A zero y y' ny (fun i => MtBf M nx x i 0).
Proof.
  induction ny as [|ny IH]; intros y M x nx Hn Hy HM Hx.
  - exists y. split; auto. split; auto. split; [lia|auto].
  - destruct nx as [|n]; [lia|]. destruct x as [|x0 x]; [cbn in Hx; lia|]. destruct y as [|y0 y]; [cbn in Hy; lia|].
    destruct M as [|a M]; [cbn in HM; lia|]. cbn [naive_mtxv length] in *. rewrite dot_fold by lia. cbn [bind].
    destruct (IH y (skipn n M) (x0 :: x) (S n) ltac:(lia) ltac:(lia)) as (y' & E & L & H1 & H2); [rewrite skipn_length; lia|cbn; lia|].
    rewrite E. cbn [bind]. eexists. split; [reflexivity|]. split; [cbn; lia|]. split; intros [|i] Hi; try lia.
    + unfold MtBf. replace (S n - 1) with n by lia. unfold TensorSpec.get. cbn [nth Nat.mul]. apply acc_ext. intros k Hk. rewrite !Nat.add_0_r. reflexivity.
    + change (get y' i = MtBf (a :: M) (S n) (x0 :: x) (S i) 0). rewrite H1 by lia. unfold MtBf. replace (S n - 1) with n by lia.
      replace (get (skipn n M) (i * S n)) with (get (a :: M) (S i * S n)); [apply acc_ext; intros k Hk|].
      * rewrite fget_skipn. replace (S k + S i * S n) with (S (n + (S k + i * S n))) by lia. reflexivity.
      * rewrite fget_skipn. replace (S i * S n) with (S (n + i * S n)) by lia. reflexivity.
    + change (get y' i = get y i). apply H2. lia.
Qed.
Lemma mxm_cols_fold nb nc na : forall C M B, nc * nb <= length C -> nc * na <= length M -> na * nb <= length B ->
  (forall i, i < nc * nb -> get C i = zero) ->
  exists C', mxm_cols A add mul nb nc na C M B = Ok C' /\ written_mat A zero C C' nc nb (MBf nc M na B).
Proof.
  induction nb as [|nb IH]; intros C M B HC HM HB Hz.
  - exists C. split; auto. split; auto. split; [lia|auto].
  - cbn [mxm_cols]. destruct (axpys_fold na nc C M B ltac:(nia) ltac:(nia) ltac:(nia)) as (C1 & E1 & L1 & H1 & H2). rewrite E1. cbn [bind].
    destruct (IH (skipn nc C1) M (skipn na B)) as (C2 & E2 & L2 & H3 & H4); [rewrite skipn_length; nia|auto|rewrite skipn_length; nia| |].
    { intros i Hi. rewrite fget_skipn, H2 by lia. apply Hz. nia. }
    rewrite E2. cbn [bind]. eexists. split; [reflexivity|].
    assert (Lf : length (firstn nc C1) = nc) by (rewrite firstn_length; nia). rewrite skipn_length in L2.
    split; [rewrite app_length; nia|]. split.
    + intros i j Hi Hj. rewrite fget_app, Lf. destruct j as [|j].
      * rewrite (proj2 (Nat.ltb_lt _ _)) by lia. rewrite fget_firstn by lia. replace (i + 0 * nc) with i by lia. rewrite H1, Hz by nia.
        unfold MBf. apply acc_ext. intros k Hk. f_equal. f_equal. lia.
      * rewrite (proj2 (Nat.ltb_ge _ _)) by lia. replace (i + S j * nc - nc) with (i + j * nc) by lia. rewrite H3 by lia. unfold MBf.
        apply acc_ext. intros k Hk. f_equal. rewrite fget_skipn. f_equal. lia.
    + intros i Hi. rewrite fget_app, Lf. rewrite (proj2 (Nat.ltb_ge _ _)) by nia. rewrite H4 by nia. rewrite fget_skipn. rewrite H2 by lia. f_equal. nia.
Qed.
Lemma mxm_fold C nc M na B nb : nc * nb <= length C -> nc * na <= length M -> na * nb <= length B ->
  exists C', naive_mxm A zero add mul C nc M na B nb = Ok C' /\ written_mat A zero C C' nc nb (MBf nc M na B).
Proof.
  intros HC HM HB. unfold naive_mxm. destruct (clear_fold (nc * nb) C HC) as (C1 & E1 & L1 & H1 & H2). rewrite E1. cbn [bind].
  destruct (mxm_cols_fold nb nc na C1 M B ltac:(lia) HM HB H1) as (C2 & E2 & L2 & H3 & H4). rewrite E2. exists C2. split; auto.
  split; [lia|]. split; auto. intros i Hi. rewrite H4, H2; auto.
Qed.
End Fold.
