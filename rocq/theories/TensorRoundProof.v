(** Rounding error of the kernels of tensor.h. *)
From Coq Require Import Reals Lra.
From Verif Require Import Base Tensor TensorSpec TensorProof TensorFold TensorRoundSpec HalvingRound.
Local Open Scope R_scope.

Notation sumR := (sum R 0 Rplus).
Definition sum_extR := TensorProof.sum_ext R 0 Rplus.
Definition sum_mulR := sum_mul R 0 1 Rplus Rmult Rminus Ropp RTheory.
Definition sum_swapR := sum_swap R 0 1 Rplus Rmult Rminus Ropp RTheory.
Definition sum_shiftR := sum_shift R 0 1 Rplus Rmult Rminus Ropp RTheory.
Definition get_skipnR := fget_skipn R 0.

Lemma get_abs a i : getR (absR a) i = Rabs (getR a i).
Proof. unfold get. rewrite <- Rabs_R0 at 1. apply map_nth. Qed.
Lemma sum_le n f g : (forall i, (i < n)%nat -> f i <= g i) -> sumR n f <= sumR n g.
Proof. induction n as [|n IH]; intros H; cbn [sum]; [lra|]. pose proof (H n ltac:(lia)). assert (sumR n f <= sumR n g) by (apply IH; auto). lra. Qed.

Section Round.
Variable eps : R.
Variable add mul : R -> R -> R.
Hypothesis rnd : rounding eps add mul.
Notation near := (near eps).
Let e0 : 0 <= eps := rnd_eps _ _ _ rnd.

Lemma near_size k x S A : near k x S A -> Rabs x <= (1 + eps) ^ k * A.
Proof. intros [H1 H2]. replace x with ((x - S) + S) by ring. eapply Rle_trans; [apply Rabs_triang|]. lra. Qed.
Lemma near_times k l x y S S' A A' : near k x S A -> near l y S' A' -> near (k + l) (x * y) (S * S') (A * A').
Proof.
  intros H H'. pose proof (near_size _ _ _ _ H') as Y. pose proof (near_pos eps _ _ _ _ H) as PA. pose proof (near_pos eps _ _ _ _ H') as PA'. destruct H as [H1 H2], H' as [H3 H4].
  split; [rewrite Rabs_mult; apply Rmult_le_compat; auto using Rabs_pos|].
  replace (x * y - S * S') with ((x - S) * y + S * (y - S')) by ring. eapply Rle_trans; [apply Rabs_triang|]. rewrite !Rabs_mult, pow_add.
  assert (U : Rabs (x - S) * Rabs y <= ((1 + eps) ^ k - 1) * A * ((1 + eps) ^ l * A')) by (apply Rmult_le_compat; auto using Rabs_pos).
  assert (V : Rabs S * Rabs (y - S') <= A * (((1 + eps) ^ l - 1) * A')) by (apply Rmult_le_compat; auto using Rabs_pos). lra.
Qed.
Lemma near_sum k n f F G : (forall i, (i < n)%nat -> near k (f i) (F i) (G i)) -> near k (sumR n f) (sumR n F) (sumR n G).
Proof.
  induction n as [|n IH]; intros H; cbn [sum].
  - split; rewrite ?Rminus_0_r, ?Rabs_R0; lra.
  - apply near_plus; auto.
Qed.
(** Errors in the data on top of the error of the operation. *)
Lemma near_trans m k x y z S A : near m z x y -> near k x S A -> y <= (1 + eps) ^ k * A -> near (m + k) z S A.
Proof.
  intros [H1 H2] [H3 H4] Y. split; auto. replace (z - S) with ((z - x) + (x - S)) by ring. eapply Rle_trans; [apply Rabs_triang|]. rewrite pow_add.
  pose proof (pow_ge eps e0 m). assert (((1 + eps) ^ m - 1) * y <= ((1 + eps) ^ m - 1) * ((1 + eps) ^ k * A)) by (apply Rmult_le_compat_l; lra). lra.
Qed.
Lemma near_lin m k l z n X Y SX AX SY AY :
  (forall i, (i < n)%nat -> near k (X i) (SX i) (AX i)) -> (forall i, (i < n)%nat -> near l (Y i) (SY i) (AY i)) ->
  near m z (sumR n (fun i => X i * Y i)) (sumR n (fun i => Rabs (X i) * Rabs (Y i))) ->
  near (m + (k + l)) z (sumR n (fun i => SX i * SY i)) (sumR n (fun i => AX i * AY i)).
Proof.
  intros HX HY Hz. eapply near_trans; [exact Hz|apply near_sum; intros i Hi; apply near_times; auto|]. rewrite sum_mulR. apply sum_le. intros i Hi.
  pose proof (near_size _ _ _ _ (HX i Hi)). pose proof (near_size _ _ _ _ (HY i Hi)). rewrite pow_add.
  replace ((1 + eps) ^ k * (1 + eps) ^ l * (AX i * AY i)) with ((1 + eps) ^ k * AX i * ((1 + eps) ^ l * AY i)) by ring. apply Rmult_le_compat; auto using Rabs_pos.
Qed.
Lemma near_prod n X Y : Rabs (sumR n (fun i => X i * Y i)) <= sumR n (fun i => Rabs (X i) * Rabs (Y i)).
Proof.
  induction n as [|n IH]; cbn [sum]; [rewrite Rabs_R0; lra|]. eapply Rle_trans; [apply Rabs_triang|]. rewrite Rabs_mult. lra.
Qed.
Lemma within_near k z n X Y : within eps k z (sumR n (fun i => X i * Y i)) (sumR n (fun i => Rabs (X i) * Rabs (Y i))) ->
  near k z (sumR n (fun i => X i * Y i)) (sumR n (fun i => Rabs (X i) * Rabs (Y i))).
Proof. intros H. split; [apply near_prod|exact H]. Qed.

Lemma near_add k x y S S' A A' : near k x S A -> near k y S' A' -> near (k + 1) (add x y) (S + S') (A + A').
Proof. intros H H'. rewrite Nat.add_1_r. apply (near_op eps e0 add (rnd_add _ _ _ rnd)); auto. Qed.
Lemma near_acc n : forall m a f S A F G, near m a S A -> (forall i, (i < n)%nat -> near m (f i) (F i) (G i)) ->
  near (m + n) (acc R add n a f) (S + sumR n F) (A + sumR n G).
Proof.
  induction n as [|n IH]; intros m a f S A F G Ha Hf; cbn [acc].
  - cbn [sum]. rewrite !Rplus_0_r, Nat.add_0_r. auto.
  - rewrite !sum_shiftR, <- !Rplus_assoc. replace (m + Datatypes.S n)%nat with ((m + 1) + n)%nat by lia. apply IH.
    + apply near_add; auto. apply Hf. lia.
    + intros i Hi. apply (near_le eps e0 m); [lia|]. apply Hf. lia.
Qed.
Lemma near_mul x y : near 1 (mul x y) (x * y) (Rabs x * Rabs y).
Proof. rewrite <- Rabs_mult. apply (near_round eps e0 0 _ (x * y)); [apply near_exact|apply (rnd_mul _ _ _ rnd)]. Qed.
Lemma near_zero k : near k 0 0 0.
Proof. split; rewrite ?Rminus_0_r, Rabs_R0; lra. Qed.
Lemma acc_zero n X Y : near (n + 1) (acc R add n 0 (fun i => mul (X i) (Y i))) (sumR n (fun i => X i * Y i)) (sumR n (fun i => Rabs (X i) * Rabs (Y i))).
Proof.
  pose proof (near_acc n 1 0 (fun i => mul (X i) (Y i)) 0 0 (fun i => X i * Y i) (fun i => Rabs (X i) * Rabs (Y i)) (near_zero 1) (fun i _ => near_mul (X i) (Y i))) as H.
  rewrite !Rplus_0_l in H. rewrite Nat.add_comm. exact H.
Qed.
Lemma acc_first n X Y : near (n + 1) (acc R add n (mul (X 0%nat) (Y 0%nat)) (fun i => mul (X (S i)) (Y (S i)))) (sumR (S n) (fun i => X i * Y i)) (sumR (S n) (fun i => Rabs (X i) * Rabs (Y i))).
Proof.
  rewrite !sum_shiftR. rewrite Nat.add_comm. apply (near_acc n 1); [apply near_mul|intros i _; apply near_mul].
Qed.

Lemma dot_round a b n : (n <= length a)%nat -> (n <= length b)%nat -> exists v, tensor_dot R 0 add mul a b n = Ok v /\
  near (n + 1) v (sumR n (fun i => getR a i * getR b i)) (sumR n (fun i => Rabs (getR a i) * Rabs (getR b i))).
Proof.
  intros Ha Hb. unfold tensor_dot. rewrite (dot_fold R 0 add mul n a b 0 Ha Hb). eexists. split; [reflexivity|]. apply acc_zero.
Qed.

Lemma MBf_near nc M na B i j : within eps (na + 1) (MBf R 0 add mul nc M na B i j) (MB R 0 Rplus Rmult nc M na B i j) (MB R 0 Rplus Rmult nc (absR M) na (absR B) i j).
Proof.
  unfold MBf, MB. rewrite (sum_extR na (fun k => getR (absR M) (i + k * nc) * getR (absR B) (k + j * na)) (fun k => Rabs (getR M (i + k * nc)) * Rabs (getR B (k + j * na)))) by (intros; rewrite !get_abs; auto).
  apply (acc_zero na (fun k => getR M (i + k * nc)) (fun k => getR B (k + j * na))).
Qed.
Lemma MtBf_near M na B i j : (1 <= na)%nat -> within eps (na + 1) (MtBf R 0 add mul M na B i j) (MtB R 0 Rplus Rmult M na B i j) (MtB R 0 Rplus Rmult (absR M) na (absR B) i j).
Proof.
  intros Hn. unfold MtBf, MtB. rewrite (sum_extR na (fun k => getR (absR M) (k + i * na) * getR (absR B) (k + j * na)) (fun k => Rabs (getR M (k + i * na)) * Rabs (getR B (k + j * na)))) by (intros; rewrite !get_abs; auto).
  destruct na as [|n]; [lia|]. replace (S n - 1)%nat with n by lia.
  pose proof (acc_first n (fun k => getR M (k + i * S n)) (fun k => getR B (k + j * S n))) as H. cbn [Nat.add] in H.
  apply (near_le eps e0 _ (S n + 1)) in H; [|lia]. exact (proj2 H).
Qed.

(** tensor.c's own products. *)
Lemma naive_accurate : accurate eps (naive R 0 add mul).
Proof.
  constructor; cbn [naive mxv mtxv mxm]; intros.
  - destruct (mxv_fold R 0 add mul y ny M x nx) as (y' & E & L & H3 & H4); auto. exists y'. split; [auto|]. split; [auto|]. split; [auto|]. intros i Hi. rewrite H3 by auto. apply MBf_near.
  - destruct (mtxv_fold R 0 add mul ny y M x nx) as (y' & E & L & H4 & H5); auto. exists y'. split; [auto|]. split; [auto|]. split; [auto|]. intros i Hi. rewrite H4 by auto. apply MtBf_near. auto.
  - destruct (mxm_fold R 0 add mul C nc M na B nb) as (y' & E & L & H3 & H4); auto. exists y'. split; [auto|]. split; [auto|]. split; [auto|]. intros i j Hi Hj. rewrite H3 by auto. apply MBf_near.
Qed.

Lemma mtxm_rows_round nc na : forall M B, (nc * na <= length M)%nat -> (na <= length B)%nat ->
  exists l, mtxm_rows R 0 add mul nc na M B = Ok l /\ length l = nc /\
  forall i, (i < nc)%nat -> near (na + 1) (getR l i) (sumR na (fun k => getR M (k + i * na) * getR B k)) (sumR na (fun k => Rabs (getR M (k + i * na)) * Rabs (getR B k))).
Proof.
  induction nc as [|nc IH]; intros M B HM HB; [exists []; repeat split; intros; lia|].
  cbn [mtxm_rows]. destruct (dot_round M B na) as (c & E & H); [nia|auto|]. rewrite E. cbn [bind]. destruct (IH (skipn na M) B) as (l & El & L & Hl); [rewrite skipn_length; nia|auto|].
  rewrite El. cbn [bind]. exists (c :: l). split; [auto|]. split; [cbn; lia|]. intros [|i] Hi.
  - change (getR (c :: l) 0) with c. rewrite (sum_extR na (fun k => getR M (k + 0 * na) * getR B k) (fun k => getR M k * getR B k)) by (intros; f_equal; f_equal; lia).
    rewrite (sum_extR na (fun k => Rabs (getR M (k + 0 * na)) * Rabs (getR B k)) (fun k => Rabs (getR M k) * Rabs (getR B k))) by (intros; do 3 f_equal; lia). exact H.
  - specialize (Hl i ltac:(lia)). change (getR (c :: l) (S i)) with (getR l i).
    rewrite (sum_extR na (fun k => getR M (k + S i * na) * getR B k) (fun k => getR (skipn na M) (k + i * na) * getR B k)) by (intros; rewrite get_skipnR; f_equal; f_equal; lia).
    rewrite (sum_extR na (fun k => Rabs (getR M (k + S i * na)) * Rabs (getR B k)) (fun k => Rabs (getR (skipn na M) (k + i * na)) * Rabs (getR B k))) by (intros; rewrite get_skipnR; do 3 f_equal; lia). exact Hl.
Qed.
Lemma mtxm_cols_round nb nc na : forall M B, (nc * na <= length M)%nat -> (nb * na <= length B)%nat ->
  exists l, mtxm_cols R 0 add mul nb nc na M B = Ok l /\ length l = (nc * nb)%nat /\
  forall i j, (i < nc)%nat -> (j < nb)%nat -> near (na + 1) (getR l (i + j * nc)) (sumR na (fun k => getR M (k + i * na) * getR B (k + j * na))) (sumR na (fun k => Rabs (getR M (k + i * na)) * Rabs (getR B (k + j * na)))).
Proof.
  induction nb as [|nb IH]; intros M B HM HB; [exists []; repeat split; intros; cbn; lia|].
  cbn [mtxm_cols]. destruct (mtxm_rows_round nc na M B HM ltac:(nia)) as (l1 & E1 & L1 & H1). rewrite E1. cbn [bind].
  destruct (IH M (skipn na B) HM) as (l2 & E2 & L2 & H2); [rewrite skipn_length; nia|]. rewrite E2. cbn [bind].
  exists (l1 ++ l2). split; [auto|]. split; [rewrite app_length; nia|]. intros i [|j] Hi Hj; rewrite (fget_app R 0), L1.
  - rewrite (proj2 (Nat.ltb_lt _ _)) by lia. replace (i + 0 * nc)%nat with i by lia.
    rewrite (sum_extR na (fun k => getR M (k + i * na) * getR B (k + 0 * na)) (fun k => getR M (k + i * na) * getR B k)) by (intros; f_equal; f_equal; lia).
    rewrite (sum_extR na (fun k => Rabs (getR M (k + i * na)) * Rabs (getR B (k + 0 * na))) (fun k => Rabs (getR M (k + i * na)) * Rabs (getR B k))) by (intros; do 3 f_equal; lia). auto.
  - rewrite (proj2 (Nat.ltb_ge _ _)) by lia. replace (i + S j * nc - nc)%nat with (i + j * nc)%nat by lia. specialize (H2 i j Hi ltac:(lia)).
    rewrite (sum_extR na (fun k => getR M (k + i * na) * getR B (k + S j * na)) (fun k => getR M (k + i * na) * getR (skipn na B) (k + j * na))) by (intros; rewrite get_skipnR; f_equal; f_equal; lia).
    rewrite (sum_extR na (fun k => Rabs (getR M (k + i * na)) * Rabs (getR B (k + S j * na))) (fun k => Rabs (getR M (k + i * na)) * Rabs (getR (skipn na B) (k + j * na)))) by (intros; rewrite get_skipnR; do 3 f_equal; lia). exact H2.
Qed.
Lemma mtxm_round C nc M na B nb : (nc * nb <= length C)%nat -> (nc * na <= length M)%nat -> (na * nb <= length B)%nat ->
  exists C', tensor_mtxm R 0 add mul C nc M na B nb = Ok C' /\ length C' = length C /\ (forall i, (nc * nb <= i)%nat -> getR C' i = getR C i) /\
  forall i j, (i < nc)%nat -> (j < nb)%nat -> near (na + 1) (getR C' (i + j * nc)) (sumR na (fun k => getR M (k + i * na) * getR B (k + j * na))) (sumR na (fun k => Rabs (getR M (k + i * na)) * Rabs (getR B (k + j * na)))).
Proof.
  intros HC HM HB. unfold tensor_mtxm. destruct (mtxm_cols_round nb nc na M B HM ltac:(lia)) as (l & E & L & H). rewrite E. cbn [bind].
  rewrite (proj2 (Nat.leb_le _ _)) by lia. eexists. split; [reflexivity|]. split; [rewrite app_length, skipn_length; lia|]. split.
  - intros i Hi. rewrite (fget_app R 0), (proj2 (Nat.ltb_ge _ _)) by nia. rewrite get_skipnR. f_equal. lia.
  - intros i j Hi Hj. rewrite (fget_app R 0), (proj2 (Nat.ltb_lt _ _)) by nia. auto.
Qed.
End Round.
