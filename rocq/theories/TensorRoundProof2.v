(** Rounding error of interpolation, gradient and tensor products. *)
From Coq Require Import Reals Lra.
From Verif Require Import Base Tensor TensorSpec TensorProof TensorFold TensorRoundSpec HalvingRound TensorRoundProof.
Local Open Scope R_scope.

(** The contractions on functions. *)
Definition ap2 (X : nat -> R) (nr : nat) (Y : nat -> R) (ns : nat) (U : nat -> R) : R :=
  sumR ns (fun j => sumR nr (fun i => X i * Y j * U (i + nr * j)%nat)).
Definition ap3 (X : nat -> R) (nr : nat) (Y : nat -> R) (ns : nat) (Z : nat -> R) (nt : nat) (U : nat -> R) : R :=
  sumR nt (fun k => sumR ns (fun j => sumR nr (fun i => X i * Y j * Z k * U (i + nr * (j + ns * k))%nat))).
Lemma in2 X nr Y ns U : sumR ns (fun j => Y j * sumR nr (fun i => U (i + j * nr)%nat * X i)) = ap2 X nr Y ns U.
Proof.
  unfold ap2. apply sum_extR. intros j Hj. rewrite sum_mulR. apply sum_extR. intros i Hi. rewrite (Nat.mul_comm j). ring.
Qed.
Lemma out2 X nr Y ns U : sumR nr (fun i => X i * sumR ns (fun j => U (i + j * nr)%nat * Y j)) = ap2 X nr Y ns U.
Proof.
  unfold ap2. rewrite <- sum_swapR. apply sum_extR. intros i Hi. rewrite sum_mulR. apply sum_extR. intros j Hj. rewrite (Nat.mul_comm j). ring.
Qed.
Lemma in3 X nr Y ns Z nt U :
  sumR nt (fun k => Z k * sumR ns (fun j => sumR nr (fun i => U (i + (j + k * ns) * nr)%nat * X i) * Y j)) = ap3 X nr Y ns Z nt U.
Proof.
  unfold ap3. apply sum_extR. intros k Hk. rewrite sum_mulR. apply sum_extR. intros j Hj.
  transitivity (Z k * Y j * sumR nr (fun i => U (i + (j + k * ns) * nr)%nat * X i)); [ring|]. rewrite sum_mulR. apply sum_extR. intros i Hi.
  replace (i + (j + k * ns) * nr)%nat with (i + nr * (j + ns * k))%nat by lia. ring.
Qed.
Lemma out3 X nr Y ns Z nt U :
  sumR nr (fun i => X i * sumR ns (fun j => sumR nt (fun k => U ((i + j * nr) + k * (nr * ns))%nat * Z k) * Y j)) = ap3 X nr Y ns Z nt U.
Proof.
  unfold ap3.
  rewrite (sum_extR nt _ (fun k => sumR nr (fun i => sumR ns (fun j => X i * Y j * Z k * U (i + nr * (j + ns * k))%nat)))) by (intros k Hk; apply sum_swapR).
  rewrite <- sum_swapR. apply sum_extR. intros i Hi. rewrite <- sum_swapR, sum_mulR. apply sum_extR. intros j Hj.
  transitivity ((X i * Y j) * sumR nt (fun k => U ((i + j * nr) + k * (nr * ns))%nat * Z k)); [ring|]. rewrite sum_mulR.
  apply sum_extR. intros k Hk. replace (i + j * nr + k * (nr * ns))%nat with (i + nr * (j + ns * k))%nat by lia. ring.
Qed.

Lemma row_abs a n l i : row R 0 (absR a) n l i = Rabs (getR a (l * n + i)).
Proof. unfold row. apply get_abs. Qed.
Lemma ap2_abs Jr nr i Js ns j u : apply2 R 0 Rplus Rmult (row R 0 (absR Jr) nr i) nr (row R 0 (absR Js) ns j) ns (absR u) =
  ap2 (fun a => Rabs (getR Jr (i * nr + a))) nr (fun b => Rabs (getR Js (j * ns + b))) ns (fun c => Rabs (getR u c)).
Proof. unfold apply2, ap2. apply sum_extR. intros b Hb. apply sum_extR. intros a Ha. rewrite !row_abs, get_abs. auto. Qed.
Lemma ap3_abs Jr nr i Js ns j Jt nt k u : apply3 R 0 Rplus Rmult (row R 0 (absR Jr) nr i) nr (row R 0 (absR Js) ns j) ns (row R 0 (absR Jt) nt k) nt (absR u) =
  ap3 (fun a => Rabs (getR Jr (i * nr + a))) nr (fun b => Rabs (getR Js (j * ns + b))) ns (fun c => Rabs (getR Jt (k * nt + c))) nt (fun c => Rabs (getR u c)).
Proof. unfold apply3, ap3. apply sum_extR. intros c Hc. apply sum_extR. intros b Hb. apply sum_extR. intros a Ha. rewrite !row_abs, get_abs. auto. Qed.

Section With.
Variable eps : R.
Variable add mul : R -> R -> R.
Hypothesis rnd : rounding eps add mul.
Variable P : products R.
Hypothesis G : accurate eps P.
Notation near := (near eps).
Let e0 : 0 <= eps := rnd_eps _ _ _ rnd.

Lemma mtxv_near y ny M x nx : (1 <= nx)%nat -> (ny <= length y)%nat -> (ny * nx <= length M)%nat -> (nx <= length x)%nat ->
  exists y', mtxv R P y ny M x nx = Ok y' /\ length y' = length y /\
  forall i, (i < ny)%nat -> near (nx + 1) (getR y' i) (sumR nx (fun k => getR M (k + i * nx) * getR x k)) (sumR nx (fun k => Rabs (getR M (k + i * nx)) * Rabs (getR x k))).
Proof.
  intros H1 H2 H3 H4. destruct (acc_mtxv _ _ G y ny M x nx H1 H2 H3 H4) as (y' & E & L & _ & H). exists y'. split; [auto|]. split; [auto|]. intros i Hi. specialize (H i Hi). unfold MtB in H.
  apply within_near. rewrite (sum_extR nx (fun k => getR (absR M) (k + i * nx) * getR (absR x) (k + 0 * nx)) (fun k => Rabs (getR M (k + i * nx)) * Rabs (getR x k))) in H by (intros k Hk; rewrite !get_abs; do 3 f_equal; lia).
  rewrite (sum_extR nx (fun k => getR M (k + i * nx) * getR x (k + 0 * nx)) (fun k => getR M (k + i * nx) * getR x k)) in H by (intros k Hk; do 2 f_equal; lia). exact H.
Qed.
Lemma mxv_near y ny M x nx : (ny <= length y)%nat -> (ny * nx <= length M)%nat -> (nx <= length x)%nat ->
  exists y', mxv R P y ny M x nx = Ok y' /\ length y' = length y /\
  forall i, (i < ny)%nat -> near (nx + 1) (getR y' i) (sumR nx (fun k => getR M (i + k * ny) * getR x k)) (sumR nx (fun k => Rabs (getR M (i + k * ny)) * Rabs (getR x k))).
Proof.
  intros H1 H2 H3. destruct (acc_mxv _ _ G y ny M x nx H1 H2 H3) as (y' & E & L & _ & H). exists y'. split; [auto|]. split; [auto|]. intros i Hi. specialize (H i Hi). unfold MB in H.
  apply within_near. rewrite (sum_extR nx (fun k => getR (absR M) (i + k * ny) * getR (absR x) (k + 0 * nx)) (fun k => Rabs (getR M (i + k * ny)) * Rabs (getR x k))) in H by (intros k Hk; rewrite !get_abs; do 3 f_equal; lia).
  rewrite (sum_extR nx (fun k => getR M (i + k * ny) * getR x (k + 0 * nx)) (fun k => getR M (i + k * ny) * getR x k)) in H by (intros k Hk; do 2 f_equal; lia). exact H.
Qed.
Lemma mxm_near C nc M na B nb : (nc * nb <= length C)%nat -> (nc * na <= length M)%nat -> (na * nb <= length B)%nat ->
  exists C', mxm R P C nc M na B nb = Ok C' /\ length C' = length C /\ (forall i, (nc * nb <= i)%nat -> getR C' i = getR C i) /\
  forall i j, (i < nc)%nat -> (j < nb)%nat ->
    near (na + 1) (getR C' (i + j * nc)) (sumR na (fun k => getR M (i + k * nc) * getR B (k + j * na))) (sumR na (fun k => Rabs (getR M (i + k * nc)) * Rabs (getR B (k + j * na)))).
Proof.
  intros H1 H2 H3. destruct (acc_mxm _ _ G C nc M na B nb H1 H2 H3) as (y' & E & L & K & H). exists y'. split; [auto|]. split; [auto|]. split; [auto|]. intros i j Hi Hj. specialize (H i j Hi Hj). unfold MB in H.
  apply within_near. rewrite (sum_extR na (fun k => getR (absR M) (i + k * nc) * getR (absR B) (k + j * na)) (fun k => Rabs (getR M (i + k * nc)) * Rabs (getR B (k + j * na)))) in H by (intros k Hk; rewrite !get_abs; auto). exact H.
Qed.

(** Data with errors: the weights X, Y, Z and the values U of which the arrays are approximations, within kx, ... roundings. *)
Notation data := (approx eps).
Lemma data_exact a o n : data 0 a o n (fun i => getR a (o + i)) (fun i => Rabs (getR a (o + i))).
Proof. intros i Hi. apply near_exact. Qed.

(** dot of a[oa...] with b[ob...]. *)
Lemma dot_near a b n k l oa ob SX AX SY AY : (oa + n <= length a)%nat -> (ob + n <= length b)%nat -> data k a oa n SX AX -> data l b ob n SY AY ->
  exists v, tensor_dot R 0 add mul (skipn oa a) (skipn ob b) n = Ok v /\ near (n + 1 + (k + l)) v (sumR n (fun i => SX i * SY i)) (sumR n (fun i => AX i * AY i)).
Proof.
  intros Ha Hb Da Db. destruct (dot_round eps add mul rnd (skipn oa a) (skipn ob b) n) as (v & E & H); [rewrite skipn_length; lia|rewrite skipn_length; lia|].
  exists v. split; [auto|]. eapply (near_lin eps add mul rnd); [| |exact H]; intros i Hi; cbv beta; rewrite get_skipnR; [apply Da|apply Db]; auto.
Qed.

Lemma i1_near Jr nr u kx ku X AX U AU : (nr <= length Jr)%nat -> (nr <= length u)%nat -> data kx Jr 0 nr X AX -> data ku u 0 nr U AU ->
  exists v, tensor_i1 R 0 add mul Jr nr u = Ok v /\ near (nr + 1 + (kx + ku)) v (sumR nr (fun i => X i * U i)) (sumR nr (fun i => AX i * AU i)).
Proof. intros HJ Hu DX DU. exact (dot_near Jr u nr kx ku 0 0 X AX U AU HJ Hu DX DU). Qed.

Lemma ig1_near wtr nr u kx ku X AX DXf ADX U AU : (2 * nr <= length wtr)%nat -> (nr <= length u)%nat -> data kx wtr 0 nr X AX -> data kx wtr nr nr DXf ADX -> data ku u 0 nr U AU ->
  exists v g0, tensor_ig1 R 0 add mul wtr nr u = Ok (v, [g0]) /\ near (nr + 1 + (kx + ku)) v (sumR nr (fun i => X i * U i)) (sumR nr (fun i => AX i * AU i)) /\ near (nr + 1 + (kx + ku)) g0 (sumR nr (fun i => DXf i * U i)) (sumR nr (fun i => ADX i * AU i)).
Proof.
  intros Hw Hu DX DDX DU. unfold tensor_ig1.
  destruct (dot_near wtr u nr kx ku nr 0 _ _ _ _ ltac:(lia) Hu DDX DU) as (g0 & E0 & H0). destruct (dot_near wtr u nr kx ku 0 0 _ _ _ _ ltac:(lia) Hu DX DU) as (v & Ev & Hv).
  cbn [skipn] in *. exists v, g0. rewrite E0. cbn [bind]. rewrite Ev. cbn [bind]. auto.
Qed.

Lemma i2_near Jr nr Js ns u work kx ky ku X AX Y AY U AU :
  (1 <= nr)%nat -> (nr <= length Jr)%nat -> (ns <= length Js)%nat -> (nr * ns <= length u)%nat -> (ns <= length work)%nat ->
  data kx Jr 0 nr X AX -> data ky Js 0 ns Y AY -> data ku u 0 (nr * ns) U AU ->
  exists v, tensor_i2 R 0 add mul P Jr nr Js ns u work = Ok v /\ near (nr + ns + 2 + (kx + ky + ku)) v (ap2 X nr Y ns U) (ap2 AX nr AY ns AU).
Proof.
  intros Hn HJ HS Hu Hw DX DY DU. unfold tensor_i2. destruct (mtxv_near work ns u Jr nr Hn Hw ltac:(nia) HJ) as (w & E & L & Hw'). rewrite E. cbn [bind].
  assert (DW : data (nr + 1 + (ku + kx)) w 0 ns (fun j => sumR nr (fun i => U (i + j * nr)%nat * X i)) (fun j => sumR nr (fun i => AU (i + j * nr)%nat * AX i))).
  { intros j Hj. eapply (near_lin eps add mul rnd); [| |exact (Hw' j Hj)]; intros i Hi; [apply DU; nia|apply DX; auto]. }
  destruct (dot_near Js w ns _ _ 0 0 Y AY _ _ HS ltac:(lia) DY DW) as (v & Ev & Hv). exists v. split; [exact Ev|]. rewrite !in2 in Hv.
  eapply (near_le eps e0); [|exact Hv]. lia.
Qed.

Lemma i3_near Jr nr Js ns Jt nt u work kx ky kz ku X AX Y AY Z AZ U AU :
  (1 <= nr)%nat -> (1 <= ns)%nat -> (nr <= length Jr)%nat -> (ns <= length Js)%nat -> (nt <= length Jt)%nat -> (nr * ns * nt <= length u)%nat -> (ns * nt + nt <= length work)%nat ->
  data kx Jr 0 nr X AX -> data ky Js 0 ns Y AY -> data kz Jt 0 nt Z AZ -> data ku u 0 (nr * ns * nt) U AU ->
  exists v, tensor_i3 R 0 add mul P Jr nr Js ns Jt nt u work = Ok v /\ near (nr + ns + nt + 3 + (kx + ky + kz + ku)) v (ap3 X nr Y ns Z nt U) (ap3 AX nr AY ns AZ nt AU).
Proof.
  intros Hn Hns HJ HS HT Hu Hw DX DY DZ DU. unfold tensor_i3.
  destruct (mtxv_near (skipn nt work) (ns * nt) u Jr nr Hn) as (w2 & E2 & L2 & H1); [rewrite skipn_length; lia|nia|auto|]. rewrite E2. cbn [bind]. rewrite skipn_length in L2.
  assert (DW2 : data (nr + 1 + (ku + kx)) w2 0 (ns * nt) (fun j => sumR nr (fun i => U (i + j * nr)%nat * X i)) (fun j => sumR nr (fun i => AU (i + j * nr)%nat * AX i))).
  { intros j Hj. eapply (near_lin eps add mul rnd); [| |exact (H1 j Hj)]; intros i Hi; [apply DU; nia|apply DX; auto]. }
  destruct (mtxv_near (firstn nt work) nt w2 Js ns Hns) as (w & E & L & H3); [rewrite firstn_length; lia|nia|auto|]. rewrite E. cbn [bind]. rewrite firstn_length in L.
  assert (DW : data (ns + 1 + (nr + 1 + (ku + kx) + ky)) w 0 nt (fun k => sumR ns (fun j => sumR nr (fun i => U (i + (j + k * ns) * nr)%nat * X i) * Y j))
    (fun k => sumR ns (fun j => sumR nr (fun i => AU (i + (j + k * ns) * nr)%nat * AX i) * AY j))).
  { intros k Hk. eapply (near_lin eps add mul rnd); [| |exact (H3 k Hk)]; intros j Hj; [apply (DW2 (j + k * ns)%nat); nia|apply DY; auto]. }
  destruct (dot_near Jt w nt _ _ 0 0 Z AZ _ _ HT ltac:(lia) DZ DW) as (v & Ev & Hv). exists v. split; [exact Ev|]. rewrite !in3 in Hv.
  eapply (near_le eps e0); [|exact Hv]. lia.
Qed.

(** Row l of a weight array of n columns. *)
Lemma ig2_near wtr nr wts ns u work kx ky ku X AX DXf ADX Y AY DYf ADY U AU :
  (2 * nr <= length wtr)%nat -> (2 * ns <= length wts)%nat -> (nr * ns <= length u)%nat -> (2 * nr <= length work)%nat ->
  data kx wtr 0 nr X AX -> data kx wtr nr nr DXf ADX -> data ky wts 0 ns Y AY -> data ky wts ns ns DYf ADY -> data ku u 0 (nr * ns) U AU ->
  exists v g0 g1, tensor_ig2 R 0 add mul P wtr nr wts ns u work = Ok (v, [g0; g1]) /\
    near (nr + ns + 2 + (kx + ky + ku)) v (ap2 X nr Y ns U) (ap2 AX nr AY ns AU) /\
    near (nr + ns + 2 + (kx + ky + ku)) g0 (ap2 DXf nr Y ns U) (ap2 ADX nr AY ns AU) /\
    near (nr + ns + 2 + (kx + ky + ku)) g1 (ap2 X nr DYf ns U) (ap2 AX nr ADY ns AU).
Proof.
  intros Hr Hs Hu Hw DX DDX DY DDY DU. unfold tensor_ig2. destruct (mxm_near work nr u ns wts 2 ltac:(lia) Hu ltac:(lia)) as (w & E & L & _ & H1). rewrite E. cbn [bind].
  assert (D0 : data (ns + 1 + (ku + ky)) w 0 nr (fun i => sumR ns (fun j => U (i + j * nr)%nat * Y j)) (fun i => sumR ns (fun j => AU (i + j * nr)%nat * AY j))).
  { intros i Hi. specialize (H1 i 0%nat Hi ltac:(lia)). replace (i + 0 * nr)%nat with (0 + i)%nat in H1 by lia. eapply (near_lin eps add mul rnd); [| |exact H1]; intros j Hj; [apply DU; nia|].
    cbv beta. replace (j + 0 * ns)%nat with (0 + j)%nat by lia. apply DY; auto. }
  assert (D1 : data (ns + 1 + (ku + ky)) w nr nr (fun i => sumR ns (fun j => U (i + j * nr)%nat * DYf j)) (fun i => sumR ns (fun j => AU (i + j * nr)%nat * ADY j))).
  { intros i Hi. specialize (H1 i 1%nat Hi ltac:(lia)). replace (i + 1 * nr)%nat with (nr + i)%nat in H1 by lia. eapply (near_lin eps add mul rnd); [| |exact H1]; intros j Hj; [apply DU; nia|].
    cbv beta. replace (j + 1 * ns)%nat with (ns + j)%nat by lia. apply DDY; auto. }
  destruct (dot_near wtr w nr _ _ nr 0 _ _ _ _ ltac:(lia) ltac:(lia) DDX D0) as (g0 & E0 & H0).
  destruct (dot_near wtr w nr _ _ 0 nr _ _ _ _ ltac:(lia) ltac:(lia) DX D1) as (g1 & E1 & G1).
  destruct (dot_near wtr w nr _ _ 0 0 _ _ _ _ ltac:(lia) ltac:(lia) DX D0) as (v & Ev & Hv). cbn [skipn] in *.
  exists v, g0, g1. rewrite E0. cbn [bind]. rewrite E1. cbn [bind]. rewrite Ev. cbn [bind]. split; [auto|]. rewrite !out2 in *.
  split; [|split]; (eapply (near_le eps e0); [|eassumption]); lia.
Qed.

Lemma data_sub k a o n m S A : (m <= n)%nat -> data k a o n S A -> data k a o m S A.
Proof. intros L D i Hi. apply D. lia. Qed.

Lemma ig3_near wtr nr wts ns wtt nt u work kx ky kz ku X AX DXf ADX Y AY DYf ADY Z AZ DZf ADZ U AU :
  (2 * nr <= length wtr)%nat -> (2 * ns <= length wts)%nat -> (2 * nt <= length wtt)%nat -> (nr * ns * nt <= length u)%nat -> (2 * nr * ns + 3 * nr <= length work)%nat ->
  data kx wtr 0 nr X AX -> data kx wtr nr nr DXf ADX -> data ky wts 0 ns Y AY -> data ky wts ns ns DYf ADY -> data kz wtt 0 nt Z AZ -> data kz wtt nt nt DZf ADZ ->
  data ku u 0 (nr * ns * nt) U AU ->
  exists v g0 g1 g2, tensor_ig3 R 0 add mul P wtr nr wts ns wtt nt u work = Ok (v, [g0; g1; g2]) /\
    near (nr + ns + nt + 3 + (kx + ky + kz + ku)) v (ap3 X nr Y ns Z nt U) (ap3 AX nr AY ns AZ nt AU) /\
    near (nr + ns + nt + 3 + (kx + ky + kz + ku)) g0 (ap3 DXf nr Y ns Z nt U) (ap3 ADX nr AY ns AZ nt AU) /\
    near (nr + ns + nt + 3 + (kx + ky + kz + ku)) g1 (ap3 X nr DYf ns Z nt U) (ap3 AX nr ADY ns AZ nt AU) /\
    near (nr + ns + nt + 3 + (kx + ky + kz + ku)) g2 (ap3 X nr Y ns DZf nt U) (ap3 AX nr AY ns ADZ nt AU).
Proof.
  intros Hr Hs Ht Hu Hw DX DDX DY DDY DZ DDZ DU. unfold tensor_ig3. cbv zeta. set (nrs := (nr * ns)%nat) in *.
  destruct (mxm_near (firstn (2 * nrs) work) nrs u nt wtt 2) as (a & Ea & La & _ & A1); [rewrite firstn_length; unfold nrs; lia|auto|lia|]. rewrite Ea. cbn [bind]. rewrite firstn_length in La.
  destruct (mxm_near (firstn (2 * nr) (skipn (2 * nrs) work)) nr a ns wts 2) as (b & Eb & Lb & _ & B1); [rewrite firstn_length, skipn_length; unfold nrs in *; lia|fold nrs; unfold nrs in *; lia|lia|]. rewrite Eb. cbn [bind].
  rewrite firstn_length, skipn_length in Lb.
  destruct (mxv_near (skipn (2 * nr) (skipn (2 * nrs) work)) nr (skipn nrs a) wts ns) as (c & Ec & Lc & C1); [rewrite !skipn_length; unfold nrs in *; lia|rewrite skipn_length; unfold nrs in *; lia|lia|]. rewrite Ec. cbn [bind].
  rewrite !skipn_length in Lc.
  assert (Da : forall l Zl AZl, (l < 2)%nat -> data kz wtt (l * nt) nt Zl AZl -> forall i j, (i < nr)%nat -> (j < ns)%nat ->
    near (nt + 1 + (ku + kz)) (getR a (l * nrs + (i + j * nr))) (sumR nt (fun k => U ((i + j * nr) + k * nrs)%nat * Zl k)) (sumR nt (fun k => AU ((i + j * nr) + k * nrs)%nat * AZl k))).
  { intros l Zl AZl Hl D i j Hi Hj. assert (Hij : (i + j * nr < nrs)%nat) by (unfold nrs; nia). specialize (A1 (i + j * nr)%nat l Hij Hl). replace (i + j * nr + l * nrs)%nat with (l * nrs + (i + j * nr))%nat in A1 by lia.
    eapply (near_lin eps add mul rnd); [| |exact A1]; intros k Hk; [apply DU; nia|]. cbv beta. rewrite (Nat.add_comm k). apply D; auto. }
  assert (Db : forall l Yl AYl, (l < 2)%nat -> data ky wts (l * ns) ns Yl AYl -> data (ns + 1 + (nt + 1 + (ku + kz) + ky)) b (l * nr) nr
     (fun i => sumR ns (fun j => sumR nt (fun k => U ((i + j * nr) + k * nrs)%nat * Z k) * Yl j)) (fun i => sumR ns (fun j => sumR nt (fun k => AU ((i + j * nr) + k * nrs)%nat * AZ k) * AYl j))).
  { intros l Yl AYl Hl D i Hi. specialize (B1 i l Hi Hl). rewrite (Nat.add_comm i) in B1. eapply (near_lin eps add mul rnd); [| |exact B1]; intros j Hj.
    - apply (Da 0%nat Z AZ ltac:(lia) DZ i j Hi Hj).
    - cbv beta. rewrite (Nat.add_comm j). apply D; auto. }
  assert (Dc : data (ns + 1 + (nt + 1 + (ku + kz) + ky)) c 0 nr
     (fun i => sumR ns (fun j => sumR nt (fun k => U ((i + j * nr) + k * nrs)%nat * DZf k) * Y j)) (fun i => sumR ns (fun j => sumR nt (fun k => AU ((i + j * nr) + k * nrs)%nat * ADZ k) * AY j))).
  { intros i Hi. specialize (C1 i Hi). eapply (near_lin eps add mul rnd); [| |exact C1]; intros j Hj; [|apply DY; auto].
    cbv beta. rewrite get_skipnR. pose proof (Da 1%nat DZf ADZ ltac:(lia)) as Q. rewrite !Nat.mul_1_l in Q. apply Q; auto. }
  assert (Db0 := Db 0%nat Y AY ltac:(lia) DY). pose proof (Db 1%nat DYf ADY ltac:(lia)) as Db1. rewrite !Nat.mul_1_l in Db1. specialize (Db1 DDY). cbn [Nat.mul] in Db0.
  destruct (dot_near b wtr nr _ _ 0 nr _ _ _ _ ltac:(lia) ltac:(lia) Db0 DDX) as (g0 & E0 & H0).
  destruct (dot_near b wtr nr _ _ nr 0 _ _ _ _ ltac:(lia) ltac:(lia) Db1 DX) as (g1 & E1 & H1).
  destruct (dot_near c wtr nr _ _ 0 0 _ _ _ _ ltac:(lia) ltac:(lia) Dc DX) as (g2 & E2 & H2).
  destruct (dot_near b wtr nr _ _ 0 0 _ _ _ _ ltac:(lia) ltac:(lia) Db0 DX) as (v & Ev & Hv). cbn [skipn] in *.
  exists v, g0, g1, g2. rewrite E0. cbn [bind]. rewrite E1. cbn [bind]. rewrite E2. cbn [bind]. rewrite Ev. cbn [bind]. split; [auto|].
  assert (SW : forall X Y Z U, sumR nr (fun i => sumR ns (fun j => sumR nt (fun k => U ((i + j * nr) + k * nrs)%nat * Z k) * Y j) * X i) = ap3 X nr Y ns Z nt U).
  { intros X' Y' Z' U'. rewrite <- out3. fold nrs. apply sum_extR. intros; ring. }
  rewrite !SW in *. split; [|split; [|split]]; (eapply (near_le eps e0); [|eassumption]); lia.
Qed.

(** Tensor products of matrices. *)
Lemma t2_near out Jrt nr mr Jst ns ms u work :
  (nr * ns <= length out)%nat -> (nr * mr <= length Jrt)%nat -> (ms * ns <= length Jst)%nat -> (mr * ms <= length u)%nat -> (nr * ms <= length work)%nat ->
  exists out', tensor_2t R 0 add mul P out Jrt nr mr Jst ns ms u work = Ok out' /\ length out' = length out /\ (forall i, (nr * ns <= i)%nat -> getR out' i = getR out i) /\
    forall i j, (i < nr)%nat -> (j < ns)%nat -> near (mr + ms + 2) (getR out' (i + j * nr))
      (ap2 (fun a => getR Jrt (i * mr + a)) mr (fun b => getR Jst (j * ms + b)) ms (getR u))
      (ap2 (fun a => Rabs (getR Jrt (i * mr + a))) mr (fun b => Rabs (getR Jst (j * ms + b))) ms (fun c => Rabs (getR u c))).
Proof.
  intros Ho HJ HS Hu Hw. unfold tensor_2t. destruct (mtxm_round eps add mul rnd work nr Jrt mr u ms Hw HJ Hu) as (w & E & L & _ & H1). rewrite E. cbn [bind].
  destruct (mxm_near out nr w ms Jst ns Ho ltac:(lia) HS) as (o & Eo & Lo & H2 & H3). exists o. split; [auto|]. split; [auto|]. split; [auto|].
  intros i j Hi Hj. specialize (H3 i j Hi Hj).
  pose proof (near_lin eps add mul rnd (ms + 1) (mr + 1) 0 _ ms _ _ (fun b => sumR mr (fun k => getR Jrt (k + i * mr) * getR u (k + b * mr))) (fun b => sumR mr (fun k => Rabs (getR Jrt (k + i * mr)) * Rabs (getR u (k + b * mr))))
    (fun b => getR Jst (b + j * ms)) (fun b => Rabs (getR Jst (b + j * ms))) ltac:(intros b Hb; apply H1; auto) ltac:(intros b Hb; apply near_exact) H3) as N.
  rewrite <- !in2. eapply (near_le eps e0); [|]; [|
    rewrite (sum_extR ms _ (fun b => sumR mr (fun k => getR Jrt (k + i * mr) * getR u (k + b * mr)) * getR Jst (b + j * ms)));
    [rewrite (sum_extR ms (fun j0 => Rabs (getR Jst (j * ms + j0)) * _) (fun b => sumR mr (fun k => Rabs (getR Jrt (k + i * mr)) * Rabs (getR u (k + b * mr))) * Rabs (getR Jst (b + j * ms)))); [exact N|]|]]; [lia| |];
    intros b Hb; rewrite (Rmult_comm _ (sumR mr _)), (Nat.add_comm (j * ms)); f_equal; apply sum_extR; intros a Ha; rewrite (Nat.add_comm (i * mr)); ring.
Qed.

Lemma planes_near nr ns ms Jst k : forall p q, (k * (nr * ns) <= length p)%nat -> (k * (nr * ms) <= length q)%nat -> (ms * ns <= length Jst)%nat ->
  exists p', planes R P k nr ns ms Jst p q = Ok p' /\ length p' = length p /\
    forall c i j, (c < k)%nat -> (i < nr)%nat -> (j < ns)%nat -> near (ms + 1) (getR p' (i + j * nr + c * (nr * ns)))
      (sumR ms (fun b => getR q (i + b * nr + c * (nr * ms)) * getR Jst (b + j * ms))) (sumR ms (fun b => Rabs (getR q (i + b * nr + c * (nr * ms))) * Rabs (getR Jst (b + j * ms)))).
Proof.
  induction k as [|k IH]; intros p q Hp Hq HJ.
  - exists p. split; [auto|]. split; [auto|]. intros; lia.
  - cbn [planes]. destruct (mxm_near p nr q ms Jst ns ltac:(lia) ltac:(lia) HJ) as (p1 & E1 & L1 & H2 & H1). rewrite E1. cbn [bind].
    destruct (IH (skipn (nr * ns) p1) (skipn (nr * ms) q)) as (p2 & E2 & L2 & H3); [rewrite skipn_length; lia|rewrite skipn_length; lia|auto|]. rewrite E2. cbn [bind].
    assert (Lf : length (firstn (nr * ns) p1) = (nr * ns)%nat) by (rewrite firstn_length; lia). rewrite skipn_length in L2.
    eexists. split; [reflexivity|]. split; [rewrite app_length; lia|]. intros c i j Hc Hi Hj. rewrite (fget_app R 0), Lf.
    assert (Hij : (i + j * nr < nr * ns)%nat) by nia. destruct c as [|c].
    + rewrite (proj2 (Nat.ltb_lt _ _)) by lia. rewrite (fget_firstn R 0) by lia. replace (i + j * nr + 0 * (nr * ns))%nat with (i + j * nr)%nat by lia. specialize (H1 i j Hi Hj).
      rewrite (sum_extR ms _ (fun k => getR q (i + k * nr) * getR Jst (k + j * ms))) by (intros b Hb; do 2 f_equal; lia).
      rewrite (sum_extR ms (fun b => Rabs (getR q _) * _) (fun k => Rabs (getR q (i + k * nr)) * Rabs (getR Jst (k + j * ms)))) by (intros b Hb; do 3 f_equal; lia). exact H1.
    + rewrite (proj2 (Nat.ltb_ge _ _)) by lia. replace (i + j * nr + S c * (nr * ns) - nr * ns)%nat with (i + j * nr + c * (nr * ns))%nat by lia. specialize (H3 c i j ltac:(lia) Hi Hj).
      rewrite (sum_extR ms _ (fun b => getR (skipn (nr * ms) q) (i + b * nr + c * (nr * ms)) * getR Jst (b + j * ms))) by (intros b Hb; rewrite get_skipnR; do 2 f_equal; lia).
      rewrite (sum_extR ms (fun b => Rabs (getR q _) * _) (fun b => Rabs (getR (skipn (nr * ms) q) (i + b * nr + c * (nr * ms))) * Rabs (getR Jst (b + j * ms)))) by (intros b Hb; rewrite get_skipnR; do 3 f_equal; lia). exact H3.
Qed.

Lemma mix3 X nr Y ns Z nt U : sumR nt (fun c => sumR ns (fun b => sumR nr (fun a => X a * U (a + (b + c * ns) * nr)%nat) * Y b) * Z c) = ap3 X nr Y ns Z nt U.
Proof.
  rewrite <- in3. apply sum_extR. intros c Hc. rewrite Rmult_comm. f_equal. apply sum_extR. intros b Hb. f_equal. apply sum_extR. intros; ring.
Qed.
Lemma t3_near out Jrt nr mr Jst ns ms Jtt nt mt u work :
  (nr * ns * nt <= length out)%nat -> (nr * mr <= length Jrt)%nat -> (ms * ns <= length Jst)%nat -> (mt * nt <= length Jtt)%nat -> (mr * (ms * mt) <= length u)%nat ->
  (nr * (ms + ns) * mt <= length work)%nat ->
  exists out', tensor_3t R 0 add mul P out Jrt nr mr Jst ns ms Jtt nt mt u work = Ok out' /\ length out' = length out /\ (forall i, (nr * ns * nt <= i)%nat -> getR out' i = getR out i) /\
    forall i j k, (i < nr)%nat -> (j < ns)%nat -> (k < nt)%nat -> near (mr + ms + mt + 3) (getR out' (i + nr * (j + ns * k)))
      (ap3 (fun a => getR Jrt (i * mr + a)) mr (fun b => getR Jst (j * ms + b)) ms (fun c => getR Jtt (k * mt + c)) mt (getR u))
      (ap3 (fun a => Rabs (getR Jrt (i * mr + a))) mr (fun b => Rabs (getR Jst (j * ms + b))) ms (fun c => Rabs (getR Jtt (k * mt + c))) mt (fun c => Rabs (getR u c))).
Proof.
  intros Ho HJ HS HT Hu Hw. unfold tensor_3t. cbv zeta.
  destruct (mtxm_round eps add mul rnd (firstn (nr * (ms * mt)) work) nr Jrt mr u (ms * mt)) as (w1 & E1 & L1 & _ & H1); [rewrite firstn_length; nia|auto|auto|]. rewrite E1. cbn [bind].
  rewrite firstn_length in L1.
  destruct (planes_near nr ns ms Jst mt (skipn (nr * (ms * mt)) work) w1) as (w2 & E2 & L2 & H2); [rewrite skipn_length; nia|nia|auto|]. rewrite E2. cbn [bind].
  rewrite skipn_length in L2.
  destruct (mxm_near out (nr * ns) w2 mt Jtt nt) as (o & Eo & Lo & H4 & H3); [auto|nia|auto|]. exists o. split; [auto|]. split; [auto|]. split; [auto|].
  intros i j k Hi Hj Hk. replace (i + nr * (j + ns * k))%nat with ((i + j * nr) + k * (nr * ns))%nat by lia. specialize (H3 (i + j * nr)%nat k ltac:(nia) Hk).
  assert (W2 : forall c, (c < mt)%nat -> near (ms + 1 + (mr + 1 + 0)) (getR w2 (i + j * nr + c * (nr * ns)))
    (sumR ms (fun b => sumR mr (fun a => getR Jrt (i * mr + a) * getR u (a + (b + c * ms) * mr)) * getR Jst (j * ms + b)))
    (sumR ms (fun b => sumR mr (fun a => Rabs (getR Jrt (i * mr + a)) * Rabs (getR u (a + (b + c * ms) * mr))) * Rabs (getR Jst (j * ms + b))))).
  { intros c Hc. eapply (near_lin eps add mul rnd); [| |exact (H2 c i j Hc Hi Hj)]; intros b Hb; cbv beta.
    - pose proof (H1 i (b + c * ms)%nat Hi ltac:(nia)) as Q. replace (i + (b + c * ms) * nr)%nat with (i + b * nr + c * (nr * ms))%nat in Q by lia.
      rewrite (sum_extR mr (fun a => getR Jrt (i * mr + a) * _) (fun k => getR Jrt (k + i * mr) * getR u (k + (b + c * ms) * mr))) by (intros a Ha; do 2 f_equal; lia).
      rewrite (sum_extR mr (fun a => Rabs (getR Jrt (i * mr + a)) * _) (fun k => Rabs (getR Jrt (k + i * mr)) * Rabs (getR u (k + (b + c * ms) * mr)))) by (intros a Ha; do 3 f_equal; lia). exact Q.
    - rewrite (Nat.add_comm b). apply near_exact. }
  assert (N : near (mt + 1 + (ms + 1 + (mr + 1 + 0) + 0)) (getR o (i + j * nr + k * (nr * ns)))
    (sumR mt (fun c => sumR ms (fun b => sumR mr (fun a => getR Jrt (i * mr + a) * getR u (a + (b + c * ms) * mr)) * getR Jst (j * ms + b)) * getR Jtt (k * mt + c)))
    (sumR mt (fun c => sumR ms (fun b => sumR mr (fun a => Rabs (getR Jrt (i * mr + a)) * Rabs (getR u (a + (b + c * ms) * mr))) * Rabs (getR Jst (j * ms + b))) * Rabs (getR Jtt (k * mt + c))))).
  { eapply (near_lin eps add mul rnd); [| |exact H3]; intros c Hc; cbv beta; [apply (W2 c Hc)|]. rewrite (Nat.add_comm c). apply near_exact. }
  rewrite (mix3 (fun a => getR Jrt (i * mr + a)) mr (fun b => getR Jst (j * ms + b)) ms (fun c => getR Jtt (k * mt + c)) mt (getR u)) in N.
  rewrite (mix3 (fun a => Rabs (getR Jrt (i * mr + a))) mr (fun b => Rabs (getR Jst (j * ms + b))) ms (fun c => Rabs (getR Jtt (k * mt + c))) mt (fun q => Rabs (getR u q))) in N.
  eapply (near_le eps e0); [|exact N]. lia.
Qed.
End With.
