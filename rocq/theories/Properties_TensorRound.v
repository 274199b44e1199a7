(** C63: the rounding error of the tensor kernels, with any addition and multiplication of bounded relative error. *)
From Coq Require Import Reals Lra.
From Verif Require Import Base Tensor TensorSpec TensorProof TensorFold TensorRoundSpec HalvingRound TensorRoundProof TensorRoundProof2.
Local Open Scope R_scope.

Notation ap1 := (apply1 R 0 Rplus Rmult).
Notation ap2 := (apply2 R 0 Rplus Rmult).
Notation ap3 := (apply3 R 0 Rplus Rmult).
(** Row l of a weight array of n columns, and its absolute values. *)
Notation rowR a n l := (row R 0 a n l).
Notation rowA a n l := (row R 0 (absR a) n l).

(** The scalar product and the matrix products of tensor.c. *)
Theorem C63_dot : forall eps add mul, rounding eps add mul -> forall a b n, (n <= length a)%nat -> (n <= length b)%nat ->
  exists v, tensor_dot R 0 add mul a b n = Ok v /\
    within eps (n + 1) v (sum R 0 Rplus n (fun i => getR a i * getR b i)) (sum R 0 Rplus n (fun i => Rabs (getR a i) * Rabs (getR b i))).
Proof. intros eps add mul H a b n Ha Hb. destruct (dot_round eps add mul H a b n Ha Hb) as (v & E & N). exists v. split; [exact E|apply N]. Qed.
Print Assumptions C63_dot.
Theorem C63_products : forall eps add mul, rounding eps add mul -> accurate eps (naive R 0 add mul).
Proof. intros eps add mul H. apply naive_accurate; auto. Qed.
Print Assumptions C63_products.
Theorem C63_mtxm : forall eps add mul, rounding eps add mul -> forall C nc M na B nb,
  (nc * nb <= length C)%nat -> (nc * na <= length M)%nat -> (na * nb <= length B)%nat ->
  exists C', tensor_mtxm R 0 add mul C nc M na B nb = Ok C' /\ length C' = length C /\ (forall i, (nc * nb <= i)%nat -> getR C' i = getR C i) /\
    forall i j, (i < nc)%nat -> (j < nb)%nat -> within eps (na + 1) (getR C' (i + j * nc)) (MtB R 0 Rplus Rmult M na B i j) (MtB R 0 Rplus Rmult (absR M) na (absR B) i j).
Proof.
  intros eps add mul H C nc M na B nb HC HM HB. destruct (mtxm_round eps add mul H C nc M na B nb HC HM HB) as (C' & E & L & K & N). exists C'. split; [auto|]. split; [auto|]. split; [auto|].
  intros i j Hi Hj. destruct (N i j Hi Hj) as [_ W]. unfold MtB. rewrite (sum_extR na (fun k => getR (absR M) _ * _) (fun k => Rabs (getR M (k + i * na)) * Rabs (getR B (k + j * na)))); [exact W|].
  intros k Hk. rewrite !get_abs. auto.
Qed.
Print Assumptions C63_mtxm.
(** The products made from an optimized matrix-matrix product. *)
Theorem C63_with_mxm : forall eps (f : list R -> nat -> list R -> nat -> list R -> nat -> res (list R)),
  (forall M na B nb C nc, (na * nc <= length C)%nat -> (na * nb <= length M)%nat -> (nb * nc <= length B)%nat ->
    exists C', f M na B nb C nc = Ok C' /\ length C' = length C /\ (forall i, (na * nc <= i)%nat -> getR C' i = getR C i) /\
      forall i j, (i < na)%nat -> (j < nc)%nat -> within eps (nb + 1) (getR C' (i + j * na)) (MB R 0 Rplus Rmult na M nb B i j) (MB R 0 Rplus Rmult na (absR M) nb (absR B) i j)) ->
  accurate eps (with_mxm R f).
Proof.
  intros eps f H. constructor; cbn [with_mxm mxv mtxv mxm]; intros.
  - destruct (H M ny x nx y 1%nat) as (y' & E & L & K & N); try lia. exists y'. split; [auto|]. split; [auto|]. split; [intros i Hi; apply K; lia|]. intros i Hi.
    specialize (N i 0%nat Hi ltac:(lia)). replace (i + 0 * ny)%nat with i in N by lia. exact N.
  - destruct (H x 1%nat M nx y ny) as (y' & E & L & K & N); try lia. exists y'. split; [auto|]. split; [auto|]. split; [intros i Hi; apply K; lia|]. intros i Hi.
    specialize (N 0%nat i ltac:(lia) Hi). replace (0 + i * 1)%nat with i in N by lia.
    assert (T : forall P Q, MB R 0 Rplus Rmult 1 P nx Q 0 i = MtB R 0 Rplus Rmult Q nx P i 0).
    { intros P Q. unfold MB, MtB. apply sum_extR. intros k Hk. rewrite Rmult_comm. do 2 f_equal; lia. }
    rewrite !T in N. exact N.
  - apply H; auto.
Qed.
Print Assumptions C63_with_mxm.

(** Interpolation, from weights and values that have errors themselves (kx, ky, kz and ku roundings; zero if exact). *)
Theorem C63_interpolation : forall eps add mul, rounding eps add mul -> forall P, accurate eps P ->
  forall kx ky kz ku X AX Y AY Z AZ U AU,
  (forall Jr nr u, (nr <= length Jr)%nat -> (nr <= length u)%nat ->
     approx eps kx Jr 0 nr X AX -> approx eps ku u 0 nr (getR U) (getR AU) ->
     exists v, tensor_i1 R 0 add mul Jr nr u = Ok v /\ within eps (nr + 1 + (kx + ku)) v (ap1 X nr U) (ap1 AX nr AU)) /\
  (forall Jr nr Js ns u work, (1 <= nr)%nat -> (nr <= length Jr)%nat -> (ns <= length Js)%nat -> (nr * ns <= length u)%nat -> (ns <= length work)%nat ->
     approx eps kx Jr 0 nr X AX -> approx eps ky Js 0 ns Y AY -> approx eps ku u 0 (nr * ns) (getR U) (getR AU) ->
     exists v, tensor_i2 R 0 add mul P Jr nr Js ns u work = Ok v /\ within eps (nr + ns + 2 + (kx + ky + ku)) v (ap2 X nr Y ns U) (ap2 AX nr AY ns AU)) /\
  (forall Jr nr Js ns Jt nt u work, (1 <= nr)%nat -> (1 <= ns)%nat -> (nr <= length Jr)%nat -> (ns <= length Js)%nat -> (nt <= length Jt)%nat ->
     (nr * ns * nt <= length u)%nat -> (ns * nt + nt <= length work)%nat ->
     approx eps kx Jr 0 nr X AX -> approx eps ky Js 0 ns Y AY -> approx eps kz Jt 0 nt Z AZ -> approx eps ku u 0 (nr * ns * nt) (getR U) (getR AU) ->
     exists v, tensor_i3 R 0 add mul P Jr nr Js ns Jt nt u work = Ok v /\
       within eps (nr + ns + nt + 3 + (kx + ky + kz + ku)) v (ap3 X nr Y ns Z nt U) (ap3 AX nr AY ns AZ nt AU)).
Proof.
  intros eps add mul rnd P G kx ky kz ku X AX Y AY Z AZ U AU. split; [|split]; intros.
  - destruct (i1_near eps add mul rnd Jr nr u kx ku X AX (getR U) (getR AU)) as (v & E & N); auto. exists v. split; [exact E|apply N].
  - destruct (i2_near eps add mul rnd P G Jr nr Js ns u work kx ky ku X AX Y AY (getR U) (getR AU)) as (v & E & N); auto. exists v. split; [exact E|apply N].
  - destruct (i3_near eps add mul rnd P G Jr nr Js ns Jt nt u work kx ky kz ku X AX Y AY Z AZ (getR U) (getR AU)) as (v & E & N); auto. exists v. split; [exact E|apply N].
Qed.
Print Assumptions C63_interpolation.

(** Interpolation with gradient: row 0 of the weights interpolates, row 1 differentiates. *)
Theorem C63_gradient : forall eps add mul, rounding eps add mul -> forall P, accurate eps P ->
  forall kx ky kz ku X AX DX ADX Y AY DY ADY Z AZ DZ ADZ U AU,
  (forall wtr nr u, (2 * nr <= length wtr)%nat -> (nr <= length u)%nat ->
     approx eps kx wtr 0 nr X AX -> approx eps kx wtr nr nr DX ADX -> approx eps ku u 0 nr (getR U) (getR AU) ->
     exists v g0, tensor_ig1 R 0 add mul wtr nr u = Ok (v, [g0]) /\ let k := (nr + 1 + (kx + ku))%nat in
       within eps k v (ap1 X nr U) (ap1 AX nr AU) /\ within eps k g0 (ap1 DX nr U) (ap1 ADX nr AU)) /\
  (forall wtr nr wts ns u work, (2 * nr <= length wtr)%nat -> (2 * ns <= length wts)%nat -> (nr * ns <= length u)%nat -> (2 * nr <= length work)%nat ->
     approx eps kx wtr 0 nr X AX -> approx eps kx wtr nr nr DX ADX -> approx eps ky wts 0 ns Y AY -> approx eps ky wts ns ns DY ADY ->
     approx eps ku u 0 (nr * ns) (getR U) (getR AU) ->
     exists v g0 g1, tensor_ig2 R 0 add mul P wtr nr wts ns u work = Ok (v, [g0; g1]) /\ let k := (nr + ns + 2 + (kx + ky + ku))%nat in
       within eps k v (ap2 X nr Y ns U) (ap2 AX nr AY ns AU) /\
       within eps k g0 (ap2 DX nr Y ns U) (ap2 ADX nr AY ns AU) /\ within eps k g1 (ap2 X nr DY ns U) (ap2 AX nr ADY ns AU)) /\
  (forall wtr nr wts ns wtt nt u work, (2 * nr <= length wtr)%nat -> (2 * ns <= length wts)%nat -> (2 * nt <= length wtt)%nat ->
     (nr * ns * nt <= length u)%nat -> (2 * nr * ns + 3 * nr <= length work)%nat ->
     approx eps kx wtr 0 nr X AX -> approx eps kx wtr nr nr DX ADX -> approx eps ky wts 0 ns Y AY -> approx eps ky wts ns ns DY ADY ->
     approx eps kz wtt 0 nt Z AZ -> approx eps kz wtt nt nt DZ ADZ -> approx eps ku u 0 (nr * ns * nt) (getR U) (getR AU) ->
     exists v g0 g1 g2, tensor_ig3 R 0 add mul P wtr nr wts ns wtt nt u work = Ok (v, [g0; g1; g2]) /\ let k := (nr + ns + nt + 3 + (kx + ky + kz + ku))%nat in
       within eps k v (ap3 X nr Y ns Z nt U) (ap3 AX nr AY ns AZ nt AU) /\ within eps k g0 (ap3 DX nr Y ns Z nt U) (ap3 ADX nr AY ns AZ nt AU) /\
       within eps k g1 (ap3 X nr DY ns Z nt U) (ap3 AX nr ADY ns AZ nt AU) /\ within eps k g2 (ap3 X nr Y ns DZ nt U) (ap3 AX nr AY ns ADZ nt AU)).
Proof.
  intros eps add mul rnd P G kx ky kz ku X AX DX ADX Y AY DY ADY Z AZ DZ ADZ U AU. split; [|split]; intros.
  - destruct (ig1_near eps add mul rnd wtr nr u kx ku X AX DX ADX (getR U) (getR AU)) as (v & g0 & E & N & N0); auto. exists v, g0. split; [exact E|]. split; [apply N|apply N0].
  - destruct (ig2_near eps add mul rnd P G wtr nr wts ns u work kx ky ku X AX DX ADX Y AY DY ADY (getR U) (getR AU)) as (v & g0 & g1 & E & N & N0 & N1); auto.
    exists v, g0, g1. split; [exact E|]. split; [apply N|]. split; [apply N0|apply N1].
  - destruct (ig3_near eps add mul rnd P G wtr nr wts ns wtt nt u work kx ky kz ku X AX DX ADX Y AY DY ADY Z AZ DZ ADZ (getR U) (getR AU)) as (v & g0 & g1 & g2 & E & N & N0 & N1 & N2); auto.
    exists v, g0, g1, g2. split; [exact E|]. split; [apply N|]. split; [apply N0|]. split; [apply N1|apply N2].
Qed.
Print Assumptions C63_gradient.

(** Tensor products of matrices. *)
Theorem C63_tensor_products : forall eps add mul, rounding eps add mul -> forall P, accurate eps P ->
  (forall out Jrt nr mr Jst ns ms u work,
     (nr * ns <= length out)%nat -> (nr * mr <= length Jrt)%nat -> (ms * ns <= length Jst)%nat -> (mr * ms <= length u)%nat -> (nr * ms <= length work)%nat ->
     exists out', tensor_2t R 0 add mul P out Jrt nr mr Jst ns ms u work = Ok out' /\ length out' = length out /\
       (forall i, (nr * ns <= i)%nat -> getR out' i = getR out i) /\
       forall i j, (i < nr)%nat -> (j < ns)%nat -> within eps (mr + ms + 2) (getR out' (i + j * nr))
         (ap2 (rowR Jrt mr i) mr (rowR Jst ms j) ms u) (ap2 (rowA Jrt mr i) mr (rowA Jst ms j) ms (absR u))) /\
  (forall out Jrt nr mr Jst ns ms Jtt nt mt u work,
     (nr * ns * nt <= length out)%nat -> (nr * mr <= length Jrt)%nat -> (ms * ns <= length Jst)%nat -> (mt * nt <= length Jtt)%nat ->
     (mr * (ms * mt) <= length u)%nat -> (nr * (ms + ns) * mt <= length work)%nat ->
     exists out', tensor_3t R 0 add mul P out Jrt nr mr Jst ns ms Jtt nt mt u work = Ok out' /\ length out' = length out /\
       (forall i, (nr * ns * nt <= i)%nat -> getR out' i = getR out i) /\
       forall i j k, (i < nr)%nat -> (j < ns)%nat -> (k < nt)%nat -> within eps (mr + ms + mt + 3) (getR out' (i + nr * (j + ns * k)))
         (ap3 (rowR Jrt mr i) mr (rowR Jst ms j) ms (rowR Jtt mt k) mt u) (ap3 (rowA Jrt mr i) mr (rowA Jst ms j) ms (rowA Jtt mt k) mt (absR u))).
Proof.
  intros eps add mul rnd P G. split; intros.
  - destruct (t2_near eps add mul rnd P G out Jrt nr mr Jst ns ms u work) as (o & E & L & K & N); auto. exists o. split; [auto|]. split; [auto|]. split; [auto|].
    intros i j Hi Hj. destruct (N i j Hi Hj) as [_ W]. rewrite ap2_abs. exact W.
  - destruct (t3_near eps add mul rnd P G out Jrt nr mr Jst ns ms Jtt nt mt u work) as (o & E & L & K & N); auto. exists o. split; [auto|]. split; [auto|]. split; [auto|].
    intros i j k Hi Hj Hk. destruct (N i j k Hi Hj Hk) as [_ W]. rewrite ap3_abs. exact W.
Qed.
Print Assumptions C63_tensor_products.

(** Exact data, and data that are not. *)
Example exact_data : forall eps a o n, approx eps 0 a o n (fun i => getR a (o + i)) (fun i => Rabs (getR a (o + i))).
Proof. intros. apply (data_exact eps). Qed.
(** Results that are a little too large. *)
Definition addup (a b : R) : R := (a + b) * (1 + / 8).
Definition mulup (a b : R) : R := a * b * (1 + / 8).
Example ex_rounding : rounding (/ 8) addup mulup /\ accurate (/ 8) (naive R 0 addup mulup).
Proof.
  assert (K : forall x, Rabs (x * (1 + / 8) - x) <= / 8 * Rabs x).
  { intros x. replace (x * (1 + / 8) - x) with (/ 8 * x) by ring. rewrite Rabs_mult, (Rabs_pos_eq (/ 8)); lra. }
  assert (H : rounding (/ 8) addup mulup) by (constructor; [lra|intros; apply K|intros; apply K]). split; [exact H|apply C63_products; exact H].
Qed.
(** The error is there: two equal weights and the values 1 and 1. *)
Example ex_error : exists v, tensor_i1 R 0 addup mulup [1; 1] 2 [1; 1] = Ok v /\ v <> ap1 (getR [1; 1]) 2 [1; 1].
Proof. eexists. split; [reflexivity|]. unfold apply1, addup, mulup. cbn. lra. Qed.
