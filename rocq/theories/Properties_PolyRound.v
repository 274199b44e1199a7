(** C64: the rounding error of Lagrange bases, and of interpolation with them. *)
From Verif Require Import Base Poly PolySpec PolyProof2 PolyRound PolyRoundSpec PolyRoundProof3.
From Verif Require Import Tensor TensorSpec TensorRoundSpec HalvingRound TensorRoundProof TensorRoundProof2 PolyRoundProof2 Properties_TensorRound.
From Coq Require Import Reals Lra.
Open Scope R_scope.
Local Notation get := PolySpec.get.

(** The routines with the exact operations are those of Poly.v. *)
Theorem C64_exact : lagrange_eval_fl Rplus Rminus Rmult = lagrange_eval /\ lagrange_coef_fl Rdiv = lagrange_coef /\ lagrange_setup_fl Rplus Rminus Rmult Rdiv = lagrange_setup.
Proof. repeat split. Qed.
Print Assumptions C64_exact.

Theorem C64_lagrange : forall eps add sub mul div, arithmetic eps add sub mul div ->
  forall n z data, (1 <= n)%nat -> (n <= length z)%nat -> (lagrange_size n <= length data)%nat -> distinct z n ->
  exists data', lagrange_setup_fl add sub mul div data z n = Ok data' /\ length data' = length data /\
    (forall k, (lagrange_size n <= k)%nat -> get data' k = get data k) /\
    forall calls, Forall (valid_call n) calls ->
      exists outs, evals (lagrange_eval_fl add sub mul) data' n calls = Ok outs /\ Forall2 (fun '(p, der, x) p' => evaluates_fl eps z n der x p p') calls outs.
Proof.
  intros eps add sub mul div H n z data Hn Hz Hd D. destruct (setup_fl_ok eps add sub mul div H data z n Hn Hd Hz D) as (d' & E & L & O & Hr). exists d'. split; [auto|]. split; [auto|]. split; [auto|].
  intros calls HF. eapply (evals_fl_ok eps add sub mul div H); eauto.
Qed.
Print Assumptions C64_lagrange.

(** The reference for the errors of the derivatives: |basis| without shift. *)
Theorem C64_shifted : forall z n i x, distinct z n -> (i < n)%nat -> shifted z n i x 0 = Rabs (basis z n i x).
Proof.
  intros z n i x D Hi. unfold shifted, basis. assert (A : forall m f, Rabs (rprod m f) = rprod m (fun j => Rabs (f j))).
  { intros m f. induction m as [|m IH]; cbn [rprod]; [apply Rabs_R1|]. rewrite Rabs_mult, IH. auto. }
  rewrite A. apply rprod_ext. intros j Hj. destruct (Nat.eqb_spec j i) as [->|N]; [rewrite Rabs_R1; auto|]. unfold Rdiv. rewrite Rabs_mult, Rabs_inv, Rplus_0_l. auto.
Qed.
Print Assumptions C64_shifted.

Lemma values_ok eps z n der x p0 p k : 0 <= inv_eps eps -> evaluates_fl eps z n der x p0 p -> (6 * n - 1 <= k)%nat -> approx (inv_eps eps) k p 0 n (fun i => basis z n i x) (fun i => Rabs (basis z n i x)).
Proof. intros E0 (_ & _ & V & _) L i Hi. apply (near_le (inv_eps eps) E0 (6 * n - 1) k); auto. apply V. auto. Qed.
Lemma exact_values eps u n : approx eps 0 u 0 n (getR u) (getR (absR u)).
Proof. intros i Hi. rewrite get_abs. apply (near_exact eps). Qed.

(** Interpolation at a point with weights so computed: seven roundings for every node in every direction. *)
Theorem C64_interpolation : forall eps add sub mul div, arithmetic eps add sub mul div -> forall P, accurate (inv_eps eps) P ->
  let B z n x := fun i => basis z n i x in let C z n x := fun i => Rabs (basis z n i x) in
  (forall zr nr dr r pr Jr u, (1 <= nr)%nat -> (nr <= length Jr)%nat -> (nr <= length u)%nat -> evaluates_fl eps zr nr dr r pr Jr ->
     exists v, tensor_i1 R 0 add mul Jr nr u = Ok v /\ within (inv_eps eps) (7 * nr) v (ap1 (B zr nr r) nr u) (ap1 (C zr nr r) nr (absR u))) /\
  (forall zr nr dr r pr Jr zs ns ds s ps Js u work, (1 <= nr)%nat -> (1 <= ns)%nat -> (nr <= length Jr)%nat -> (ns <= length Js)%nat -> (nr * ns <= length u)%nat -> (ns <= length work)%nat ->
     evaluates_fl eps zr nr dr r pr Jr -> evaluates_fl eps zs ns ds s ps Js ->
     exists v, tensor_i2 R 0 add mul P Jr nr Js ns u work = Ok v /\
       within (inv_eps eps) (7 * (nr + ns)) v (ap2 (B zr nr r) nr (B zs ns s) ns u) (ap2 (C zr nr r) nr (C zs ns s) ns (absR u))) /\
  (forall zr nr dr r pr Jr zs ns ds s ps Js zt nt dt t pt Jt u work, (1 <= nr)%nat -> (1 <= ns)%nat -> (1 <= nt)%nat ->
     (nr <= length Jr)%nat -> (ns <= length Js)%nat -> (nt <= length Jt)%nat -> (nr * ns * nt <= length u)%nat -> (ns * nt + nt <= length work)%nat ->
     evaluates_fl eps zr nr dr r pr Jr -> evaluates_fl eps zs ns ds s ps Js -> evaluates_fl eps zt nt dt t pt Jt ->
     exists v, tensor_i3 R 0 add mul P Jr nr Js ns Jt nt u work = Ok v /\
       within (inv_eps eps) (7 * (nr + ns + nt)) v (ap3 (B zr nr r) nr (B zs ns s) ns (B zt nt t) nt u) (ap3 (C zr nr r) nr (C zs ns s) ns (C zt nt t) nt (absR u))).
Proof.
  intros eps add sub mul div H P G B C. pose proof (eta0 _ _ _ _ _ H) as E0. pose proof (eta_rounding _ _ _ _ _ H) as RN. split; [|split].
  - intros zr nr dr r pr Jr u Hn HJ Hu Ev. destruct (C63_interpolation _ _ _ RN P G (6 * nr - 1) 0 0 0 (B zr nr r) (C zr nr r) (fun _ => 0) (fun _ => 0) (fun _ => 0) (fun _ => 0) u (absR u)) as (I1 & _ & _).
    destruct (I1 Jr nr u HJ Hu (values_ok _ _ _ _ _ _ _ _ E0 Ev (le_n _)) (exact_values _ u nr)) as (v & E & W). exists v. split; [auto|]. replace (7 * nr)%nat with (nr + 1 + (6 * nr - 1 + 0))%nat by lia. exact W.
  - intros zr nr dr r pr Jr zs ns ds s ps Js u work Hn Hns HJ HS Hu Hw Er Es.
    destruct (C63_interpolation _ _ _ RN P G (6 * nr - 1) (6 * ns - 1) 0 0 (B zr nr r) (C zr nr r) (B zs ns s) (C zs ns s) (fun _ => 0) (fun _ => 0) u (absR u)) as (_ & I2 & _).
    destruct (I2 Jr nr Js ns u work Hn HJ HS Hu Hw (values_ok _ _ _ _ _ _ _ _ E0 Er (le_n _)) (values_ok _ _ _ _ _ _ _ _ E0 Es (le_n _)) (exact_values _ u _)) as (v & E & W). exists v. split; [auto|].
    replace (7 * (nr + ns))%nat with (nr + ns + 2 + (6 * nr - 1 + (6 * ns - 1) + 0))%nat by lia. exact W.
  - intros zr nr dr r pr Jr zs ns ds s ps Js zt nt dt t pt Jt u work Hn Hns Hnt HJ HS HT Hu Hw Er Es Et.
    destruct (C63_interpolation _ _ _ RN P G (6 * nr - 1) (6 * ns - 1) (6 * nt - 1) 0 (B zr nr r) (C zr nr r) (B zs ns s) (C zs ns s) (B zt nt t) (C zt nt t) u (absR u)) as (_ & _ & I3).
    destruct (I3 Jr nr Js ns Jt nt u work Hn Hns HJ HS HT Hu Hw (values_ok _ _ _ _ _ _ _ _ E0 Er (le_n _)) (values_ok _ _ _ _ _ _ _ _ E0 Es (le_n _)) (values_ok _ _ _ _ _ _ _ _ E0 Et (le_n _)) (exact_values _ u _)) as (v & E & W).
    exists v. split; [auto|]. replace (7 * (nr + ns + nt))%nat with (nr + ns + nt + 3 + (6 * nr - 1 + (6 * ns - 1) + (6 * nt - 1) + 0))%nat by lia. exact W.
Qed.
Print Assumptions C64_interpolation.

(** The gradient at a point, from the basis with its derivatives. *)
Theorem C64_gradient : forall eps add sub mul div, arithmetic eps add sub mul div -> forall P, accurate (inv_eps eps) P ->
  let B z n x := fun i => basis z n i x in let C z n x := fun i => Rabs (basis z n i x) in
  let derivatives z n x D A := forall i, (i < n)%nat -> derivable_pt_lim (basis z n i) x (D i) /\ derivable_pt_lim (shifted z n i x) 0 (A i) in
  (forall zr nr dr r pr wtr zs ns ds s ps wts u work, (1 <= dr)%nat -> (1 <= ds)%nat ->
     (2 * nr <= length wtr)%nat -> (2 * ns <= length wts)%nat -> (nr * ns <= length u)%nat -> (2 * nr <= length work)%nat ->
     evaluates_fl eps zr nr dr r pr wtr -> evaluates_fl eps zs ns ds s ps wts ->
     exists DX AX DY AY v g0 g1, derivatives zr nr r DX AX /\ derivatives zs ns s DY AY /\
       tensor_ig2 R 0 add mul P wtr nr wts ns u work = Ok (v, [g0; g1]) /\ let k := (8 * (nr + ns) + 2)%nat in
       within (inv_eps eps) k v (ap2 (B zr nr r) nr (B zs ns s) ns u) (ap2 (C zr nr r) nr (C zs ns s) ns (absR u)) /\
       within (inv_eps eps) k g0 (ap2 DX nr (B zs ns s) ns u) (ap2 AX nr (C zs ns s) ns (absR u)) /\
       within (inv_eps eps) k g1 (ap2 (B zr nr r) nr DY ns u) (ap2 (C zr nr r) nr AY ns (absR u))) /\
  (forall zr nr dr r pr wtr zs ns ds s ps wts zt nt dt t pt wtt u work, (1 <= dr)%nat -> (1 <= ds)%nat -> (1 <= dt)%nat ->
     (2 * nr <= length wtr)%nat -> (2 * ns <= length wts)%nat -> (2 * nt <= length wtt)%nat -> (nr * ns * nt <= length u)%nat -> (2 * nr * ns + 3 * nr <= length work)%nat ->
     evaluates_fl eps zr nr dr r pr wtr -> evaluates_fl eps zs ns ds s ps wts -> evaluates_fl eps zt nt dt t pt wtt ->
     exists DX AX DY AY DZ AZ v g0 g1 g2, derivatives zr nr r DX AX /\ derivatives zs ns s DY AY /\ derivatives zt nt t DZ AZ /\
       tensor_ig3 R 0 add mul P wtr nr wts ns wtt nt u work = Ok (v, [g0; g1; g2]) /\ let k := (8 * (nr + ns + nt) + 3)%nat in
       within (inv_eps eps) k v (ap3 (B zr nr r) nr (B zs ns s) ns (B zt nt t) nt u) (ap3 (C zr nr r) nr (C zs ns s) ns (C zt nt t) nt (absR u)) /\
       within (inv_eps eps) k g0 (ap3 DX nr (B zs ns s) ns (B zt nt t) nt u) (ap3 AX nr (C zs ns s) ns (C zt nt t) nt (absR u)) /\
       within (inv_eps eps) k g1 (ap3 (B zr nr r) nr DY ns (B zt nt t) nt u) (ap3 (C zr nr r) nr AY ns (C zt nt t) nt (absR u)) /\
       within (inv_eps eps) k g2 (ap3 (B zr nr r) nr (B zs ns s) ns DZ nt u) (ap3 (C zr nr r) nr (C zs ns s) ns AZ nt (absR u))).
Proof.
  intros eps add sub mul div H P G B C derivatives. pose proof (eta0 _ _ _ _ _ H) as E0. pose proof (eta_rounding _ _ _ _ _ H) as RN. split.
  - intros zr nr dr r pr wtr zs ns ds s ps wts u work Hdr Hds Lr Ls Lu Lw Er Es.
    destruct Er as (Er1 & Er2 & Vr & Dr & Er3). destruct (Dr Hdr) as (DX & AX & ADX & HX). assert (Er : evaluates_fl eps zr nr dr r pr wtr) by (repeat split; auto; apply Vr; auto).
    destruct Es as (Es1 & Es2 & Vs & Ds & Es3). destruct (Ds Hds) as (DY & AY & ADY & HY). assert (Es : evaluates_fl eps zs ns ds s ps wts) by (repeat split; auto; apply Vs; auto).
    destruct (C63_gradient _ _ _ RN P G (7 * nr) (7 * ns) 0 0 (B zr nr r) (C zr nr r) DX AX (B zs ns s) (C zs ns s) DY AY (fun _ => 0) (fun _ => 0) (fun _ => 0) (fun _ => 0) u (absR u)) as (_ & I2 & _).
    destruct (I2 wtr nr wts ns u work Lr Ls Lu Lw (values_ok _ _ _ _ _ _ _ (7 * nr) E0 Er ltac:(lia)) ADX (values_ok _ _ _ _ _ _ _ (7 * ns) E0 Es ltac:(lia)) ADY (exact_values _ u _)) as (v & g0 & g1 & E & W).
    exists DX, AX, DY, AY, v, g0, g1. split; [exact HX|]. split; [exact HY|]. split; [exact E|]. replace (8 * (nr + ns) + 2)%nat with (nr + ns + 2 + (7 * nr + 7 * ns + 0))%nat by lia. exact W.
  - intros zr nr dr r pr wtr zs ns ds s ps wts zt nt dt t pt wtt u work Hdr Hds Hdt Lr Ls Lt Lu Lw Er Es Et.
    destruct Er as (Er1 & Er2 & Vr & Dr & Er3). destruct (Dr Hdr) as (DX & AX & ADX & HX). assert (Er : evaluates_fl eps zr nr dr r pr wtr) by (repeat split; auto; apply Vr; auto).
    destruct Es as (Es1 & Es2 & Vs & Ds & Es3). destruct (Ds Hds) as (DY & AY & ADY & HY). assert (Es : evaluates_fl eps zs ns ds s ps wts) by (repeat split; auto; apply Vs; auto).
    destruct Et as (Et1 & Et2 & Vt & Dt & Et3). destruct (Dt Hdt) as (DZ & AZ & ADZ & HZ). assert (Et : evaluates_fl eps zt nt dt t pt wtt) by (repeat split; auto; apply Vt; auto).
    destruct (C63_gradient _ _ _ RN P G (7 * nr) (7 * ns) (7 * nt) 0 (B zr nr r) (C zr nr r) DX AX (B zs ns s) (C zs ns s) DY AY (B zt nt t) (C zt nt t) DZ AZ u (absR u)) as (_ & _ & I3).
    destruct (I3 wtr nr wts ns wtt nt u work Lr Ls Lt Lu Lw (values_ok _ _ _ _ _ _ _ (7 * nr) E0 Er ltac:(lia)) ADX (values_ok _ _ _ _ _ _ _ (7 * ns) E0 Es ltac:(lia)) ADY (values_ok _ _ _ _ _ _ _ (7 * nt) E0 Et ltac:(lia)) ADZ (exact_values _ u _)) as (v & g0 & g1 & g2 & E & W).
    exists DX, AX, DY, AY, DZ, AZ, v, g0, g1, g2. split; [exact HX|]. split; [exact HY|]. split; [exact HZ|]. split; [exact E|].
    replace (8 * (nr + ns + nt) + 3)%nat with (nr + ns + nt + 3 + (7 * nr + 7 * ns + 7 * nt + 0))%nat by lia. exact W.
Qed.
Print Assumptions C64_gradient.

(** Operations whose results are a little too large, distinct nodes, and a sequence of calls: the hypotheses are met. *)
Definition up (x : R) : R := x * (1 + / 8).
Example ex_arithmetic : arithmetic (/ 8) (fun a b => up (a + b)) (fun a b => up (a - b)) (fun a b => up (a * b)) (fun a b => up (a / b)) /\ inv_eps (/ 8) = / 7.
Proof.
  assert (K : forall x, Rabs (up x - x) <= / 8 * Rabs x).
  { intros x. unfold up. replace (x * (1 + / 8) - x) with (/ 8 * x) by ring. rewrite Rabs_mult, (Rabs_pos_eq (/ 8)); lra. }
  split; [constructor; intros; try apply K; lra|]. unfold inv_eps. lra.
Qed.
Example ex_nodes : distinct [-1; 0; 1] 3 /\ Forall (valid_call 3) [(repeat 0 9, 2%nat, 1 / 2); (repeat 7 5, 0%nat, -1)].
Proof.
  split; [|repeat constructor]. intros [|[|[|i]]] [|[|[|j]]] Hi Hj E; try lia; cbn in E; lra.
Qed.
