(** The rounding error of type double. *)
From Coq Require Import Reals ZArith Lra Lia.
From Flocq Require Import Core.
From Flocq.Prop Require Import Relative Mult_error.
From Verif Require Import Base PolyImpSyntax TensorRoundSpec PolyRoundSpec PolyGllRoundSpec Binary64.
Open Scope R_scope.

#[local] Instance prec53 : Prec_gt_0 53. Proof. reflexivity. Qed.
Lemma fl_err x : Rabs (fl x - x) <= u53 * Rabs x.
Proof.
  unfold fl. pose proof (relative_error_N_FLX radix2 53 prec53 (fun z => negb (Z.even z)) x) as E. eapply Rle_trans; [exact E|]. apply Rmult_le_compat_r; [apply Rabs_pos|].
  apply Req_le. unfold u53. change (bpow radix2 (- (53) + 1)) with (/ IZR (2 ^ 52)). change 53%nat with (1 + 52)%nat. rewrite pow_add, (pow_IZR 2 52), pow_1, Rinv_mult. reflexivity.
Qed.
Lemma fl_machine x : machine (fl x).
Proof. apply generic_format_round; typeclasses eauto. Qed.
Lemma fl_id x : machine x -> fl x = x.
Proof. intros M. apply round_generic; [typeclasses eauto|exact M]. Qed.
Lemma machine_double x : machine x -> machine (2 * x).
Proof. intros M. pose proof (mult_bpow_exact_FLX radix2 53 x 1 M) as Q. rewrite Rmult_comm. exact Q. Qed.
Lemma u53_small : 0 < u53 <= / 1000.
Proof. unfold u53. split; [apply Rinv_0_lt_compat, pow_lt; lra|]. apply Rinv_le_contravar; [lra|]. rewrite pow_IZR. apply IZR_le. vm_compute. discriminate. Qed.
Lemma fl_arithmetic : arithmetic u53 fl_add fl_sub fl_mul fl_div.
Proof. pose proof u53_small. constructor; intros; try apply fl_err. lra. Qed.
Lemma fl_rounding : rounding u53 fl_add fl_mul.
Proof. pose proof u53_small. constructor; intros; try apply fl_err. lra. Qed.
Lemma fl_doubling : doubling machine fl_mul.
Proof.
  constructor.
  - apply generic_format_0.
  - apply (generic_format_bpow radix2 (FLX_exp 53) 0). unfold FLX_exp. lia.
  - intros a Ha. apply generic_format_opp. auto.
  - intros a Ha. apply fl_id, machine_double, Ha.
  - intros a Ha. unfold fl_mul. rewrite (Rmult_comm a 2). apply fl_id, machine_double, Ha.
Qed.
Lemma fl_literals : literals machine u53 (fun k => fl (entry k)).
Proof. intros k. split; [apply fl_machine|apply fl_err]. Qed.
(** k roundings are less than k + 1 units. *)
Lemma pow_low x k : 0 <= x <= 1 -> 1 - INR k * x <= (1 - x) ^ k.
Proof.
  intros Hx. induction k as [|k IH]; [cbn; lra|]. rewrite S_INR. cbn [pow]. assert (0 <= (1 - x) ^ k <= 1). { split; [apply pow_le; lra|]. apply (Rle_trans _ (1 ^ k)); [apply pow_incr; lra|rewrite pow1; lra]. }
  assert (0 <= INR k * x) by (apply Rmult_le_pos; [apply pos_INR|lra]). nra.
Qed.
Lemma roundings_53 k c : (k + 1 <= c)%nat -> (c <= 200)%nat -> (1 + inv_eps u53) ^ k - 1 <= INR c / 2 ^ 53.
Proof.
  intros Hk Hc. pose proof u53_small as U. assert (E : INR c / 2 ^ 53 = INR c * u53) by reflexivity. rewrite E.
  assert (V : u53 <= / 1000000). { unfold u53. apply Rinv_le_contravar; [lra|]. rewrite pow_IZR. apply IZR_le. vm_compute. discriminate. }
  assert (I : 1 + inv_eps u53 = / (1 - u53)) by (unfold inv_eps; field; lra). rewrite I, pow_inv.
  apply (Rle_trans _ (INR (k + 1) * u53)). 2: { apply Rmult_le_compat_r; [lra|]. apply le_INR. auto. }
  assert (K : 0 <= INR k <= 199). { split; [apply pos_INR|]. change 199 with (IZR (Z.of_nat 199)). rewrite <- INR_IZR_INZ. apply le_INR. lia. }
  pose proof (pow_low u53 k ltac:(lra)) as P. rewrite plus_INR. change (INR 1) with 1. set (a := INR k) in *. clearbody a. generalize dependent u53. intros u **.
  assert (0 < 1 - a * u) by nra. apply (Rle_trans _ (/ (1 - a * u) - 1)). { apply Rplus_le_compat_r. apply Rinv_le_contravar; auto. }
  apply (Rmult_le_reg_r (1 - a * u)); auto. rewrite Rmult_minus_distr_r, Rinv_l by lra.
  assert (A2 : a * (a + 1) <= 199 * 200) by (apply Rmult_le_compat; lra). assert (A3 : a * (a + 1) * u <= 39800 * / 1000000) by (apply Rmult_le_compat; nra).
  assert (A4 : a * (a + 1) * u * u <= 1 * u) by (apply Rmult_le_compat_r; lra). lra.
Qed.
