(** Rounding error of lagrange_eval and lagrange_setup. *)
From Verif Require Import Base BaseLemmas Poly PolySpec PolyProof1 PolyProof2 PolyRound PolyRoundProof1 PolyRoundSpec TensorRoundSpec HalvingRound TensorRoundProof.
From Coq Require Import Reals Lra.
Open Scope R_scope.

Section A.
Variable eps : R.
Variables add sub mul div : R -> R -> R.
Hypothesis H : arithmetic eps add sub mul div.
Let q := 1 - eps.
Let eta := inv_eps eps.
Notation near := (near eta).
Lemma q_pos : 0 < q.
Proof. pose proof (ar_eps _ _ _ _ _ H). unfold q. lra. Qed.
Lemma q_le : q <= 1.
Proof. pose proof (ar_eps _ _ _ _ _ H). unfold q. lra. Qed.
Lemma eta_q : 1 + eta = / q.
Proof. pose proof q_pos. unfold eta, inv_eps. fold q. replace eps with (1 - q) by (unfold q; ring). field. lra. Qed.
Lemma eps_eta : eps <= eta.
Proof.
  pose proof q_pos as Q. pose proof q_le as Q1. pose proof (ar_eps _ _ _ _ _ H) as E. unfold eta, inv_eps. fold q. unfold Rdiv.
  rewrite <- (Rmult_1_r eps) at 1. apply Rmult_le_compat_l; [lra|]. rewrite <- Rinv_1 at 1. apply Rinv_le_contravar; lra.
Qed.
Lemma eta0 : 0 <= eta.
Proof. pose proof eps_eta. pose proof (ar_eps _ _ _ _ _ H). lra. Qed.
Lemma eta_round (z v : R) : Rabs (z - v) <= eps * Rabs v -> Rabs (z - v) <= eta * Rabs v.
Proof. intros E. eapply Rle_trans; [exact E|]. apply Rmult_le_compat_r; [apply Rabs_pos|apply eps_eta]. Qed.
Lemma eta_rounding : rounding eta add mul.
Proof. constructor; [apply eta0|intros; apply eta_round, (ar_add _ _ _ _ _ H)|intros; apply eta_round, (ar_mul _ _ _ _ _ H)]. Qed.

(** x is S up to k factors between 1 - eps and 1 / (1 - eps). *)
Definition rel (k : nat) (x S : R) : Prop := exists f, x = S * f /\ q ^ k <= f <= (/ q) ^ k.
Lemma iq_ge : 1 <= / q.
Proof. pose proof eta_q. pose proof eta0. lra. Qed.
Lemma qk_pos k : 0 < q ^ k.
Proof. apply pow_lt, q_pos. Qed.
Lemma rel_exact S : rel 0 S S.
Proof. exists 1. cbn. lra. Qed.
Lemma rel_times k l x y S T : rel k x S -> rel l y T -> rel (k + l) (x * y) (S * T).
Proof.
  intros (f & -> & F1 & F2) (g & -> & G1 & G2). exists (f * g). split; [ring|]. rewrite !pow_add. pose proof (qk_pos k). pose proof (qk_pos l).
  split; apply Rmult_le_compat; lra.
Qed.
Lemma op_factor z v : Rabs (z - v) <= eps * Rabs v -> exists f, z = v * f /\ q <= f <= / q.
Proof.
  intros E. pose proof q_pos as Q. pose proof (ar_eps _ _ _ _ _ H) as E0. destruct (Req_dec v 0) as [->|N].
  - rewrite Rabs_R0, Rmult_0_r, Rminus_0_r in E. exists 1. pose proof (Rabs_pos z). assert (z = 0) by (destruct (Req_dec z 0) as [|N]; [auto|pose proof (Rabs_pos_lt z N); lra]). pose proof iq_ge. pose proof q_le. split; [lra|lra].
  - exists (z / v). split; [field; auto|]. assert (A : Rabs (z / v - 1) <= eps).
    { replace (z / v - 1) with ((z - v) * / v) by (field; auto). rewrite Rabs_mult, Rabs_inv. pose proof (Rabs_pos_lt v N) as P.
      apply (Rmult_le_reg_r (Rabs v)); auto. rewrite Rmult_assoc, Rinv_l by lra. lra. }
    pose proof (Rle_abs (z / v - 1)); pose proof (Rle_abs (- (z / v - 1))); rewrite Rabs_Ropp in *. split; [unfold q; lra|]. apply (Rle_trans _ (1 + eps)); [lra|]. apply (Rmult_le_reg_r q); auto. rewrite Rinv_l by lra. unfold q. nra.
Qed.
Lemma rel_op k z v S : Rabs (z - v) <= eps * Rabs v -> rel k v S -> rel (1 + k) z S.
Proof.
  intros E (f & -> & F1 & F2). destruct (op_factor _ _ E) as (g & -> & G1 & G2). exists (f * g). split; [ring|]. pose proof q_pos. pose proof (qk_pos k). cbn [Nat.add pow].
  rewrite (Rmult_comm q), (Rmult_comm (/ q)). split; apply Rmult_le_compat; lra.
Qed.
Lemma rel_mul k l x y S T : rel k x S -> rel l y T -> rel (1 + (k + l)) (mul x y) (S * T).
Proof. intros A B. eapply rel_op; [apply (ar_mul _ _ _ _ _ H)|]. apply rel_times; auto. Qed.
Lemma rel_le k l x S : (k <= l)%nat -> rel k x S -> rel l x S.
Proof.
  intros L (f & E & F1 & F2). exists f. split; auto. replace l with (k + (l - k))%nat by lia. rewrite !pow_add. pose proof (qk_pos k). pose proof (qk_pos (l - k)).
  assert (q ^ (l - k) <= 1). { rewrite <- (pow1 (l - k)). apply pow_incr. pose proof q_pos. pose proof q_le. lra. }
  assert (1 <= (/ q) ^ (l - k)) by (apply pow_R1_Rle, iq_ge). assert (0 < (/ q) ^ k) by (apply pow_lt, Rinv_0_lt_compat, q_pos). split; nra.
Qed.
Lemma rel_inv k x S : S <> 0 -> rel k x S -> x <> 0 /\ rel k (1 / x) (1 / S).
Proof.
  intros N (f & -> & F1 & F2). pose proof (qk_pos k) as Q. assert (f <> 0) by lra. split; [apply Rmult_integral_contrapositive_currified; auto|].
  exists (/ f). split; [field; auto|]. pose proof q_pos. rewrite pow_inv in F2. split.
  - rewrite <- (Rinv_inv (q ^ k)). apply Rinv_le_contravar; lra.
  - rewrite pow_inv. apply Rinv_le_contravar; lra.
Qed.
Lemma rel_near k x S : rel k x S -> near k x S (Rabs S).
Proof.
  intros (f & -> & F1 & F2). split; [lra|]. replace (S * f - S) with ((f - 1) * S) by ring. rewrite Rabs_mult. apply Rmult_le_compat_r; [apply Rabs_pos|]. rewrite eta_q, pow_inv in *.
  pose proof (qk_pos k) as Q. set (u := q ^ k) in *. assert (u * / u = 1) by (apply Rinv_r; lra). apply Rabs_le. split; [|lra].
  assert (0 < / u) by (apply Rinv_0_lt_compat; auto). nra.
Qed.

Lemma near_mulop k l x y S T A B : near k x S A -> near l y T B -> near (1 + (k + l)) (mul x y) (S * T) (A * B).
Proof. intros X Y. eapply (near_round eta eta0); [apply (near_times eta); eauto|]. apply (rnd_mul _ _ _ eta_rounding). Qed.
Lemma near_addop k x y S T A B : near k x S A -> near k y T B -> near (1 + k) (add x y) (S + T) (A + B).
Proof. apply (near_op eta eta0 add (rnd_add _ _ _ eta_rounding)). Qed.

Section Nodes.
Variable z : nat -> R.
Variable n : nat.
Variable x : R.
(** The nodes for which the differences are the absolute values. *)
Definition mz (i : nat) : R := - Rabs (x - z i).
Lemma dd_rel i : rel 2 (fdd sub mul z x i) (dd z x i).
Proof. unfold fdd, dd. apply (rel_mul 0 1); [apply rel_exact|]. apply (rel_op 0 _ (x - z i)); [apply (ar_sub _ _ _ _ _ H)|apply rel_exact]. Qed.
Lemma dd_abs i : Rabs (dd z x i) = dd mz 0 i.
Proof. unfold dd, mz. rewrite Rabs_mult, (Rabs_pos_eq 2) by lra. ring. Qed.
Lemma U0_rel i : rel (3 * i) (fU0 sub mul z x i) (U0 z x i).
Proof. induction i as [|i IH]; cbn [fU0 U0]; [apply rel_exact|]. eapply rel_le; [|apply rel_mul; [exact IH|apply dd_rel]]. lia. Qed.
Lemma W0_rel i : rel (3 * i) (fW0 sub mul z n x i) (W0 z n x i).
Proof. induction i as [|i IH]; cbn [fW0 W0]; [apply rel_exact|]. eapply rel_le; [|apply rel_mul; [apply dd_rel|exact IH]]. lia. Qed.
Lemma U0_abs i : Rabs (U0 z x i) = U0 mz 0 i.
Proof. induction i as [|i IH]; cbn [U0]; [apply Rabs_R1|]. rewrite Rabs_mult, IH, dd_abs. auto. Qed.
Lemma W0_abs i : Rabs (W0 z n x i) = W0 mz n 0 i.
Proof. induction i as [|i IH]; cbn [W0]; [apply Rabs_R1|]. rewrite Rabs_mult, IH, dd_abs. auto. Qed.
Lemma dd_near i : near 2 (fdd sub mul z x i) (dd z x i) (dd mz 0 i).
Proof. rewrite <- dd_abs. apply rel_near, dd_rel. Qed.
Lemma U0_near i : near (3 * i) (fU0 sub mul z x i) (U0 z x i) (U0 mz 0 i).
Proof. rewrite <- U0_abs. apply rel_near, U0_rel. Qed.
Lemma W0_near i : near (3 * i) (fW0 sub mul z n x i) (W0 z n x i) (W0 mz n 0 i).
Proof. rewrite <- W0_abs. apply rel_near, W0_rel. Qed.
Lemma near0 : near 0 0 0 0.
Proof. pose proof (near_exact eta 0) as E. rewrite Rabs_R0 in E. exact E. Qed.
Lemma near2 k y S A : near k y S A -> near (1 + k) (mul 2 y) (2 * S) (2 * A).
Proof. intros Y. pose proof (near_exact eta 2) as E. rewrite (Rabs_pos_eq 2) in E by lra. apply (near_mulop 0 k); auto. Qed.
Lemma U1_near i : near (4 * i) (fU1 add sub mul z x i) (U1 z x i) (U1 mz 0 i).
Proof.
  induction i as [|i IH]; cbn [fU1 U1]; [apply near0|]. apply (near_le eta eta0 (1 + (4 * i + 3))); [lia|]. apply near_addop.
  - apply (near_le eta eta0 (1 + (4 * i + 2))); [lia|]. apply near_mulop; [exact IH|apply dd_near].
  - apply (near_le eta eta0 (3 * i)); [lia|]. apply U0_near.
Qed.
Lemma W1_near i : near (4 * i) (fW1 add sub mul z n x i) (W1 z n x i) (W1 mz n 0 i).
Proof.
  induction i as [|i IH]; cbn [fW1 W1]; [apply near0|]. apply (near_le eta eta0 (1 + (4 * i + 3))); [lia|]. apply near_addop.
  - apply (near_le eta eta0 (1 + (2 + 4 * i))); [lia|]. apply near_mulop; [apply dd_near|exact IH].
  - apply (near_le eta eta0 (3 * i)); [lia|]. apply W0_near.
Qed.
Lemma U2_near i : near (4 * i) (fU2 add sub mul z x i) (U2 z x i) (U2 mz 0 i).
Proof.
  induction i as [|i IH]; cbn [fU2 U2]; [apply near0|]. apply (near_le eta eta0 (1 + (4 * i + 3))); [lia|]. apply near_addop.
  - apply (near_le eta eta0 (1 + (4 * i + 2))); [lia|]. apply near_mulop; [exact IH|apply dd_near].
  - apply (near_le eta eta0 (1 + 4 * i)); [lia|]. apply near2, U1_near.
Qed.
Lemma W2_near i : near (4 * i) (fW2 add sub mul z n x i) (W2 z n x i) (W2 mz n 0 i).
Proof.
  induction i as [|i IH]; cbn [fW2 W2]; [apply near0|]. apply (near_le eta eta0 (1 + (4 * i + 3))); [lia|]. apply near_addop.
  - apply (near_le eta eta0 (1 + (2 + 4 * i))); [lia|]. apply near_mulop; [apply dd_near|exact IH].
  - apply (near_le eta eta0 (1 + 4 * i)); [lia|]. apply near2, W1_near.
Qed.

Variable w wS : nat -> R.
Variable kw : nat.
Lemma L0_rel i : (i < n)%nat -> rel kw (w i) (wS i) -> rel (kw + (3 * n - 1)) (fL0 sub mul z n x w i) (wS i * L0 z n x i).
Proof.
  intros Hi Hw. unfold fL0, fV0, L0, V0. replace (wS i * (U0 z x i * W0 z n x (n - 1 - i))) with (wS i * U0 z x i * W0 z n x (n - 1 - i)) by ring.
  eapply rel_le; [|apply rel_mul; [apply rel_mul; [exact Hw|apply U0_rel]|apply W0_rel]]. lia.
Qed.
Hypothesis Hw : forall i, (i < n)%nat -> near kw (w i) (wS i) (Rabs (wS i)).
Lemma L1_near i : (i < n)%nat -> near (kw + 4 * n) (fL1 add sub mul z n x w i) (wS i * L1 z n x i) (Rabs (wS i) * L1 mz n 0 i).
Proof.
  intros Hi. unfold fL1, fV0, fV1, L1, V0, V1. set (r := (n - 1 - i)%nat).
  assert (P : near (1 + (4 * i + 4 * r)) (mul (fU1 add sub mul z x i) (fW0 sub mul z n x r)) (U1 z x i * W0 z n x r) (U1 mz 0 i * W0 mz n 0 r)).
  { apply (near_le eta eta0 (1 + (4 * i + 3 * r))); [lia|]. apply near_mulop; [apply U1_near|apply W0_near]. }
  assert (Q : near (1 + (4 * i + 4 * r)) (mul (fU0 sub mul z x i) (fW1 add sub mul z n x r)) (U0 z x i * W1 z n x r) (U0 mz 0 i * W1 mz n 0 r)).
  { apply (near_le eta eta0 (1 + (3 * i + 4 * r))); [lia|]. apply near_mulop; [apply U0_near|apply W1_near]. }
  replace (wS i * (2 * (U1 z x i * W0 z n x r + U0 z x i * W1 z n x r))) with ((2 * wS i) * (U1 z x i * W0 z n x r + U0 z x i * W1 z n x r)) by ring.
  replace (Rabs (wS i) * (2 * (U1 mz 0 i * W0 mz n 0 r + U0 mz 0 i * W1 mz n 0 r))) with ((2 * Rabs (wS i)) * (U1 mz 0 i * W0 mz n 0 r + U0 mz 0 i * W1 mz n 0 r)) by ring.
  pose proof (near_mulop _ _ _ _ _ _ _ _ (near2 _ _ _ _ (Hw i Hi)) (near_addop _ _ _ _ _ _ _ P Q)) as N. eapply (near_le eta eta0); [|exact N]. unfold r. lia.
Qed.
Lemma L2_near i : (i < n)%nat -> near (kw + 4 * n + 2) (fL2 add sub mul z n x w i) (wS i * L2 z n x i) (Rabs (wS i) * L2 mz n 0 i).
Proof.
  intros Hi. unfold fL2, fV0, fV1, fV2, L2, V0, V1, V2. set (r := (n - 1 - i)%nat).
  assert (P : near (2 + (4 * i + 4 * r)) (mul (fU2 add sub mul z x i) (fW0 sub mul z n x r)) (U2 z x i * W0 z n x r) (U2 mz 0 i * W0 mz n 0 r)).
  { apply (near_le eta eta0 (1 + (4 * i + 3 * r))); [lia|]. apply near_mulop; [apply U2_near|apply W0_near]. }
  assert (Q : near (2 + (4 * i + 4 * r)) (mul (mul 2 (fU1 add sub mul z x i)) (fW1 add sub mul z n x r)) (2 * U1 z x i * W1 z n x r) (2 * U1 mz 0 i * W1 mz n 0 r)).
  { apply (near_le eta eta0 (1 + ((1 + 4 * i) + 4 * r))); [lia|]. apply near_mulop; [apply near2, U1_near|apply W1_near]. }
  assert (T : near (3 + (4 * i + 4 * r)) (mul (fU0 sub mul z x i) (fW2 add sub mul z n x r)) (U0 z x i * W2 z n x r) (U0 mz 0 i * W2 mz n 0 r)).
  { apply (near_le eta eta0 (1 + (3 * i + 4 * r))); [lia|]. apply near_mulop; [apply U0_near|apply W2_near]. }
  replace (wS i * (4 * (U2 z x i * W0 z n x r + 2 * U1 z x i * W1 z n x r + U0 z x i * W2 z n x r)))
    with ((4 * wS i) * (U2 z x i * W0 z n x r + 2 * U1 z x i * W1 z n x r + U0 z x i * W2 z n x r)) by ring.
  replace (Rabs (wS i) * (4 * (U2 mz 0 i * W0 mz n 0 r + 2 * U1 mz 0 i * W1 mz n 0 r + U0 mz 0 i * W2 mz n 0 r)))
    with ((4 * Rabs (wS i)) * (U2 mz 0 i * W0 mz n 0 r + 2 * U1 mz 0 i * W1 mz n 0 r + U0 mz 0 i * W2 mz n 0 r)) by ring.
  pose proof (near_exact eta 4) as F. rewrite (Rabs_pos_eq 4) in F by lra.
  pose proof (near_mulop _ _ _ _ _ _ _ _ (near_mulop 0 _ _ _ _ _ _ _ F (Hw i Hi)) (near_addop _ _ _ _ _ _ _ (near_addop _ _ _ _ _ _ _ P Q) T)) as N.
  eapply (near_le eta eta0); [|exact N]. unfold r. lia.
Qed.
End Nodes.
End A.
