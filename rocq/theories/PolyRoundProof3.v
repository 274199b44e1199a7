(** lagrange_setup and sequences of evaluations with rounding. *)
From Verif Require Import Base BaseLemmas Poly PolySpec PolyProof1 PolyProof2 PolyRound PolyRoundProof1 PolyRoundSpec TensorRoundSpec HalvingRound TensorRoundProof PolyRoundProof2.
From Coq Require Import Reals Lra.
Open Scope R_scope.
Local Notation get := PolySpec.get.

Lemma maj_L0 z n i x t : distinct z n -> (i < n)%nat -> shifted z n i x t = Rabs (wt z n i) * L0 (mz (get z) x) n t i.
Proof.
  intros D Hi. pose proof (L0_nz z n i D Hi) as NZ. unfold wt. unfold Rdiv. rewrite Rmult_1_l, Rabs_inv.
  pose proof (Rabs_pos_lt _ NZ) as P. apply (Rmult_eq_reg_l (Rabs (L0 (get z) n (get z i) i))); [|lra]. rewrite <- Rmult_assoc, Rinv_r, Rmult_1_l by lra.
  rewrite !L0_prod by auto. unfold shifted.
  assert (A : forall m f, Rabs (rprod m f) = rprod m (fun j => Rabs (f j))).
  { intros m f. induction m as [|m IH]; cbn [rprod]; [apply Rabs_R1|]. rewrite Rabs_mult, IH. auto. }
  rewrite A, <- rprod_mult. apply rprod_ext. intros j Hj. destruct (Nat.eqb_spec j i); [rewrite Rabs_R1; ring|].
  unfold dd, mz. rewrite Rabs_mult, (Rabs_pos_eq 2) by lra. assert (get z i <> get z j) by (intros E; apply n0; symmetry; apply D; auto).
  pose proof (Rabs_pos_lt (get z i - get z j) ltac:(lra)). field. lra.
Qed.

Section A.
Variable eps : R.
Variables add sub mul div : R -> R -> R.
Hypothesis H : arithmetic eps add sub mul div.

Definition ready_fl (z data : arr) (n : nat) : Prop :=
  (9 * n <= length data)%nat /\ reg data 0 n (get z) /\ exists w, reg data n n w /\ forall i, (i < n)%nat -> rel eps (3 * n) (w i) (wt z n i).

Lemma setup_fl_ok data z n : (1 <= n)%nat -> (9 * n <= length data)%nat -> (n <= length z)%nat -> distinct z n ->
  exists data', lagrange_setup_fl add sub mul div data z n = Ok data' /\ length data' = length data /\
    (forall k, (9 * n <= k)%nat -> get data' k = get data k) /\ ready_fl z data' n.
Proof.
  intros Hn Hd Hz D. unfold lagrange_setup_fl, copy.
  lazymatch goal with |- context [fill ?a ?o ?k ?f] => destruct (fill_ok a o k f (get z)) as (m1 & E1 & S1 & R1) end; [lia| |rewrite E1; cbn [bind]; clear E1].
  { intros m' i Hi _ _. rewrite rd_get by lia. auto. }
  unfold lagrange_coef_fl.
  lazymatch goal with |- context [fill ?a ?o ?k ?f] => destruct (fill_ok a o k f (fun _ => 1)) as (m2 & E2 & S2 & R2) end; [destruct S1; lia|auto|rewrite E2; cbn [bind]; clear E2].
  assert (T2 : same_out data m2 0 (9 * n)).
  { pose proof (same_out_trans _ _ _ _ _ _ _ 0 (9 * n) S1 S2 ltac:(lia) ltac:(lia) ltac:(lia) ltac:(lia)) as T. rewrite Nat.sub_0_r in T. auto. }
  pose proof (same_out_reg _ _ _ _ _ _ _ S2 R1 ltac:(lia)) as Rz2.
  match goal with |- context [foldM ?f (seq 0 n) (repeat 0 n, m2)] => set (F := f) end.
  assert (G : forall k, (k <= n)%nat -> exists p m w, foldM F (seq 0 k) (repeat 0 n, m2) = Ok (p, m) /\ length p = n /\ same_out data m 0 (9 * n) /\ reg m 0 n (get z) /\
            reg m n n w /\ (forall i, (i < k)%nat -> rel eps (3 * n) (w i) (wt z n i)) /\ forall i, (k <= i < n)%nat -> w i = 1).
  { induction k as [|k IH]; intros Hk.
    - exists (repeat 0 n), m2, (fun _ => 1). split; [auto|]. split; [apply repeat_length|]. split; [auto|]. split; [auto|]. split; [auto|]. split; [intros; lia|auto].
    - destruct IH as (p & m & w & E & Lp & Sm & Rz & Rw & W1 & W2); [lia|]. rewrite seq_S, foldM_snoc, E. cbn [bind Nat.add]. unfold F. rewrite rd_get by lia. cbn [bind].
      assert (Lm : length m = length data) by apply Sm.
      destruct (feval_ok add sub mul (get z) n (get z k) w p m 0) as (p' & m' & E' & S' & Sp & Rp & _); try lia; auto.
      rewrite E'. cbn [bind]. rewrite rd_get by (destruct Sp; lia). cbn [bind]. pose proof (Rp k ltac:(lia)) as Ek. cbn [Nat.add] in Ek. rewrite Ek.
      assert (Lm' : length m' = length data) by (destruct S'; lia).
      pose proof (L0_nz z n k D ltac:(lia)) as NZ.
      assert (RL : rel eps (3 * n - 1) (fL0 sub mul (get z) n (get z k) w k) (L0 (get z) n (get z k) k)).
      { pose proof (L0_rel eps add sub mul div H (get z) n (get z k) w (fun _ => 1) 0 k ltac:(lia)) as Q. cbv beta in Q. rewrite Rmult_1_l in Q. apply Q. rewrite W2 by lia. apply rel_exact. }
      destruct (rel_inv eps add sub mul div H _ _ _ NZ RL) as [PN RI].
      assert (RD : rel eps (3 * n) (div 1 (fL0 sub mul (get z) n (get z k) w k)) (wt z n k)).
      { eapply (rel_le eps add sub mul div H); [|eapply (rel_op eps add sub mul div H); [apply (ar_div _ _ _ _ _ H); exact PN|exact RI]]. lia. }
      rewrite wr_get by lia. cbn [bind]. eexists; eexists; exists (fun i => if (i =? k)%nat then div 1 (fL0 sub mul (get z) n (get z k) w k) else w i).
      split; [reflexivity|]. split; [destruct Sp; lia|]. split; [split|split; [|split; [|split]]].
      + rewrite upd_length'. auto.
      + intros j Hj. rewrite get_upd by lia. destruct (Nat.eqb_spec j (n + k)); [lia|]. destruct S' as [_ S']. destruct Sm as [_ Sm]. rewrite S', Sm by lia. auto.
      + intros j Hj. rewrite get_upd by lia. destruct (Nat.eqb_spec (0 + j) (n + k)); [lia|]. destruct S' as [_ S']. rewrite S' by lia. apply Rz. auto.
      + intros j Hj. rewrite get_upd by lia. destruct (Nat.eqb_spec (n + j) (n + k)) as [Q|Q], (Nat.eqb_spec j k); try lia; auto.
        destruct S' as [_ S']. rewrite S' by lia. apply (Rw j Hj).
      + intros j Hj. destruct (Nat.eqb_spec j k) as [->|]; [exact RD|]. apply W1. lia.
      + intros j Hj. destruct (Nat.eqb_spec j k) as [->|]; [lia|]. apply W2. lia. }
  destruct (G n ltac:(lia)) as (p & m & w & E & Lp & Sm & Rz & Rw & W1 & _). rewrite E. cbn [bind]. exists m. split; [auto|]. split; [apply Sm|].
  split; [intros k Hk; apply Sm; lia|]. split; [destruct Sm; lia|]. split; [auto|]. exists w. auto.
Qed.

Lemma eval_fl_ready z data n p der x : (1 <= n)%nat -> ready_fl z data n -> distinct z n -> (der <= 2)%nat -> (n * (der + 1) <= length p)%nat ->
  exists p' data', lagrange_eval_fl add sub mul p data n der x = Ok (p', data') /\ ready_fl z data' n /\ evaluates_fl eps z n der x p p'.
Proof.
  intros Hn (Ld & Rz & w & Rw & Hw) D Hder Hp.
  destruct (feval_ok add sub mul (get z) n x w p data der) as (p' & data' & E & S & Sp & R0 & R1 & R2); auto.
  exists p', data'. split; [auto|]. split.
  { split; [destruct S; lia|]. split; [eapply same_out_reg; eauto; lia|]. exists w. split; [eapply same_out_reg; eauto; lia|auto]. }
  destruct Sp as [Lp Sp]. split; [auto|]. split; [intros k Hk; apply Sp; lia|].
  assert (Hn' : forall i, (i < n)%nat -> near (inv_eps eps) (3 * n) (w i) (wt z n i) (Rabs (wt z n i))) by (intros i Hi; apply (rel_near eps add sub mul div H), Hw; auto).
  assert (B : forall i y, (i < n)%nat -> basis z n i y = wt z n i * L0 (get z) n y i) by (intros; apply basis_L0; auto).
  assert (D1 : forall i y, (i < n)%nat -> derivable_pt_lim (basis z n i) y (wt z n i * L1 (get z) n y i)).
  { intros i y Hi. apply (derivable_pt_lim_ext (fun y => wt z n i * L0 (get z) n y i)); [intros; symmetry; apply B; auto|]. apply der_scal, L0_der. }
  assert (M1 : forall i y, (i < n)%nat -> derivable_pt_lim (shifted z n i x) y (Rabs (wt z n i) * L1 (mz (get z) x) n y i)).
  { intros i y Hi. apply (derivable_pt_lim_ext (fun y => Rabs (wt z n i) * L0 (mz (get z) x) n y i)); [intros; symmetry; apply maj_L0; auto|]. apply der_scal, L0_der. }
  split; [|split].
  - intros i Hi. pose proof (L0_rel eps add sub mul div H (get z) n x w (wt z n) (3 * n) i Hi (Hw i Hi)) as Q. apply (rel_near eps add sub mul div H) in Q. rewrite <- B in Q by auto.
    change (TensorSpec.get R 0 p' (0 + i)) with (get p' (0 + i)). rewrite (R0 i Hi). replace (6 * n - 1)%nat with (3 * n + (3 * n - 1))%nat by lia. exact Q.
  - intros Hd. exists (fun i => wt z n i * L1 (get z) n x i), (fun i => Rabs (wt z n i) * L1 (mz (get z) x) n 0 i). split; [|intros i Hi; split; auto].
    intros i Hi. change (TensorSpec.get R 0 p' (n + i)) with (get p' (n + i)). rewrite (R1 Hd i Hi). replace (7 * n)%nat with (3 * n + 4 * n)%nat by lia.
    apply (L1_near eps add sub mul div H (get z) n x w (wt z n) (3 * n) Hn' i Hi).
  - intros Hd. exists (fun i => wt z n i * L2 (get z) n x i), (fun i => Rabs (wt z n i) * L2 (mz (get z) x) n 0 i). split.
    + intros i Hi. change (TensorSpec.get R 0 p' (2 * n + i)) with (get p' (2 * n + i)). rewrite (R2 Hd i Hi). replace (7 * n + 2)%nat with (3 * n + 4 * n + 2)%nat by lia.
      apply (L2_near eps add sub mul div H (get z) n x w (wt z n) (3 * n) Hn' i Hi).
    + intros i Hi. split.
      * exists (fun y => wt z n i * L1 (get z) n y i). split; [intros y; apply D1; auto|]. apply der_scal, L1_der.
      * exists (fun y => Rabs (wt z n i) * L1 (mz (get z) x) n y i). split; [intros y; apply M1; auto|]. apply der_scal, L1_der.
Qed.

Lemma evals_fl_ok z n calls : (1 <= n)%nat -> distinct z n -> forall data, ready_fl z data n -> Forall (valid_call n) calls ->
  exists outs, evals (lagrange_eval_fl add sub mul) data n calls = Ok outs /\ Forall2 (fun '(p, der, x) p' => evaluates_fl eps z n der x p p') calls outs.
Proof.
  intros Hn D. induction calls as [|[[p der] x] calls IH]; intros data Hr HF.
  - exists []. split; [reflexivity|constructor].
  - apply Forall_cons_iff in HF. destruct HF as [Hv HF']. assert (Hv1 : (der <= 2)%nat) by apply Hv. assert (Hv2 : (n * (der + 1) <= length p)%nat) by apply Hv. destruct (eval_fl_ready z data n p der x) as (p' & d' & E & Hr' & Ev); auto.
    destruct (IH d' Hr' HF') as (outs & E' & F). cbn [evals]. rewrite E. cbn [bind]. rewrite E'. cbn [bind]. eexists. split; [reflexivity|]. constructor; auto.
Qed.
End A.
