(** Gauss and Gauss-Lobatto quadrature is exact. *)
From Verif Require Import Base BaseLemmas Poly PolySpec PolyProof1 PolyProof2 PolyProof3 PolyGll PolyGllRoots PolyQuadSpec PolyQuadProof1 LobBndSpec LobBndProof3.
From Coq Require Import Reals Lra Classical_Prop.
Open Scope R_scope.

Lemma ip_basis z n i : (i < n)%nat -> ispoly n (basis z n i). Proof. intros Hi. apply basis_peval. auto. Qed.
Definition exact (z : arr) (n : nat) (W : nat -> R) (d : nat) : Prop :=
  forall f, ispoly d f -> integral f (rsum n (fun i => W i * f (get z i))).

Section General.
Variable z : arr.
Variable n : nat.
Hypothesis D : distinct z n.
Variable om : R -> R.
Variable K : nat.
Hypothesis om_poly : ispoly (n + 1) om.
Hypothesis om_zero : forall i, (i < n)%nat -> om (get z i) = 0.
Hypothesis om_nz : exists x, om x <> 0.
Hypothesis om_orth : forall s, ispoly K s -> integral (fun x => om x * s x) 0.

Lemma interp_int : exists W, exact z n W (n + K).
Proof.
  destruct (ip_roots z n D 1 om om_poly om_zero) as (g & (cg & Lg & Hg) & Eg).
  assert (G : exists c, c <> 0 /\ forall x, om x = rprod n (fun i => x - get z i) * c).
  { exists (peval cg 0). assert (C : forall x, g x = peval cg 0). { intros x. rewrite <- Hg. destruct cg as [|a [|]]; [reflexivity|cbn [peval]; ring|cbn in Lg; lia]. }
    split; [|intros x; rewrite Eg, C; auto]. intros X. destruct om_nz as (x & Hx). apply Hx. rewrite Eg, C, X. ring. }
  destruct G as (c & Hc & Eo).
  assert (EW : forall i, exists v, (i < n)%nat -> integral (basis z n i) v).
  { intros i. destruct (Nat.lt_ge_cases i n) as [Hi|Hi]; [|exists 0; intros; lia]. destruct (int_exists n _ (ip_basis z n i Hi)) as (v & Hv). exists v. auto. }
  assert (CW : exists W, forall i, (i < n)%nat -> integral (basis z n i) (W i)).
  { destruct (choose_list (fun i v => (i < n)%nat -> integral (basis z n i) v) n) as (l & _ & Hl); [intros i _; apply EW|]. exists (get l). intros i Hi. apply Hl; auto. }
  destruct CW as (W & HW). exists W. intros f Hf.
  set (r := fun x => rsum n (fun i => f (get z i) * basis z n i x)).
  assert (Hr : ispoly n r). { apply (ip_rsum n n (fun i x => f (get z i) * basis z n i x)). intros i Hi. apply ip_scal, ip_basis. auto. }
  assert (Ir : integral r (rsum n (fun i => W i * f (get z i)))).
  { eapply int_val; [apply (int_rsum n (fun i x => f (get z i) * basis z n i x) (fun i => f (get z i) * W i)); intros i Hi; apply (int_scal (f (get z i)) (basis z n i)); auto|]. apply rsum_ext. intros; ring. }
  destruct (ip_roots z n D K (fun x => f x - r x)) as (s & Hs & Es).
  { apply ip_sub; [auto|]. apply (ip_mono n); [lia|auto]. }
  { intros k Hk. unfold r. rewrite (rsum_ext n _ (fun i => f (get z i) * (if (k =? i)%nat then 1 else 0))).
    - rewrite (rsum_delta n k (fun i => f (get z i))) by auto. ring.
    - intros i Hi. rewrite basis_node_ by auto. auto. }
  eapply int_val; [apply (int_ext (fun x => r x + om x * (/ c * s x)))|].
  - intros x. rewrite Eo. replace (rprod n (fun i => x - get z i) * c * (/ c * s x)) with (rprod n (fun i => x - get z i) * s x) by (field; auto). rewrite <- Es. ring.
  - apply int_add; [exact Ir|]. apply (om_orth (fun x => / c * s x)). apply ip_scal. auto.
  - ring.
Qed.
End General.

(** A sum with one term. *)
Lemma rsum_single n k f : (k < n)%nat -> (forall i, (i < n)%nat -> i <> k -> f i = 0) -> rsum n f = f k.
Proof.
  intros Hk H. rewrite <- (rsum_delta n k f Hk). apply rsum_ext. intros i Hi. destruct (Nat.eqb_spec k i) as [->|]; [ring|rewrite H by auto; ring].
Qed.
Lemma P_end_sq n : P n 1 * P n 1 = 1 /\ P n (-1) * P n (-1) = 1.
Proof.
  rewrite P_at_1. split; [ring|]. assert (X : P n (-1) = (-1) ^ n).
  { revert n. apply two_step; [rewrite P_0; auto|rewrite P_1; cbn; ring|]. intros n A B. rewrite P_SS, A, B. cbn [pow]. field. pose proof (pos_INR n). lra. }
  rewrite X, <- Rpow_mult_distr. replace (-1 * -1) with 1 by ring. apply pow1.
Qed.

(** Gauss-Legendre. *)
Definition gauss_weight (n : nat) (x : R) : R := 2 * (1 - x * x) / ((INR (n + 1) * P (n + 1) x) * (INR (n + 1) * P (n + 1) x)).
Lemma gauss_exact z n : (1 <= n)%nat -> distinct z n -> (forall i, (i < n)%nat -> P n (get z i) = 0) -> exact z n (fun i => gauss_weight n (get z i)) (2 * n).
Proof.
  intros Hn D Z0.
  destruct (interp_int z n D (P n) n (ip_P n) Z0) as (W & HW); [exists 1; rewrite P_at_1; lra|intros s Hs; apply orth; auto|].
  replace (n + n)%nat with (2 * n)%nat in HW by lia.
  intros f Hf. eapply int_val; [apply HW; exact Hf|]. apply rsum_ext. intros i Hi. f_equal. clear f Hf.
  set (r := get z i). assert (Pr : P n r = 0) by (apply Z0; auto).
  assert (R1 : r <> 1). { intros E. rewrite E, P_at_1 in Pr. lra. }
  assert (R2 : r <> -1). { intros E. pose proof (proj2 (P_end_sq n)) as X. rewrite <- E, Pr in X. lra. }
  destruct (ip_root n (P n) r) as (h & Hh & Eh); [rewrite <- Nat.add_1_r; apply ip_P|auto|].
  destruct n as [|n]; [lia|]. destruct (ip_der n h Hh) as (h' & Hh' & Dh).
  assert (EP1 : forall x, P1 (S n) x = h x + (x - r) * h' x).
  { intros x. eapply (der_unique (P (S n)) (fun x => (x - r) * h x)); [apply Eh|apply P_der|]. eapply der_eq; [apply (der_mul (fun x => x - r) h); [|apply Dh]|].
    - eapply der_eq; [apply (der_sub (fun x => x) (fun _ => r)); [apply der_id|apply derivable_pt_lim_const]|reflexivity].
    - ring. }
  assert (Hr : P1 (S n) r = h r) by (rewrite EP1; ring).
  assert (HO : forall j, (j < S n)%nat -> j <> i -> h (get z j) = 0).
  { intros j Hj Hne. assert (X : (get z j - r) * h (get z j) = 0) by (rewrite <- Eh; apply Z0; auto).
    apply Rmult_integral in X. destruct X as [X|X]; [|auto]. exfalso. apply Hne, D; auto. unfold r in X. lra. }
  (* integral of h^2 *)
  assert (I1 : integral (fun x => h x * h x) (W i * (h r * h r))).
  { eapply int_val; [apply HW; replace (2 * S n)%nat with (S n + S n)%nat by lia; apply (ip_mul _ _ h h); [auto|apply (ip_mono (S n)); [lia|auto]]|].
    rewrite (rsum_single (S n) i) by (first [exact Hi | intros j Hj Hne; rewrite (HO j Hj Hne); ring]). auto. }
  assert (I2 : integral (fun x => h x * P1 (S n) x) (W i * (h r * h r))).
  { eapply int_val; [apply HW; replace (2 * S n)%nat with (S n + S n)%nat by lia; apply (ip_mul _ _ h (P1 (S n))); [auto|apply (ip_mono (S n)); [lia|apply ip_P1]]|].
    rewrite (rsum_single (S n) i) by (first [exact Hi | intros j Hj Hne; rewrite (HO j Hj Hne); ring]). fold r. rewrite Hr. auto. }
  (* ((x-r) h^2)' = 2 h P' - h^2 *)
  assert (I3 : integral (fun x => 2 * (h x * P1 (S n) x) - h x * h x) (2 / (1 - r * r))).
  { apply (int_der (fun x => (x - r) * (h x * h x))).
    - intros x. eapply der_eq; [apply (der_mul (fun x => x - r) (fun x => h x * h x)); [|apply (der_mul h h); apply Dh]|].
      + eapply der_eq; [apply (der_sub (fun x => x) (fun _ => r)); [apply der_id|apply derivable_pt_lim_const]|reflexivity].
      + rewrite EP1. ring.
    - destruct (P_end_sq (S n)) as [A B]. rewrite (Eh 1) in A. rewrite (Eh (-1)) in B.
      replace ((1 - r) * (h 1 * h 1)) with (((1 - r) * h 1 * ((1 - r) * h 1)) / (1 - r)) by (field; lra).
      replace ((-1 - r) * (h (-1) * h (-1))) with (((-1 - r) * h (-1) * ((-1 - r) * h (-1))) / (-1 - r)) by (field; lra).
      rewrite A, B. field. repeat split; nra. }
  pose proof (int_unique _ _ _ I3 (int_sub _ _ _ _ (int_scal 2 _ _ I2) I1)) as E.
  assert (Q : (1 - r * r) * h r = - (INR (S n + 1) * P (S n + 1) r)).
  { rewrite <- Hr, P1_post, Pr. rewrite plus_INR. replace (S n + 1)%nat with (S (S n)) by lia. cbn [INR]. ring. }
  assert (NZ : 1 - r * r <> 0) by nra.
  assert (HN : h r <> 0). { intros X. rewrite X in E. replace (2 * (W i * (0 * 0)) - W i * (0 * 0)) with 0 in E by ring. assert (2 / (1 - r * r) * (1 - r * r) = 0) by (rewrite E; ring). assert (2 / (1 - r * r) * (1 - r * r) = 2) by (field; auto). lra. }
  unfold gauss_weight. replace (INR (S n + 1) * P (S n + 1) r) with (- ((1 - r * r) * h r)) by lra.
  assert (EE : W i * (h r * h r) = 2 / (1 - r * r)) by lra. replace (W i) with (W i * (h r * h r) / (h r * h r)) by (field; auto). rewrite EE. field. auto.
Qed.

(** Gauss-Lobatto-Legendre. *)
Lemma der_1mx2 x : derivable_pt_lim (fun x => 1 - x * x) x (- (2 * x)).
Proof. eapply der_eq; [apply (der_sub (fun _ => 1) (fun x => x * x)); [apply derivable_pt_lim_const|apply (der_mul (fun x => x) (fun x => x)); apply der_id]|]. ring. Qed.
Lemma der_xmr r x : derivable_pt_lim (fun x => x - r) x 1.
Proof. eapply der_eq; [apply (der_sub (fun x => x) (fun _ => r)); [apply der_id|apply derivable_pt_lim_const]|ring]. Qed.
Lemma ip_1mx2 : ispoly 3 (fun x => 1 - x * x).
Proof. exists [1; 0; -1]. split; [cbn; lia|]. intros x. cbn [peval]. ring. Qed.
Lemma lobatto_orth N s : ispoly (N - 1) s -> integral (fun x => (1 - x * x) * P1 N x * s x) 0.
Proof.
  intros Hs. destruct N as [|N]; [apply (int_ext (fun _ => 0)); [intros; rewrite P1_0; ring|exists (fun _ => 0); split; [intros; apply derivable_pt_lim_const|ring]]|].
  cbn [Nat.sub] in Hs. rewrite Nat.sub_0_r in Hs.
  assert (Hq : ispoly (S (S N)) (fun x => s x * (1 - x * x))) by (replace (S (S N)) with (N + 2)%nat by lia; apply ip_mul; [auto|apply ip_1mx2]).
  destruct (ip_der (S N) _ Hq) as (q & Hq' & Dq).
  eapply int_val; [apply (int_ext (fun x => (P1 (S N) x * (s x * (1 - x * x)) + P (S N) x * q x) - P (S N) x * q x)); [intros; ring|]; apply int_sub; [|apply orth; exact Hq']|].
  - apply (int_der (fun x => P (S N) x * (s x * (1 - x * x)))); [|reflexivity]. intros x. apply (der_mul (P (S N)) (fun x => s x * (1 - x * x))); [apply P_der|apply Dq].
  - ring.
Qed.
Lemma sum_ends N f : (1 <= N)%nat -> (forall i, (1 <= i < N)%nat -> f i = 0) -> rsum (S N) f = f 0%nat + f N.
Proof.
  intros HN H. rewrite (rsum_ext (S N) f (fun i => f i * (if (0 =? i)%nat then 1 else 0) + f i * (if (N =? i)%nat then 1 else 0))).
  - rewrite rsum_plus, !rsum_delta by lia. auto.
  - intros i Hi. destruct (Nat.eqb_spec 0 i), (Nat.eqb_spec N i); subst; try lia; try ring. rewrite H by lia. ring.
Qed.

Section Lobatto.
Variable z : arr.
Variable N : nat.
Hypothesis HN : (1 <= N)%nat.
Hypothesis D : distinct z (S N).
Hypothesis Z0 : get z 0 = -1.
Hypothesis Z1 : get z N = 1.
Hypothesis ZI : forall i, (1 <= i < N)%nat -> P1 N (get z i) = 0.
Variable W : nat -> R.
Hypothesis HW : exact z (S N) W (2 * N).
Let c := INR N * (INR N + 1).
Lemma c_pos : 0 < c. Proof. unfold c. assert (1 <= INR N) by (apply (le_INR 1); auto). nra. Qed.
Lemma int_P : integral (P N) 0.
Proof. apply (int_ext (fun x => P N x * 1)); [intros; ring|]. apply (orth N (fun _ => 1)). apply (ip_mono 1); [auto|apply ip_const]. Qed.
Lemma W_last : W N = 2 / c.
Proof.
  pose proof c_pos.
  assert (I : integral (fun x => (1 * x + 1) * P1 N x) (W N * c)).
  { eapply int_val; [apply (HW (fun x => (1 * x + 1) * P1 N x)); apply (ip_mono (N + 1)); [lia|]; apply ip_lin, ip_P1|].
    rewrite sum_ends by (auto; intros i Hi; rewrite ZI by auto; ring). rewrite Z0, Z1, P1_at_1. unfold c. field. }
  assert (I2 : integral (fun x => (1 * x + 1) * P1 N x) 2).
  { eapply int_val; [apply (int_ext (fun x => (P N x + (x + 1) * P1 N x) - P N x)); [intros; ring|]; apply int_sub; [|apply int_P]|].
    - apply (int_der (fun x => (x + 1) * P N x)); [|reflexivity]. intros x. eapply der_eq; [apply (der_mul (fun x => x + 1) (P N)); [|apply P_der]|].
      + eapply der_eq; [apply (der_add (fun x => x) (fun _ => 1)); [apply der_id|apply derivable_pt_lim_const]|reflexivity].
      + ring.
    - rewrite P_at_1. ring. }
  pose proof (int_unique _ _ _ I I2) as E. apply (Rmult_eq_reg_r c); [|lra]. rewrite E. field. lra.
Qed.
Lemma P1_m1 : P1 N (-1) = - (c / 2) * P N (-1).
Proof. pose proof (P_ode N (-1)) as E. unfold c. lra. Qed.
Lemma P_m1_nz : P N (-1) <> 0.
Proof. pose proof (proj2 (P_end_sq N)) as E. intros X. rewrite X in E. lra. Qed.
Lemma W_first : W 0%nat = 2 / c.
Proof.
  pose proof c_pos. pose proof P_m1_nz as NZ.
  assert (I : integral (fun x => (-1 * x + 1) * P1 N x) (W 0%nat * (- c * P N (-1)))).
  { eapply int_val; [apply (HW (fun x => (-1 * x + 1) * P1 N x)); apply (ip_mono (N + 1)); [lia|]; apply ip_lin, ip_P1|].
    rewrite sum_ends by (auto; intros i Hi; rewrite ZI by auto; ring). rewrite Z0, Z1, P1_m1. field. }
  assert (I2 : integral (fun x => (-1 * x + 1) * P1 N x) (- 2 * P N (-1))).
  { eapply int_val; [apply (int_ext (fun x => (- P N x + (1 - x) * P1 N x) + P N x)); [intros; ring|]; apply int_add; [|apply int_P]|].
    - apply (int_der (fun x => (1 - x) * P N x)); [|reflexivity]. intros x. eapply der_eq; [apply (der_mul (fun x => 1 - x) (P N)); [|apply P_der]|].
      + eapply der_eq; [apply (der_sub (fun _ => 1) (fun x => x)); [apply derivable_pt_lim_const|apply der_id]|reflexivity].
      + ring.
    - ring. }
  pose proof (int_unique _ _ _ I I2) as E. apply (Rmult_eq_reg_r (- c * P N (-1))); [rewrite E; field; lra|]. intros X. apply Rmult_integral in X. destruct X; [lra|auto].
Qed.
Lemma W_inner i : (1 <= i < N)%nat -> P N (get z i) <> 0 /\ W i = 2 / (c * (P N (get z i) * P N (get z i))).
Proof.
  intros Hi. pose proof c_pos as Cp. set (r := get z i). assert (Pr : P1 N r = 0) by (apply ZI; auto).
  assert (R1 : r <> 1). { intros E. rewrite E, P1_at_1 in Pr. unfold c in Cp. lra. }
  assert (R2 : r <> -1). { intros E. rewrite E, P1_m1 in Pr. pose proof P_m1_nz. apply Rmult_integral in Pr. destruct Pr; [lra|auto]. }
  destruct (ip_root (N - 1) (P1 N) r) as (h & Hh & Eh); [apply (ip_mono N); [lia|apply ip_P1]|auto|].
  destruct (ip_der (N - 2) h) as (h' & Hh' & Dh); [apply (ip_mono (N - 1)); [lia|auto]|].
  assert (EP2 : forall x, P2 N x = h x + (x - r) * h' x).
  { intros x. eapply (der_unique (P1 N) (fun x => (x - r) * h x)); [apply Eh|apply P1_der|]. eapply der_eq; [apply (der_mul (fun x => x - r) h); [apply der_xmr|apply Dh]|]. ring. }
  assert (Hr : P2 N r = h r) by (rewrite EP2; ring).
  assert (HO : forall j, (1 <= j < N)%nat -> j <> i -> h (get z j) = 0).
  { intros j Hj Hne. assert (X : (get z j - r) * h (get z j) = 0) by (rewrite <- Eh; apply ZI; auto).
    apply Rmult_integral in X. destruct X as [X|X]; [|auto]. exfalso. apply Hne, D; [lia|lia|]. unfold r in X. lra. }
  assert (HO' : forall j, (j < S N)%nat -> j <> i -> (1 - get z j * get z j) * h (get z j) = 0).
  { intros j Hj Hne. destruct (Nat.eq_dec j 0) as [->|]; [rewrite Z0; ring|]. destruct (Nat.eq_dec j N) as [->|]; [rewrite Z1; ring|]. rewrite HO by lia. ring. }
  set (v := W i * ((1 - r * r) * (h r * h r))).
  assert (IB : integral (fun x => h x * h x * (1 - x * x)) v).
  { eapply int_val; [apply HW|].
    - apply (ip_mono ((N - 1 + (N - 2)) + 2)); [lia|]. apply (ip_mul _ _ (fun x => h x * h x)); [|apply ip_1mx2]. apply (ip_mul _ _ h h); [auto|]. apply (ip_mono (N - 1)); [lia|auto].
    - rewrite (rsum_single (S N) i); [unfold v; fold r; ring|lia|]. intros j Hj Hne. pose proof (HO' j Hj Hne) as X. replace (W j * (h (get z j) * h (get z j) * (1 - get z j * get z j))) with (W j * h (get z j) * ((1 - get z j * get z j) * h (get z j))) by ring. rewrite X. ring. }
  assert (IC : integral (fun x => h x * P2 N x * (1 - x * x)) v).
  { eapply int_val; [apply HW|].
    - apply (ip_mono ((N - 1 + (N - 2)) + 2)); [lia|]. apply (ip_mul _ _ (fun x => h x * P2 N x)); [|apply ip_1mx2]. apply (ip_mul _ _ h (P2 N)); [auto|]. apply (ip_mono (N - 1)); [lia|apply ip_P2].
    - rewrite (rsum_single (S N) i); [unfold v; fold r; rewrite Hr; ring|lia|]. intros j Hj Hne. pose proof (HO' j Hj Hne) as X. replace (W j * (h (get z j) * P2 N (get z j) * (1 - get z j * get z j))) with (W j * P2 N (get z j) * ((1 - get z j * get z j) * h (get z j))) by ring. rewrite X. ring. }
  assert (IA : integral (fun x => (1 * x + 0) * (P1 N x * h x)) (c / (1 - r * r))).
  { eapply int_val; [apply HW|].
    - apply (ip_mono (N + (N - 2) + 1)); [lia|]. apply (ip_lin _ 1 0 (fun x => P1 N x * h x)). apply (ip_mul _ _ (P1 N) h); [apply ip_P1|]. apply (ip_mono (N - 1)); [lia|auto].
    - rewrite sum_ends by (auto; intros j Hj; rewrite ZI by auto; ring). rewrite Z0, Z1, W_first, W_last.
      assert (H1 : h 1 = c / 2 / (1 - r)). { pose proof (Eh 1) as E. rewrite P1_at_1 in E. apply (Rmult_eq_reg_l (1 - r)); [|lra]. rewrite <- E. unfold c. field. lra. }
      assert (H2 : h (-1) = - (c / 2) * P N (-1) / (-1 - r)). { pose proof (Eh (-1)) as E. rewrite P1_m1 in E. apply (Rmult_eq_reg_l (-1 - r)); [|lra]. rewrite <- E. field. lra. }
      rewrite H1, H2, P1_at_1, P1_m1. fold c. pose proof (proj2 (P_end_sq N)) as E.
      transitivity (c / 2 * (P N (-1) * P N (-1)) / (1 + r) + c / 2 / (1 - r)).
      + field. repeat split; lra.
      + rewrite E. field. repeat split; nra. }
  assert (IG : integral (fun x => 2 * (h x * P2 N x * (1 - x * x)) - (h x * h x * (1 - x * x)) - 2 * ((1 * x + 0) * (P1 N x * h x))) 0).
  { apply (int_der (fun x => (1 - x * x) * ((x - r) * (h x * h x)))); [|ring]. intros x. eapply der_eq.
    - apply (der_mul (fun x => 1 - x * x) (fun x => (x - r) * (h x * h x))); [apply der_1mx2|]. apply (der_mul (fun x => x - r) (fun x => h x * h x)); [apply der_xmr|]. apply (der_mul h h); apply Dh.
    - rewrite EP2, Eh. ring. }
  pose proof (int_unique _ _ _ IG (int_sub _ _ _ _ (int_sub _ _ _ _ (int_scal 2 _ _ IC) IB) (int_scal 2 _ _ IA))) as E.
  assert (NZ : 1 - r * r <> 0) by nra.
  assert (Ev : v = 2 * c / (1 - r * r)) by (unfold Rdiv in *; lra).
  assert (Q : (1 - r * r) * h r = - c * P N r) by (rewrite <- Hr, P_ode, Pr; unfold c; ring).
  assert (Ew : W i * (c * P N r * (c * P N r)) = 2 * c).
  { replace (c * P N r * (c * P N r)) with ((- c * P N r) * (- c * P N r)) by ring. rewrite <- Q. apply (Rmult_eq_reg_r (/ (1 - r * r))); [|apply Rinv_neq_0_compat; auto].
    replace (2 * c * / (1 - r * r)) with (2 * c / (1 - r * r)) by reflexivity. rewrite <- Ev. unfold v. field. auto. }
  assert (PN : P N r <> 0). { intros X. rewrite X in Ew. replace (W i * (c * 0 * (c * 0))) with 0 in Ew by ring. lra. }
  split; [auto|]. apply (Rmult_eq_reg_r (c * P N r * (c * P N r))); [rewrite Ew; field; split; [auto|lra]|]. intros X. apply Rmult_integral in X. destruct X as [X|X]; apply Rmult_integral in X; destruct X; auto; lra.
Qed.
End Lobatto.

Lemma lobatto_exact z n : (2 <= n)%nat -> distinct z n -> get z 0 = -1 -> get z (n - 1) = 1 -> (forall i, (1 <= i < n - 1)%nat -> P1 (n - 1) (get z i) = 0) ->
  (forall i, (i < n)%nat -> P (n - 1) (get z i) <> 0) /\ exact z n (fun i => lobatto_weight n (get z i)) (2 * n - 2).
Proof.
  intros Hn D Z0 Z1 ZI. destruct n as [|N]; [lia|]. replace (S N - 1)%nat with N in * by lia. replace (2 * S N - 2)%nat with (2 * N)%nat by lia.
  assert (EX : exists W, exact z (S N) W (2 * N)).
  { destruct (interp_int z (S N) D (fun x => (1 - x * x) * P1 N x) (N - 1)) as (W & HW).
    - apply (ip_ext _ (fun x => P1 N x * (1 - x * x))); [intros; ring|]. replace (S N + 1)%nat with (N + 2)%nat by lia. apply (ip_mul _ _ (P1 N)); [apply ip_P1|apply ip_1mx2].
    - intros i Hi. destruct (Nat.eq_dec i 0) as [->|]; [rewrite Z0; ring|]. destruct (Nat.eq_dec i N) as [->|]; [rewrite Z1; ring|]. rewrite ZI by lia. ring.
    - destruct (Req_dec (P1 N 0) 0) as [E|E]; [|exists 0; lra].
      (* otherwise (1-x^2) P1 would vanish everywhere, and so would its derivative -c P *)
      destruct (classic (exists x, (1 - x * x) * P1 N x <> 0)) as [Y|Nn]; [auto|]. exfalso.
      assert (V : forall x, (1 - x * x) * P1 N x = 0). { intros x. destruct (Req_dec ((1 - x * x) * P1 N x) 0); [auto|]. exfalso. apply Nn. eauto. }
      assert (X : - (2 * 1) * P1 N 1 + (1 - 1 * 1) * P2 N 1 = 0).
      { eapply (der_unique (fun x => (1 - x * x) * P1 N x) (fun _ => 0)); [apply V|apply (der_mul (fun x => 1 - x * x) (P1 N)); [apply der_1mx2|apply P1_der]|apply derivable_pt_lim_const]. }
      rewrite P1_at_1 in X. assert (1 <= INR N) by (apply (le_INR 1); lia). nra.
    - intros s Hs. apply lobatto_orth. auto.
    - exists W. intros f Hf. apply HW. apply (ip_mono (2 * N)); [lia|auto]. }
  destruct EX as (W & HW). assert (HN : (1 <= N)%nat) by lia. split.
  - intros i Hi. destruct (Nat.eq_dec i 0) as [->|]; [rewrite Z0; apply P_m1_nz|]. destruct (Nat.eq_dec i N) as [->|]; [rewrite Z1, P_at_1; lra|].
    apply (W_inner z N HN D Z0 Z1 ZI W HW i). lia.
  - intros f Hf. eapply int_val; [apply HW; exact Hf|]. apply rsum_ext. intros i Hi. f_equal. unfold lobatto_weight. replace (S N - 1)%nat with N by lia. rewrite S_INR.
    destruct (Nat.eq_dec i 0) as [->|]; [rewrite Z0, (proj2 (P_end_sq N)), (W_first z N HN Z0 Z1 ZI W HW); f_equal; ring|].
    destruct (Nat.eq_dec i N) as [->|]; [rewrite Z1, (proj1 (P_end_sq N)), (W_last z N HN Z0 Z1 ZI W HW); f_equal; ring|].
    apply (W_inner z N HN D Z0 Z1 ZI W HW i). lia.
Qed.
