(** Legendre polynomials and their derivatives. *)
From Verif Require Import Base Poly PolySpec PolyProof2.
From Coq Require Import Reals Lra.
Open Scope R_scope.

Lemma P_0 x : P 0 x = 1. Proof. reflexivity. Qed.
Lemma P_1 x : P 1 x = x. Proof. reflexivity. Qed.
Lemma PP_snd n x : snd (PP n x) = P (S n) x.
Proof. unfold P. cbn [PP]. destruct (PP n x). reflexivity. Qed.
Lemma P_SS n x : P (S (S n)) x = ((2 * INR n + 3) * x * P (S n) x - (INR n + 1) * P n x) / (INR n + 2).
Proof.
  rewrite <- !PP_snd. cbn [PP]. unfold P. pose proof (PP_snd n x) as E. destruct (PP n x) as [a b]. cbn [fst snd] in *. reflexivity.
Qed.

(** Derivatives, by differentiating Bonnet's recursion. *)
Fixpoint PP1 (n : nat) (x : R) : R * R :=
  match n with
  | O => (0, 1)
  | S m => let '(a, b) := PP1 m x in (b, ((2 * INR m + 3) * (P (S m) x + x * b) - (INR m + 1) * a) / (INR m + 2))
  end.
Definition P1 (n : nat) (x : R) : R := fst (PP1 n x).
Lemma PP1_snd n x : snd (PP1 n x) = P1 (S n) x.
Proof. unfold P1. cbn [PP1]. destruct (PP1 n x). reflexivity. Qed.
Lemma P1_0 x : P1 0 x = 0. Proof. reflexivity. Qed.
Lemma P1_1 x : P1 1 x = 1. Proof. reflexivity. Qed.
Lemma P1_SS n x : P1 (S (S n)) x = ((2 * INR n + 3) * (P (S n) x + x * P1 (S n) x) - (INR n + 1) * P1 n x) / (INR n + 2).
Proof.
  rewrite <- !PP1_snd. cbn [PP1]. unfold P1. destruct (PP1 n x) as [a b]. cbn [fst snd] in *. reflexivity.
Qed.
Fixpoint PP2 (n : nat) (x : R) : R * R :=
  match n with
  | O => (0, 0)
  | S m => let '(a, b) := PP2 m x in (b, ((2 * INR m + 3) * (2 * P1 (S m) x + x * b) - (INR m + 1) * a) / (INR m + 2))
  end.
Definition P2 (n : nat) (x : R) : R := fst (PP2 n x).
Lemma PP2_snd n x : snd (PP2 n x) = P2 (S n) x.
Proof. unfold P2. cbn [PP2]. destruct (PP2 n x). reflexivity. Qed.
Lemma P2_0 x : P2 0 x = 0. Proof. reflexivity. Qed.
Lemma P2_1 x : P2 1 x = 0. Proof. reflexivity. Qed.
Lemma P2_SS n x : P2 (S (S n)) x = ((2 * INR n + 3) * (2 * P1 (S n) x + x * P2 (S n) x) - (INR n + 1) * P2 n x) / (INR n + 2).
Proof.
  rewrite <- !PP2_snd. cbn [PP2]. unfold P2. destruct (PP2 n x) as [a b]. cbn [fst snd] in *. reflexivity.
Qed.

Lemma two_step (Q : nat -> Prop) : Q 0%nat -> Q 1%nat -> (forall n, Q n -> Q (S n) -> Q (S (S n))) -> forall n, Q n.
Proof. intros A B H n. enough (Q n /\ Q (S n)) by tauto. induction n as [|n [I J]]; auto. Qed.
Lemma der_sub f g x a b : derivable_pt_lim f x a -> derivable_pt_lim g x b -> derivable_pt_lim (fun x => f x - g x) x (a - b).
Proof. intros. apply (derivable_pt_lim_minus f g); auto. Qed.
Lemma der_id x : derivable_pt_lim (fun x => x) x 1. Proof. apply derivable_pt_lim_id. Qed.

Lemma P_der n x : derivable_pt_lim (P n) x (P1 n x).
Proof.
  revert n. apply two_step.
  - apply (derivable_pt_lim_ext (fun _ => 1)); [reflexivity|]. apply derivable_pt_lim_const.
  - apply (derivable_pt_lim_ext (fun x => x)); [reflexivity|]. apply derivable_pt_lim_id.
  - intros n I J. apply (derivable_pt_lim_ext (fun x => / (INR n + 2) * ((2 * INR n + 3) * (x * P (S n) x) - (INR n + 1) * P n x))).
    + intros y. rewrite P_SS. unfold Rdiv. ring.
    + eapply der_eq; [apply der_scal, der_sub; [apply der_scal, der_mul; [apply der_id|apply J]|apply der_scal, I]|].
      cbv beta. rewrite P1_SS. unfold Rdiv. ring.
Qed.
Lemma P1_der n x : derivable_pt_lim (P1 n) x (P2 n x).
Proof.
  revert n. apply two_step.
  - apply (derivable_pt_lim_ext (fun _ => 0)); [reflexivity|]. apply derivable_pt_lim_const.
  - apply (derivable_pt_lim_ext (fun x => 1)); [reflexivity|]. apply derivable_pt_lim_const.
  - intros n I J. apply (derivable_pt_lim_ext (fun x => / (INR n + 2) * ((2 * INR n + 3) * (P (S n) x + x * P1 (S n) x) - (INR n + 1) * P1 n x))).
    + intros y. rewrite P1_SS. unfold Rdiv. ring.
    + eapply der_eq; [apply der_scal, der_sub; [apply der_scal, der_add; [apply P_der|apply der_mul; [apply der_id|apply J]]|apply der_scal, I]|].
      cbv beta. rewrite P2_SS. unfold Rdiv. ring.
Qed.
Lemma der_unique f g x a b : (forall y, f y = g y) -> derivable_pt_lim f x a -> derivable_pt_lim g x b -> a = b.
Proof. intros E Ha Hb. apply (uniqueness_limite g x); auto. eapply derivable_pt_lim_ext; eauto. Qed.

(** P'_(n+1) = x P'_n + (n+1) P_n and x P'_(n+1) - P'_n = (n+1) P_(n+1). *)
Lemma BC n x : P1 (S n) x = x * P1 n x + (INR n + 1) * P n x /\ x * P1 (S n) x - P1 n x = (INR n + 1) * P (S n) x.
Proof.
  induction n as [|n [B C]].
  - rewrite P1_1, P1_0, P_0, P_1. cbn [INR]. lra.
  - assert (N := pos_INR n).
    assert (B' : P1 (S (S n)) x = x * P1 (S n) x + (INR (S n) + 1) * P (S n) x).
    { rewrite P1_SS, S_INR. replace (P1 n x) with (x * P1 (S n) x - (INR n + 1) * P (S n) x) by lra. field. lra. }
    split; [auto|]. rewrite B', P_SS, S_INR.
    assert (E : (x * x - 1) * P1 (S n) x = (INR n + 1) * (x * P (S n) x - P n x)).
    { replace ((INR n + 1) * (x * P (S n) x - P n x)) with (x * ((INR n + 1) * P (S n) x) - (INR n + 1) * P n x) by ring.
      rewrite <- C. replace ((INR n + 1) * P n x) with (P1 (S n) x - x * P1 n x) by lra. ring. }
    replace (x * (x * P1 (S n) x + (INR n + 1 + 1) * P (S n) x) - P1 (S n) x) with ((x * x - 1) * P1 (S n) x + (INR n + 2) * x * P (S n) x) by ring.
    rewrite E. field. lra.
Qed.
Lemma P1_rec n x : (INR n + 1) * P1 (S (S n)) x = (2 * INR n + 3) * x * P1 (S n) x - (INR n + 2) * P1 n x.
Proof.
  destruct (BC n x) as [_ C]. destruct (BC (S n) x) as [B _]. rewrite S_INR in B. rewrite B.
  replace ((INR n + 1) * (x * P1 (S n) x + (INR n + 1 + 1) * P (S n) x)) with ((INR n + 1) * x * P1 (S n) x + (INR n + 2) * ((INR n + 1) * P (S n) x)) by ring.
  rewrite <- C. ring.
Qed.
Lemma P2_rec n x : INR n * P2 (S (S n)) x = (2 * INR n + 3) * x * P2 (S n) x - (INR n + 3) * P2 n x.
Proof.
  assert (B : P2 (S (S n)) x = (P1 (S n) x + x * P2 (S n) x) + (INR n + 2) * P1 (S n) x).
  { eapply (der_unique (P1 (S (S n))) (fun y => y * P1 (S n) y + (INR n + 2) * P (S n) y) x).
    - intros y. destruct (BC (S n) y) as [B _]. rewrite B, S_INR. ring.
    - apply P1_der.
    - eapply der_eq; [apply der_add; [apply der_mul; [apply der_id|apply P1_der]|apply der_scal, P_der]|]. cbv beta. ring. }
  assert (C : (P1 (S n) x + x * P2 (S n) x) - P2 n x = (INR n + 1) * P1 (S n) x).
  { eapply (der_unique (fun y => y * P1 (S n) y - P1 n y) (fun y => (INR n + 1) * P (S n) y) x).
    - intros y. apply BC.
    - eapply der_eq; [apply der_sub; [apply der_mul; [apply der_id|apply P1_der]|apply P1_der]|]. cbv beta. ring.
    - apply der_scal, P_der. }
  rewrite B. replace (INR n * (P1 (S n) x + x * P2 (S n) x + (INR n + 2) * P1 (S n) x)) with (INR n * x * P2 (S n) x + (INR n + 3) * (INR n * P1 (S n) x)) by ring.
  replace (INR n * P1 (S n) x) with (x * P2 (S n) x - P2 n x) by lra. ring.
Qed.

(** The loops. *)
Lemma legendre_loop_ok n x fuel : forall i, Nat.odd i = true -> (i <= n + 1)%nat -> (n <= i + 2 * fuel)%nat ->
  pick n (legendre_loop fuel i n x (P (i - 1) x) (P i x)) = P n x.
Proof.
  assert (STOP : forall i, Nat.odd i = true -> (n <= i <= n + 1)%nat -> pick n (P (i - 1) x, P i x) = P n x).
  { intros i Hi Hn. unfold pick. cbn [fst snd]. destruct (Nat.eq_dec i n) as [->|]; [rewrite Hi; auto|].
    replace i with (S n) in * by lia. rewrite Nat.odd_succ in Hi. unfold Nat.odd. rewrite Hi. cbn [negb]. f_equal. lia. }
  induction fuel as [|f IH]; intros i Hi Hle Hf; cbn [legendre_loop].
  - apply STOP; auto; lia.
  - destruct (Nat.ltb_spec i n) as [H|H]; [|apply STOP; auto; lia].
    assert (Hi1 : (1 <= i)%nat) by (destruct i; [discriminate|lia]). assert (N := pos_INR i).
    assert (E0 : ((2 * INR i + 1) * x * P i x - INR i * P (i - 1) x) / (INR i + 1) = P (i + 1) x).
    { replace (i + 1)%nat with (S (S (i - 1))) by lia. rewrite P_SS. replace (S (i - 1)) with i by lia.
      replace (INR (i - 1)) with (INR i - 1) by (rewrite minus_INR by lia; cbn [INR]; ring). f_equal; ring. }
    assert (E1 : ((2 * INR i + 3) * x * P (i + 1) x - (INR i + 1) * P i x) / (INR i + 2) = P (i + 2) x).
    { replace (i + 2)%nat with (S (S i)) by lia. rewrite P_SS. replace (i + 1)%nat with (S i) by lia. auto. }
    cbv zeta. rewrite E0, E1. specialize (IH (i + 2)%nat). replace (i + 2 - 1)%nat with (i + 1)%nat in IH by lia. apply IH; [|lia|lia].
    replace (i + 2)%nat with (S (S i)) by lia. exact Hi.
Qed.
Lemma legendre_d1_loop_ok n x fuel : forall i, Nat.even i = true -> (2 <= i)%nat -> (i <= n + 1)%nat -> (n <= i + 2 * fuel)%nat ->
  pick n (legendre_d1_loop fuel i n x (P1 i x) (P1 (i - 1) x)) = P1 n x.
Proof.
  assert (STOP : forall i, Nat.even i = true -> (n <= i <= n + 1)%nat -> pick n (P1 i x, P1 (i - 1) x) = P1 n x).
  { intros i Hi Hn. unfold pick. cbn [fst snd]. destruct (Nat.eq_dec i n) as [->|]; [unfold Nat.odd; rewrite Hi; auto|].
    replace i with (S n) in * by lia. rewrite Nat.even_succ in Hi. rewrite Hi. f_equal. lia. }
  induction fuel as [|f IH]; intros i Hi Hi2 Hle Hf; cbn [legendre_d1_loop].
  - apply STOP; auto; lia.
  - destruct (Nat.ltb_spec i n) as [H|H]; [|apply STOP; auto; lia].
    assert (N : 2 <= INR i) by (change 2 with (INR 2); apply le_INR; auto).
    assert (E0 : ((2 * INR i + 1) * x * P1 i x - (INR i + 1) * P1 (i - 1) x) / INR i = P1 (i + 1) x).
    { replace (i + 1)%nat with (S (S (i - 1))) by lia. pose proof (P1_rec (i - 1) x) as E. replace (S (i - 1)) with i in * by lia.
      replace (INR (i - 1)) with (INR i - 1) in E by (rewrite minus_INR by lia; cbn [INR]; ring).
      replace (INR i - 1 + 1) with (INR i) in E by ring. replace ((2 * INR i + 1) * x * P1 i x - (INR i + 1) * P1 (i - 1) x) with (INR i * P1 (S i) x) by (rewrite E; ring). field. lra. }
    assert (E1 : ((2 * INR i + 3) * x * P1 (i + 1) x - (INR i + 2) * P1 i x) / (INR i + 1) = P1 (i + 2) x).
    { replace (i + 2)%nat with (S (S i)) by lia. replace (i + 1)%nat with (S i) by lia. rewrite <- P1_rec. field. lra. }
    cbv zeta. rewrite E0, E1. specialize (IH (i + 2)%nat). replace (i + 2 - 1)%nat with (i + 1)%nat in IH by lia. apply IH; [|lia|lia|lia].
    replace (i + 2)%nat with (S (S i)) by lia. exact Hi.
Qed.
Lemma legendre_d2_loop_ok n x fuel : forall i, Nat.odd i = true -> (3 <= i)%nat -> (i <= n + 1)%nat -> (n <= i + 2 * fuel)%nat ->
  pick n (legendre_d2_loop fuel i n x (P2 (i - 1) x) (P2 i x)) = P2 n x.
Proof.
  assert (STOP : forall i, Nat.odd i = true -> (n <= i <= n + 1)%nat -> pick n (P2 (i - 1) x, P2 i x) = P2 n x).
  { intros i Hi Hn. unfold pick. cbn [fst snd]. destruct (Nat.eq_dec i n) as [->|]; [rewrite Hi; auto|].
    replace i with (S n) in * by lia. rewrite Nat.odd_succ in Hi. unfold Nat.odd. rewrite Hi. cbn [negb]. f_equal. lia. }
  induction fuel as [|f IH]; intros i Hi Hi2 Hle Hf; cbn [legendre_d2_loop].
  - apply STOP; auto; lia.
  - destruct (Nat.ltb_spec i n) as [H|H]; [|apply STOP; auto; lia].
    assert (N : 3 <= INR i) by (replace 3 with (INR 3) by (cbn [INR]; ring); apply le_INR; auto).
    assert (E0 : ((2 * INR i + 1) * x * P2 i x - (INR i + 2) * P2 (i - 1) x) / (INR i - 1) = P2 (i + 1) x).
    { replace (i + 1)%nat with (S (S (i - 1))) by lia. pose proof (P2_rec (i - 1) x) as E. replace (S (i - 1)) with i in * by lia.
      replace (INR (i - 1)) with (INR i - 1) in E by (rewrite minus_INR by lia; cbn [INR]; ring).
      replace ((2 * INR i + 1) * x * P2 i x - (INR i + 2) * P2 (i - 1) x) with ((INR i - 1) * P2 (S i) x) by (rewrite E; ring). field. lra. }
    assert (E1 : ((2 * INR i + 3) * x * P2 (i + 1) x - (INR i + 3) * P2 i x) / INR i = P2 (i + 2) x).
    { replace (i + 2)%nat with (S (S i)) by lia. replace (i + 1)%nat with (S i) by lia. rewrite <- P2_rec. field. lra. }
    cbv zeta. rewrite E0, E1. specialize (IH (i + 2)%nat). replace (i + 2 - 1)%nat with (i + 1)%nat in IH by lia. apply IH; [|lia|lia|lia].
    replace (i + 2)%nat with (S (S i)) by lia. exact Hi.
Qed.
Lemma P1_2 x : P1 2 x = 3 * x. Proof. rewrite P1_SS, P1_1, P1_0, P_1. cbn [INR]. lra. Qed.
Lemma P2_2 x : P2 2 x = 3. Proof. rewrite P2_SS, P2_1, P2_0, P1_1. cbn [INR]. lra. Qed.
Lemma P2_3 x : P2 3 x = 15 * x. Proof. rewrite P2_SS, P2_2, P2_1, P1_2. cbn [INR]. lra. Qed.
Lemma legendre_P n x : legendre n x = P n x.
Proof. apply (legendre_loop_ok n x n 1); [reflexivity|lia|lia]. Qed.
Lemma legendre_d1_P n x : (1 <= n)%nat -> legendre_d1 n x = P1 n x.
Proof. intros H. unfold legendre_d1. rewrite <- P1_2. apply (legendre_d1_loop_ok n x n 2); [reflexivity|lia|lia|lia]. Qed.
Lemma legendre_d2_P n x : (2 <= n)%nat -> legendre_d2 n x = P2 n x.
Proof.
  intros H. unfold legendre_d2. pose proof (legendre_d2_loop_ok n x n 3) as L. replace (3 - 1)%nat with 2%nat in L by auto.
  rewrite P2_2, P2_3 in L. apply L; [reflexivity|lia|lia|lia].
Qed.
