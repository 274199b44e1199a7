(** The tabulated nodes are the extrema of P_(n-1), to 17 digits. *)
From Verif Require Import Base BaseLemmas Poly PolySpec PolyProof1 PolyProof2 PolyProof3 PolyImpSyntax PolyImp PolyGll PolyGllSpec PolyImpProof PolyGllProof PolyGllCheck.
From Coq Require Import Reals Lra.
Open Scope R_scope.

Definition ca (e : Z) (m : nat) : Z := fst (fst (fst (approx e m))).
Definition ra (e : Z) (m : nat) : Z := snd (fst (approx e m)).
Lemma approx_S e m : snd (fst (fst (approx e m))) = ca e (S m) /\ snd (approx e m) = ra e (S m).
Proof. unfold ca, ra. cbn [approx]. destruct (approx e m) as [[[a b] r] t]. auto. Qed.
Lemma ca_SS e m : ca e (S (S m)) = (Z.shiftr ((2 * Z.of_nat m + 5) * (e * ca e (S m))) 60 - (Z.of_nat m + 3) * (Z.of_nat m + 1) * ca e m)%Z.
Proof. rewrite <- !(proj1 (approx_S _ _)). cbn [approx]. unfold ca. destruct (approx e m) as [[[a b] r] t]. reflexivity. Qed.
Lemma ra_SS e m : ra e (S (S m)) = ((2 * Z.of_nat m + 5) * ra e (S m) + (Z.of_nat m + 3) * (Z.of_nat m + 1) * ra e m + 1)%Z.
Proof. rewrite <- !(proj2 (approx_S _ _)). cbn [approx]. unfold ra. destruct (approx e m) as [[[a b] r] t]. reflexivity. Qed.

(** e/2^60. *)
Definition bin (e : Z) : R := IZR e / 2 ^ 60.
Lemma two60 : 0 < 2 ^ 60. Proof. apply pow_lt. lra. Qed.
Lemma IZR_2p k : IZR (2 ^ Z.of_nat k) = 2 ^ k.
Proof. rewrite pow_IZR. auto. Qed.
Lemma bin_lt a b : (a < b)%Z -> bin a < bin b.
Proof. intros H. apply IZR_lt in H. unfold bin, Rdiv. apply Rmult_lt_compat_r; [apply Rinv_0_lt_compat, two60|auto]. Qed.
Lemma shift_ok x : IZR x / 2 ^ 60 - 1 <= IZR (Z.shiftr x 60) <= IZR x / 2 ^ 60.
Proof.
  rewrite Z.shiftr_div_pow2 by lia. pose proof (Z.mul_div_le x (2 ^ 60) ltac:(lia)) as A. pose proof (Z.mul_succ_div_gt x (2 ^ 60) ltac:(lia)) as B.
  apply IZR_le in A. apply IZR_lt in B. rewrite mult_IZR in A, B. rewrite succ_IZR in B. change 60%Z with (Z.of_nat 60) in *. rewrite IZR_2p in *. pose proof two60.
  split.
  - apply (Rmult_le_reg_l (2 ^ 60)); auto. replace (2 ^ 60 * (IZR x / 2 ^ 60 - 1)) with (IZR x - 2 ^ 60) by (field; lra). lra.
  - apply (Rmult_le_reg_l (2 ^ 60)); auto. replace (2 ^ 60 * (IZR x / 2 ^ 60)) with (IZR x) by (field; lra). lra.
Qed.
Lemma approx_ok e m : (Z.abs e <= 2 ^ 60)%Z -> Rabs (IZR (ca e m) - INR (fact m) * 2 ^ 100 * P1 (S m) (bin e)) <= IZR (ra e m).
Proof.
  intros He. assert (HX : Rabs (bin e) <= 1).
  { unfold bin, Rdiv. rewrite Rabs_mult, (Rabs_pos_eq (/ 2 ^ 60)) by (apply Rlt_le, Rinv_0_lt_compat, two60). rewrite <- abs_IZR.
    apply IZR_le in He. change 60%Z with (Z.of_nat 60) in He. rewrite IZR_2p in He. pose proof two60. apply (Rmult_le_reg_r (2 ^ 60)); [auto|]. rewrite Rmult_assoc, Rinv_l by lra. lra. }
  assert (EE : IZR e = bin e * 2 ^ 60) by (unfold bin; field; pose proof two60; lra).
  set (x := bin e) in *. clearbody x. revert m. apply two_step.
  - unfold ca, ra. cbn [approx fst snd fact]. change 100%Z with (Z.of_nat 100). rewrite IZR_2p. rewrite P1_1. change (INR 1) with 1. rewrite Rabs_right; lra.
  - unfold ca, ra. cbn [approx fst snd fact]. rewrite !mult_IZR, EE. change 40%Z with (Z.of_nat 40). rewrite IZR_2p, P1_2. change (INR (1 * 1)) with 1.
    replace (2 ^ 100) with (2 ^ 60 * 2 ^ 40) by (rewrite <- pow_add; reflexivity). rewrite Rabs_right; [lra|]. right. ring.
  - intros m I J. rewrite ca_SS, ra_SS. set (k := Z.of_nat m) in *. assert (Ek : IZR k = INR m) by (unfold k; rewrite <- INR_IZR_INZ; auto). pose proof (pos_INR m) as Pm.
    pose proof (shift_ok ((2 * k + 5) * (e * ca e (S m)))) as Sh. set (sh := Z.shiftr _ 60) in *. clearbody sh. rewrite !mult_IZR, plus_IZR, mult_IZR, EE, Ek in Sh.
    rewrite minus_IZR, !plus_IZR, !mult_IZR, !plus_IZR, mult_IZR, Ek. clearbody k.
    replace ((2 * INR m + 5) * (x * 2 ^ 60 * IZR (ca e (S m))) / 2 ^ 60) with ((2 * INR m + 5) * x * IZR (ca e (S m))) in Sh by (field; pose proof two60; lra).
    pose proof (P1_rec (S m) x) as Rc. rewrite S_INR in Rc.
    replace (fact (S (S m))) with ((S m + 1) * ((m + 1) * fact m))%nat by (cbn [fact]; lia).
    replace (fact (S m)) with ((m + 1) * fact m)%nat in J by (cbn [fact]; lia).
    rewrite !mult_INR, !plus_INR, (S_INR m). rewrite mult_INR, plus_INR in J. change (INR 1) with 1 in *.
    set (F := INR (fact m) * 2 ^ 100) in *.
    replace ((INR m + 1) * INR (fact m) * 2 ^ 100) with ((INR m + 1) * F) in J by (unfold F; ring).
    replace ((INR m + 1 + 1) * ((INR m + 1) * INR (fact m)) * 2 ^ 100 * P1 (S (S (S m))) x) with ((INR m + 1) * F * ((INR m + 1 + 1) * P1 (S (S (S m))) x)) by (unfold F; ring).
    rewrite Rc. clear Rc. clearbody F. set (y := INR m) in *. clearbody y. set (A := IZR (ca e m)) in *. set (B := IZR (ca e (S m))) in *. set (p := P1 (S m) x) in *. set (q := P1 (S (S m)) x) in *.
    set (r := IZR (ra e m)) in *. set (t := IZR (ra e (S m))) in *. clearbody A B p q r t.
    replace (IZR sh - (y + 3) * (y + 1) * A - (y + 1) * F * ((2 * (y + 1) + 3) * x * q - (y + 1 + 2) * p))
      with ((IZR sh - (2 * y + 5) * x * B) + ((2 * y + 5) * x * (B - (y + 1) * F * q) + - ((y + 3) * (y + 1) * (A - F * p)))) by ring.
    eapply Rle_trans; [apply Rabs_triang|]. assert (T1 : Rabs (IZR sh - (2 * y + 5) * x * B) <= 1) by (apply Rabs_le; lra).
    assert (T2 : Rabs ((2 * y + 5) * x * (B - (y + 1) * F * q) + - ((y + 3) * (y + 1) * (A - F * p))) <= (2 * y + 5) * t + (y + 3) * (y + 1) * r); [|lra].
    eapply Rle_trans; [apply Rabs_triang|]. rewrite Rabs_Ropp, !Rabs_mult. rewrite (Rabs_pos_eq (2 * y + 5)), (Rabs_pos_eq (y + 3)), (Rabs_pos_eq (y + 1)) by lra.
    apply Rplus_le_compat.
    + rewrite Rmult_assoc. apply Rmult_le_compat_l; [lra|]. pose proof (Rabs_pos x). pose proof (Rabs_pos (B - (y + 1) * F * q)). nra.
    + apply Rmult_le_compat_l; [|auto]. apply Rmult_le_pos; lra.
Qed.
Lemma sgn_ok e m : ((0 < sgn e m)%Z -> 0 < P1 (S m) (bin e)) /\ ((sgn e m < 0)%Z -> P1 (S m) (bin e) < 0).
Proof.
  unfold sgn. destruct (approx e m) as [[[a b] r] t] eqn:E. destruct (Z.leb_spec (Z.abs e) (2 ^ 60)) as [He|He]; [|split; lia].
  pose proof (approx_ok e m He) as A. unfold ca, ra in A. rewrite E in A. cbn [fst snd] in A.
  assert (F : 0 < INR (fact m) * 2 ^ 100) by (apply Rmult_lt_0_compat; [apply INR_fact_lt_0|apply pow_lt; lra]).
  set (G := INR (fact m) * 2 ^ 100) in *. set (p := P1 (S m) (bin e)) in *.
  destruct (Z.ltb_spec r a) as [H|H].
  - split; [intros _|lia]. apply IZR_lt in H. apply (Rmult_lt_reg_l G); [auto|]. rewrite Rmult_0_r. revert A. unfold Rabs. destruct (Rcase_abs _); lra.
  - destruct (Z.ltb_spec a (- r)) as [H'|H']; [|split; lia]. split; [lia|intros _]. apply IZR_lt in H'. rewrite opp_IZR in H'. apply (Rmult_lt_reg_l G); [auto|]. rewrite Rmult_0_r. revert A. unfold Rabs. destruct (Rcase_abs _); lra.
Qed.
Lemma P1_cont n : continuity (P1 n).
Proof. intros x. apply derivable_continuous_pt. exists (P2 n x). apply P1_der. Qed.

Lemma units_ok e : bin (units e) <= entry e <= bin (units e + 1).
Proof.
  unfold units. pose proof (Z.mul_div_le (e * 2 ^ 60) (10 ^ 52) ltac:(lia)) as A. pose proof (Z.mul_succ_div_gt (e * 2 ^ 60) (10 ^ 52) ltac:(lia)) as B.
  set (f := (e * 2 ^ 60 / 10 ^ 52)%Z) in *. clearbody f. apply IZR_le in A. apply IZR_lt in B. rewrite !mult_IZR in A, B. rewrite succ_IZR in B. rewrite IZR_pow52 in *.
  change 60%Z with (Z.of_nat 60) in *. rewrite IZR_2p in *. pose proof two60. pose proof pow10_pos. unfold bin, entry. rewrite plus_IZR.
  set (a := 10 ^ 52) in *. set (b := 2 ^ 60) in *. clearbody a b.
  split; apply (Rmult_le_reg_l (a * b)); try (apply Rmult_lt_0_compat; auto).
  - replace (a * b * (IZR f / b)) with (a * IZR f) by (field; lra). replace (a * b * (IZR e / a)) with (IZR e * b) by (field; lra). lra.
  - replace (a * b * ((IZR f + 1) / b)) with (a * (IZR f + 1)) by (field; lra). replace (a * b * (IZR e / a)) with (IZR e * b) by (field; lra). lra.
Qed.
Lemma bin_tol : 2 / 2 ^ 60 <= / 10 ^ 17.
Proof.
  apply (Rmult_le_reg_l (2 ^ 60 * 10 ^ 17)); [apply Rmult_lt_0_compat; [apply two60|apply pow_lt; lra]|].
  assert (10 ^ 17 <> 0) by (apply pow_nonzero; lra). assert (2 ^ 60 <> 0) by (apply pow_nonzero; lra).
  replace (2 ^ 60 * 10 ^ 17 * (2 / 2 ^ 60)) with (2 * 10 ^ 17) by (field; auto). replace (2 ^ 60 * 10 ^ 17 * / 10 ^ 17) with (2 ^ 60) by (field; auto).
  rewrite !pow_IZR, <- mult_IZR. apply IZR_le. apply Z.leb_le. vm_compute. reflexivity.
Qed.
Lemma bin_add f k : bin (f + k) = bin f + IZR k / 2 ^ 60.
Proof. unfold bin, Rdiv. rewrite plus_IZR. ring. Qed.
Lemma change_ok n e : (2 <= n)%nat -> change_at n e = true -> exists r, P1 (n - 1) r = 0 /\ bin (units e - 1) <= r <= bin (units e + 1).
Proof.
  intros Hn H. unfold change_at in H. apply Z.ltb_lt in H. replace (n - 1)%nat with (S (n - 2)) by lia. set (f := units e) in *.
  assert (LT : bin (f - 1) < bin (f + 1)) by (apply bin_lt; lia). destruct (sgn_ok (f - 1) (n - 2)) as [S1 S2]. destruct (sgn_ok (f + 1) (n - 2)) as [S3 S4].
  destruct (Z.lt_trichotomy (sgn (f - 1) (n - 2)) 0) as [C|[C|C]]; [|rewrite C in H; cbn in H; lia|].
  - assert (C' : (0 < sgn (f + 1) (n - 2))%Z) by nia.
    destruct (IVT (P1 (S (n - 2))) _ _ (P1_cont _) LT (S2 C) (S3 C')) as (r & Hr & Z0). exists r. auto.
  - assert (C' : (sgn (f + 1) (n - 2) < 0)%Z) by nia. specialize (S1 C). specialize (S4 C').
    destruct (IVT (fun x => - P1 (S (n - 2)) x) (bin (f - 1)) (bin (f + 1))) as (r & Hr & Z0);
      [apply (continuity_opp (P1 (S (n - 2)))), P1_cont|auto|cbv beta; lra|cbv beta; lra|]. exists r. split; [lra|auto].
Qed.

Lemma P_poly n : exists c, (length c <= n + 1)%nat /\ forall x, peval c x = P n x.
Proof.
  revert n. apply two_step.
  - exists [1]. split; [cbn; lia|]. intros x. rewrite P_0. cbn [peval]. ring.
  - exists [0; 1]. split; [cbn; lia|]. intros x. rewrite P_1. cbn [peval]. ring.
  - intros n (a & La & Ha) (b & Lb & Hb). destruct (peval_lin ((2 * INR n + 3) / (INR n + 2)) 0 b) as (c & Lc & Hc).
    exists (padd c (map (Rmult (- (INR n + 1) / (INR n + 2))) a)). split.
    + apply length_padd; [lia|rewrite map_length; lia].
    + intros x. rewrite peval_padd, peval_map, Hc, Ha, Hb, P_SS. unfold Rdiv. ring.
Qed.
Lemma P1_poly n : exists c, (length c <= n)%nat /\ forall x, peval c x = P1 n x.
Proof.
  induction n as [|n (c & Lc & Hc)]; [exists []; split; [auto|intros; rewrite P1_0; reflexivity]|].
  destruct (P_poly n) as (p & Lp & Hp). destruct (peval_lin 1 0 c) as (q & Lq & Hq).
  exists (padd q (map (Rmult (INR n + 1)) p)). split; [apply length_padd; [lia|rewrite map_length; lia]|].
  intros x. rewrite peval_padd, peval_map, Hq, Hc, Hp. rewrite (proj1 (BC n x)). ring.
Qed.
Lemma find_dec (l : arr) x m : {exists i, (i < m)%nat /\ x = get l i} + {~ exists i, (i < m)%nat /\ x = get l i}.
Proof.
  induction m as [|m [Y|N]]; [right; intros (i & Hi & _); lia|left; destruct Y as (i & Hi & E); exists i; split; [lia|auto]|].
  destruct (Req_EM_T x (get l m)) as [E|E]; [left; exists m; split; [lia|auto]|].
  right. intros (i & Hi & Ei). destruct (Nat.eq_dec i m) as [->|]; [auto|]. apply N. exists i. split; [lia|auto].
Qed.
Lemma choose_list (Q : nat -> R -> Prop) m : (forall i, (i < m)%nat -> exists r, Q i r) -> exists l : arr, length l = m /\ forall i, (i < m)%nat -> Q i (get l i).
Proof.
  induction m as [|m IH]; intros H; [exists []; split; [auto|intros; lia]|]. destruct IH as (l & Ll & Hl); [auto|]. destruct (H m) as (r & Hr); [lia|].
  exists (l ++ [r]). split; [rewrite app_length; cbn; lia|]. intros i Hi. unfold get. destruct (Nat.eq_dec i m) as [->|].
  - rewrite app_nth2 by lia. rewrite Ll, Nat.sub_diag. auto.
  - rewrite app_nth1 by lia. apply Hl. lia.
Qed.

Lemma gll_roots n : (2 <= n <= 24)%nat -> exists roots : arr, length roots = (n - 2)%nat /\
  (forall i, (i + 1 < n - 2)%nat -> get roots i < get roots (S i)) /\
  (forall i, (i < n - 2)%nat -> Rabs (get (gll_list n) (i + 1) - get roots i) <= / 10 ^ 17) /\
  forall x, P1 (n - 1) x = 0 <-> exists i, (i < n - 2)%nat /\ x = get roots i.
Proof.
  intros Hn. pose proof roots_checked as RC. rewrite forallb_forall in RC. specialize (RC n ltac:(apply in_seq; lia)). unfold roots_check in RC.
  rewrite !andb_true_iff in RC. destruct RC as [[C1 C2] C3]. rewrite forallb_forall in C2, C3.
  assert (GE : forall i, get (gll_list n) i = entry (nth i (gll_list_Z n) 0%Z)) by (intros; rewrite gll_list_entry, get_entry; auto).
  destruct (choose_list (fun i r => P1 (n - 1) r = 0 /\ bin (units (nth (i + 1) (gll_list_Z n) 0%Z) - 1) <= r <= bin (units (nth (i + 1) (gll_list_Z n) 0%Z) + 1)) (n - 2)) as (l & Ll & Hl).
  { intros i Hi. apply change_ok; [lia|]. apply C2. apply in_seq. lia. }
  exists l. split; [auto|].
  assert (INC : forall i, (i + 1 < n - 2)%nat -> get l i < get l (S i)).
  { intros i Hi. destruct (Hl i ltac:(lia)) as [_ A]. destruct (Hl (S i) ltac:(lia)) as [_ B].
    assert (Q : (units (nth (i + 1) (gll_list_Z n) 0) + 2 < units (nth (S (i + 1)) (gll_list_Z n) 0))%Z) by (apply Z.ltb_lt, C3; apply in_seq; lia).
    replace (S i + 1)%nat with (S (i + 1)) in B by lia. pose proof (bin_lt (units (nth (i + 1) (gll_list_Z n) 0%Z) + 1) (units (nth (S (i + 1)) (gll_list_Z n) 0%Z) - 1) ltac:(lia)). lra. }
  split; [auto|]. split.
  { intros i Hi. destruct (Hl i Hi) as [_ A]. rewrite GE. pose proof (units_ok (nth (i + 1) (gll_list_Z n) 0%Z)) as U. set (f := units _) in *.
    replace (f - 1)%Z with (f + -1)%Z in A by lia. rewrite !bin_add in A. rewrite bin_add in U. pose proof bin_tol. pose proof two60. unfold Rdiv in *. assert (0 < / 2 ^ 60) by (apply Rinv_0_lt_compat; auto). apply Rabs_le. lra. }
  intros x. split; [|intros (i & Hi & ->); apply Hl; auto]. intros Hx.
  destruct (P1_poly (n - 1)) as (c & Lc & Hc).
  destruct (find_dec l x (n - 2)) as [Y|N]; [auto|]. exfalso.
  assert (D : distinct (l ++ [x]) (n - 1)).
  { assert (Dl : distinct l (n - 2)) by (apply increasing_distinct; auto).
    assert (G : forall i, (i < n - 2)%nat -> get (l ++ [x]) i = get l i) by (intros i Hi; unfold get; rewrite app_nth1 by lia; auto).
    assert (G' : get (l ++ [x]) (n - 2) = x) by (unfold get; rewrite app_nth2 by lia; rewrite Ll, Nat.sub_diag; auto).
    intros i j Hi Hj E. destruct (Nat.eq_dec i (n - 2)) as [->|], (Nat.eq_dec j (n - 2)) as [->|]; auto.
    - rewrite G', G in E by lia. exfalso. apply N. exists j. split; [lia|auto].
    - rewrite G', G in E by lia. exfalso. apply N. exists i. split; [lia|auto].
    - rewrite !G in E by lia. apply Dl; auto; lia. }
  assert (Z0 : forall y, peval c y = 0).
  { apply (peval_roots (n - 1) _ D); [auto|]. intros i Hi. rewrite Hc. destruct (Nat.eq_dec i (n - 2)) as [->|].
    - unfold get. rewrite app_nth2 by lia. rewrite Ll, Nat.sub_diag. auto.
    - unfold get. rewrite app_nth1 by lia. apply Hl. lia. }
  apply Z.ltb_lt in C1. apply sgn_ok in C1. replace (S (n - 2)) with (n - 1)%nat in C1 by lia. rewrite <- Hc, Z0 in C1. lra.
Qed.
