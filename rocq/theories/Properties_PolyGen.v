(** C66: the functions that gen_poly_imp prints evaluate the Lagrange basis of their nodes, for every number of points. *)
From Verif Require Import Base Poly PolySpec PolyProof1 PolyImpSyntax PolyImp PolyGll PolyGllSpec PolyGllProof TensorRoundSpec PolyRound PolyRoundSpec PolyGllRound PolyGllRoundSpec PolyGllRoundProof3 PolyGen PolyGenSpec PolyGenProof3 PolyProof3 PolyGenNodes PolyGenNodesProof.
From Coq Require Import Reals Lra.
Open Scope R_scope.
Local Notation get := PolySpec.get.

(** src/poly_imp.h is what the program prints for at most 24 points, with the n / 2 - 1 nodes between 0 and 1 that the
    header has for n points. *)
Theorem C66_header : let digits := fun n => nodes (nth (n - 2) gll_lag_table gll_lag_02) in
  generate GLL_LAG_FIX_MAX digits = (gll_lag_table, gllz_table) /\ (forall n, (2 <= n <= GLL_LAG_FIX_MAX)%nat -> length (digits n) = (n / 2 - 1)%nat).
Proof.
  split; [reflexivity|]. intros n Hn. change GLL_LAG_FIX_MAX with 24%nat in Hn. assert (I : In n (seq 2 23)) by (apply in_seq; lia). clear Hn. revert I. unfold seq. intros H.
  repeat (destruct H as [<-|H]; [reflexivity|]). destruct H.
Qed.
Print Assumptions C66_header.

(** The function printed for n points and any n / 2 - 1 constants: with the weights of lagrange_coef it evaluates, with
    rounding, the Lagrange basis of the n points symmetric about 0 that the constants stand for. *)
Theorem C66_generated : forall eps add sub mul div F lit, arithmetic eps add sub mul div -> doubling F mul -> (forall k, F (lit k)) ->
  forall n digits data, (2 <= n)%nat -> length digits = (n / 2 - 1)%nat -> (n <= length data)%nat ->
  let f := gll_lag_fl add sub mul lit (print_gll_lag_fix n digits) in
  let z := symmetric n (map lit digits) in
  distinct z n ->
  exists data', lagrange_coef_fl div f (repeat 0 n) data 0 z n = Ok data' /\ length data' = length data /\ (forall k, (n <= k)%nat -> get data' k = get data k) /\
    forall calls, Forall (valid_call n) calls -> Forall (machine_call F) calls ->
      exists outs, evals f data' n calls = Ok outs /\ Forall2 (fun '(p, der, x) p' => evaluates_fl eps z n der x p p') calls outs.
Proof.
  intros eps add sub mul div F lit H D2 Fl n t data Hn Ht Hd f z D.
  destruct (coef_gen_ok eps add sub mul div H F D2 lit Fl n Hn t Ht D data Hd) as (d' & E & [L O] & Hr).
  exists d'. split; [exact E|]. split; [auto|]. split; [intros k Hk; apply O; lia|].
  intros calls HF HM. apply (evals_glf_ok eps add sub mul div H F D2 lit Fl n Hn t Ht D calls d' Hr HF HM).
Qed.
Print Assumptions C66_generated.

(** With exact operations it evaluates that basis. *)
Theorem C66_exact : forall n digits data, (2 <= n)%nat -> length digits = (n / 2 - 1)%nat -> (n <= length data)%nat ->
  let f := gll_lag (print_gll_lag_fix n digits) in
  let z := symmetric n (map entry digits) in
  distinct z n ->
  exists data', lagrange_coef f (repeat 0 n) data 0 z n = Ok data' /\ length data' = length data /\ (forall k, (n <= k)%nat -> get data' k = get data k) /\
    forall calls, Forall (valid_call n) calls ->
      exists outs, evals f data' n calls = Ok outs /\ Forall2 (fun '(p, der, x) p' => evaluates z n der x p p') calls outs.
Proof.
  intros n t data Hn Ht Hd f z D.
  assert (H : arithmetic 0 Rplus Rminus Rmult Rdiv) by (split; intros; [lra|..]; rewrite Rminus_diag_eq, Rabs_R0, Rmult_0_l by auto; lra).
  assert (D2 : doubling (fun _ => True) Rmult) by (split; auto).
  destruct (C66_generated 0 Rplus Rminus Rmult Rdiv (fun _ => True) entry H D2 (fun _ => I) n t data Hn Ht Hd D) as (d' & E & L & O & G).
  exists d'. split; [exact E|]. split; [auto|]. split; [auto|]. intros calls HF. destruct (G calls HF) as (outs & Eo & Q).
  { clear. induction calls; constructor; auto. exact I. }
  exists outs. split; [exact Eo|]. clear - Q. induction Q as [|[[p der] x] p' calls outs Q QS IH]; constructor; auto. apply evaluates_0. exact Q.
Qed.
Print Assumptions C66_exact.

(** The recursions for the nodes: the Legendre polynomials and their first and second derivatives. *)
Theorem C66_legendre : forall n x, gen_legendre n x = P n x /\ derivable_pt_lim (P n) x (gen_legendre_d1 n x) /\ derivative2 (P n) x (gen_legendre_d2 n x).
Proof.
  intros n x. rewrite gen_legendre_P, gen_legendre_d1_P, gen_legendre_d2_P. split; [auto|]. split; [apply P_der|]. exists (P1 n). split; [intros; apply P_der|apply P1_der].
Qed.
Print Assumptions C66_legendre.

(** The nodes.  gauss_node: 0 in the middle of an odd number, which is a root of P_n; else y - t where y is the number that the
    loop ended with, there is a root of P_n at most n+1 times the last correction of the loop away from y, and one at most
    n+1 times the correction t after it away from y - t.  lobatto_node: -1, 1, and in between the same for P_(n-1)'. *)
Theorem C66_gauss_node : forall is_small n i z, (i < n)%nat -> gauss_node is_small n i z ->
  (Nat.odd n = true /\ i = (n / 2)%nat /\ z = 0 /\ P n z = 0) \/
  exists s y t, is_small s y = true /\ near_root (P n) (INR (n + 1) * Rabs s) y /\ z = y - t /\ near_root (P n) (INR (n + 1) * Rabs t) z.
Proof.
  intros sm n i z Hi. unfold gauss_node. destruct (Nat.odd n) eqn:O; [destruct (Nat.eqb_spec i (n / 2)); cbn [andb]|cbn [andb]].
  - intros ->. left. split; [auto|]. split; [auto|]. split; [auto|]. apply P_mid. auto.
  - intros Nt. right. eapply newton_P; eauto. lia.
  - intros Nt. right. eapply newton_P; eauto. lia.
Qed.
Print Assumptions C66_gauss_node.
Theorem C66_lobatto_node : forall is_small n i z P', (2 <= n)%nat -> (i < n)%nat -> (forall x, derivable_pt_lim (P (n - 1)) x (P' x)) -> lobatto_node is_small n i z ->
  (i = 0%nat /\ z = -1) \/ (i = (n - 1)%nat /\ z = 1) \/ (Nat.odd n = true /\ i = (n / 2)%nat /\ z = 0 /\ P' z = 0) \/
  exists s y t, is_small s y = true /\ near_root P' (INR (n - 1) * Rabs s) y /\ z = y - t /\ near_root P' (INR (n - 1) * Rabs t) z.
Proof.
  intros sm n i z P' Hn Hi HP. assert (E : forall x, P1 (n - 1) x = P' x) by (intros x; apply (der_unique (P (n - 1)) (P (n - 1)) x); auto; apply P_der).
  assert (NR : forall d x, near_root (P1 (n - 1)) d x -> near_root P' d x) by (intros d x (r & Z0 & B); exists r; rewrite <- E; auto).
  assert (NT : newton sm gen_legendre_d1 gen_legendre_d2 (n - 1) (cos ((INR n - 1 - INR i) * PI / (INR n - 1))) z -> (2 <= n - 1)%nat ->
    exists s y t, sm s y = true /\ near_root P' (INR (n - 1) * Rabs s) y /\ z = y - t /\ near_root P' (INR (n - 1) * Rabs t) z).
  { intros Nt H2. destruct (newton_P1 _ _ _ _ H2 Nt) as (s & y & t & S & B1 & Ez & B2). exists s, y, t. auto. }
  unfold lobatto_node. destruct (Nat.odd n && (i =? n / 2)%nat) eqn:M.
  - apply andb_prop in M. destruct M as [O M]. apply Nat.eqb_eq in M. intros ->. right. right. left. split; [auto|]. split; [auto|]. split; [auto|]. rewrite <- E. apply P1_mid. auto.
  - destruct (Nat.eqb_spec i 0); [auto|]. destruct (Nat.eqb_spec i (n - 1)); [auto|]. intros Nt. right. right. right. apply NT; [auto|].
    assert (n = 3 \/ 4 <= n)%nat as [->|] by lia; [|lia]. assert (i = 1%nat) as -> by lia. discriminate M.
Qed.
Print Assumptions C66_lobatto_node.

(** Twenty-seven points, more than src/poly_imp.h has: the hypotheses are met. *)
Definition digits27 : list Z := [12; 11; 10; 9; 8; 7; 6; 5; 4; 3; 2; 1]%Z.
Example ex_27 : (2 <= 27)%nat /\ length digits27 = (27 / 2 - 1)%nat /\ distinct (symmetric 27 (map (fun k => IZR k / 13) digits27)) 27 /\ distinct (symmetric 27 (map entry digits27)) 27.
Proof.
  split; [lia|]. split; [reflexivity|]. split; apply increasing_distinct; intros i Hi.
  - do 26 (destruct i as [|i]; [cbn [symmetric digits27 map rev app Nat.odd get nth Nat.even negb]; unfold get; cbn; lra|]). lia.
  - assert (P : 0 < / 10 ^ 52) by (apply Rinv_0_lt_compat, pow_lt; lra). assert (P1 : 13 * / 10 ^ 52 < 1).
    { apply (Rmult_lt_reg_r (10 ^ 52)); [apply pow_lt; lra|]. rewrite Rmult_assoc, Rinv_l by (apply pow_nonzero; lra). rewrite Rmult_1_l, Rmult_1_r. apply (Rlt_le_trans _ (10 ^ 2)); [lra|apply Rle_pow; [lra|lia]]. }
    assert (E : forall k, entry k = IZR k * / 10 ^ 52) by reflexivity. generalize dependent (/ 10 ^ 52). intros q P P1 E.
    do 26 (destruct i as [|i]; [unfold symmetric, digits27, PolySpec.get; cbn [map rev app Nat.odd nth Nat.even negb]; rewrite ?E; lra|]). lia.
Qed.
(** Two Gauss points, and a test that is passed after one step from cos(3 PI/4): the hypotheses are met. *)
Example ex_gauss_node : exists z, gauss_node (fun _ _ => true) 2 0 z.
Proof.
  unfold gauss_node. cbn [Nat.odd Nat.even negb andb]. replace ((2 * INR 2 - 2 * INR 0 - 1) * (PI / 2) / INR 2) with (3 * (PI / 4)) by (cbn [INR]; field). rewrite cos_3PI4.
  assert (Q2 : sqrt 2 * sqrt 2 = 2) by (apply sqrt_sqrt; lra). assert (N2 : sqrt 2 <> 0) by (intros N; rewrite N in Q2; lra).
  set (x0 := -1 / sqrt 2). assert (X : x0 * x0 = / 2). { unfold x0. replace (-1 / sqrt 2 * (-1 / sqrt 2)) with (/ (sqrt 2 * sqrt 2)) by (field; auto). rewrite Q2. auto. } assert (N0 : x0 <> 0) by (intros N; rewrite N in X; lra).
  assert (D : forall x, gen_legendre_d1 2 x = 3 * x) by (intros x; rewrite gen_legendre_d1_P; apply P1_2).
  assert (V : forall x, gen_legendre 2 x = (3 * x * x - 1) / 2). { intros x. rewrite gen_legendre_P, P_SS, P_1, P_0. cbn [INR]. field. }
  clearbody x0. eexists. eexists. split; [apply newton_stop; [rewrite D; lra|reflexivity]|]. split; [|reflexivity].
  rewrite V, !D. replace (x0 - (3 * x0 * x0 - 1) / 2 / (3 * x0)) with (x0 * (1 - (3 * (x0 * x0) - 1) / (6 * (x0 * x0)))) by (field; auto).
  rewrite X. intros N. apply Rmult_integral in N. destruct N as [N|N]; [lra|]. apply Rmult_integral in N. destruct N as [N|N]; [auto|]. field_simplify in N. lra.
Qed.
