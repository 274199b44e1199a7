(** C67: the nodes poly.c finds with its own Newton iteration. *)
From Verif Require Import Base BaseLemmas Poly PolySpec PolyProof1 PolyProof2 PolyProof3 PolyImpSyntax PolyImp PolyGll PolyGllProof PolyQuad PolyQuadSpec PolyQuadProof1 PolyQuadProof2 PolyQuadProof3 PolyNewton PolyGenSpec PolyGenNodesProof PolyNewtonProof1 PolyNewtonProof2 PolyNewtonProof3 PolyNewtonProof4 PolyNewtonProof5 PolyNewtonProof6.
From Coq Require Import Reals Lra Lia.
Open Scope R_scope.

(** gauss_nodes, for 1 to 100 points: when it returns, nothing else is written, the nodes are antisymmetric about 0, and
    every one is within n^7 / 2^86 of a root of the Legendre polynomial P_n. *)
Theorem C67_gauss : forall fuel n z z', (1 <= n <= 100)%nat -> (n <= length z)%nat -> gauss_nodes (newton_poly fuel) z n = Ok z' ->
  length z' = length z /\ (forall k, (n <= k)%nat -> get z' k = get z k) /\
  (forall i, (i < n)%nat -> get z' (n - 1 - i) = - get z' i) /\
  forall i, (i < n)%nat -> near_root (P n) (INR n ^ 7 / 2 ^ 86) (get z' i).
Proof. exact gauss_nodes_near. Qed.
Print Assumptions C67_gauss.

(** lobatto_nodes_n, for 2 to 101 points: the ends are -1 and 1, and every other node is within (n-1)^7 / 2^86 of a
    root of the derivative of P_(n-1). *)
Theorem C67_lobatto : forall fuel n z z' P', (2 <= n <= 101)%nat -> (n <= length z)%nat -> (forall x, derivable_pt_lim (P (n - 1)) x (P' x)) ->
  lobatto_nodes_n (newton_poly fuel) z n = Ok z' ->
  length z' = length z /\ (forall k, (n <= k)%nat -> get z' k = get z k) /\ get z' 0 = -1 /\ get z' (n - 1) = 1 /\
  (forall i, (i < n)%nat -> get z' (n - 1 - i) = - get z' i) /\
  forall i, (1 <= i < n - 1)%nat -> near_root P' (INR (n - 1) ^ 7 / 2 ^ 86) (get z' i).
Proof.
  intros fuel n z z' P' Hn Hz HP E. destruct (lobatto_nodes_near fuel n z z' Hn Hz E) as (A & B & C & D & F & G). repeat split; auto.
  intros i Hi. destruct (G i Hi) as (r & Z0 & N). exists r. split; [|auto]. rewrite <- Z0. apply (der_unique (P (n - 1)) (P (n - 1)) r); auto. apply P_der.
Qed.
Print Assumptions C67_lobatto.

(** lobatto_quad, for 25 to 101 points (with fewer, the nodes are tabulated): if the nodes it wrote are pairwise more than
    2 (n-1)^7 / 2^86 apart, then the weights are positive and the rule integrates every polynomial of degree at most 2n-3
    up to 4 (n^2 (n-1)^2 + n) (n-1)^7 / 2^86 times the sum of the absolute values of the coefficients. *)
Theorem C67_lobatto_quad : forall fuel n m m' w, (24 < n <= 101)%nat -> (n <= w)%nat -> (w + n <= length m)%nat ->
  lobatto_quad (lobatto_nodes_n (newton_poly fuel)) m w n = Ok m' ->
  let delta := INR (n - 1) ^ 7 / 2 ^ 86 in
  length m' = length m /\ (forall k, (n <= k)%nat -> (k < w \/ w + n <= k)%nat -> get m' k = get m k) /\
  ((forall i j, (i < j)%nat -> (j < n)%nat -> 2 * delta < Rabs (get m' i - get m' j)) ->
   (forall i, (i < n)%nat -> 0 < get m' (w + i)) /\
   forall c v, (length c <= 2 * n - 2)%nat -> integral (peval c) v ->
     Rabs (rsum n (fun i => get m' (w + i) * peval c (get m' i)) - v) <=
       4 * (INR (n - 1) * INR n * (INR (n - 1) * INR n) + INR n) * delta * norm1 c).
Proof. intros fuel n m m' w Hn Hw Hm E. destruct (lobatto_quad_near fuel n m m' w Hn Hw Hm E) as (A & B & _ & _ & _ & C). auto. Qed.
Print Assumptions C67_lobatto_quad.

(** Both iterations stop, whatever the number of points, when they start within 1 / (32 n^5) of a negative root, and then
    the result is near that root. *)
Theorem C67_gauss_stops : forall n r x, (2 <= n)%nat -> P n r = 0 -> r < 0 -> Rabs (x - r) <= / (32 * INR n ^ 5) ->
  exists fuel v, newton_poly fuel (legendre n) (legendre_d1 n) x = Ok v /\ Rabs (v - r) <= / (32 * INR n ^ 5) /\
    ((n <= 100)%nat -> Rabs (v - r) <= INR n ^ 7 / 2 ^ 86).
Proof. exact gauss_stops. Qed.
Print Assumptions C67_gauss_stops.
Theorem C67_lobatto_stops : forall N r x, (2 <= N)%nat -> derivable_pt_lim (P N) r 0 -> r < 0 -> Rabs (x - r) <= / (32 * INR N ^ 5) ->
  exists fuel v, newton_poly fuel (legendre_d1 N) (legendre_d2 N) x = Ok v /\ Rabs (v - r) <= / (32 * INR N ^ 5) /\
    ((N <= 100)%nat -> Rabs (v - r) <= INR N ^ 7 / 2 ^ 86).
Proof. intros N r x HN D. apply lobatto_stops; auto. eapply uniqueness_limite; [apply P_der|auto]. Qed.
Print Assumptions C67_lobatto_stops.

(** Two Gauss points and four Lobatto points: with a few rounds the iteration returns, so the hypotheses are met. *)
Lemma round_2 f f' c a k x b : (forall u, f u = c * (u * u - a)) -> (forall u, f' u = c * (2 * u)) -> 0 < c -> / 5 <= a ->
  x < 0 -> 0 <= x * x - a <= b -> b <= / 6 ->
  (b <= / 10 ^ 15 \/ forall y, y < 0 -> 0 <= y * y - a <= 5 / 4 * (b * b) -> exists v, newton_poly k f f' y = Ok v) ->
  exists v, newton_poly (S k) f f' x = Ok v.
Proof.
  intros V D Hc Ha Hx Hu Hb H. assert (ND : forall u, u < 0 -> f' u <> 0) by (intros u Hu'; rewrite D; nra).
  cbn [newton_poly]. destruct (Req_EM_T (f' x) 0) as [Z|_]; [exfalso; apply (ND x); auto|]. set (y := x - f x / f' x).
  assert (Ey : y * x = x * x - (x * x - a) / 2) by (unfold y; rewrite V, D; field; lra). clearbody y. set (u := x * x - a) in *.
  assert (Hy : y < 0). { assert (0 < y * x) by (unfold u in *; lra). nra. }
  assert (Ed : (y - x) * x = - u / 2) by (replace ((y - x) * x) with (y * x - x * x) by ring; lra).
  assert (Eu : (y * y - a) * (4 * (x * x)) = u * u). { replace ((y * y - a) * (4 * (x * x))) with (4 * (y * x) * (y * x) - 4 * a * (x * x)) by ring. rewrite Ey. unfold u. field. }
  assert (X : 4 / 5 <= 4 * (x * x)) by (unfold u in *; lra).
  assert (Uy : 0 <= y * y - a <= 5 / 4 * (b * b)). { assert (0 <= u * u <= b * b) by nra. nra. }
  destruct (Rlt_dec _ _) as [L|L].
  - destruct H as [H|H]; [|apply H; auto]. exfalso. revert L. apply Rle_not_lt. rewrite EPS_val.
    assert (Xl : x <= - 2 / 5) by nra. assert (Yl : y <= - 2 / 5) by nra.
    assert (0 <= y - x) by nra. rewrite Rabs_right by lra. assert (y - x <= 2 * u) by nra.
    assert (T : 2 * / 10 ^ 15 <= 2 / 5 * / 2 ^ 45) by lra.
    assert (0 < / 2 ^ 45) by (apply Rinv_0_lt_compat; lra). assert (2 / 5 * / 2 ^ 45 <= - y * / 2 ^ 45) by (apply Rmult_le_compat_r; lra). lra.
  - destruct (Req_EM_T (f' y) 0) as [Z|_]; [exfalso; apply (ND y); auto|]. eexists. reflexivity.
Qed.
Example ex_gauss : exists z', gauss_nodes (newton_poly 6) [7; 8; 9] 2 = Ok z'.
Proof.
  assert (Q2 : sqrt 2 * sqrt 2 = 2) by (apply sqrt_sqrt; lra). assert (S0 : 0 < sqrt 2) by (apply sqrt_lt_R0; lra).
  assert (D : forall u, legendre_d1 2 u = 3 / 2 * (2 * u)) by (intros u; rewrite legendre_d1_P, P1_2 by lia; field).
  assert (V : forall u, legendre 2 u = 3 / 2 * (u * u - / 3)) by (intros u; rewrite legendre_P, P_SS, P_1, P_0; cbn [INR]; field).
  assert (R : exists v, newton_poly 6 (legendre 2) (legendre_d1 2) (-1 / sqrt 2) = Ok v).
  { assert (X0 : -1 / sqrt 2 < 0) by (assert (0 < / sqrt 2) by (apply Rinv_0_lt_compat; auto); unfold Rdiv; lra).
    assert (X2 : -1 / sqrt 2 * (-1 / sqrt 2) = / 2). { replace (-1 / sqrt 2 * (-1 / sqrt 2)) with (/ (sqrt 2 * sqrt 2)) by (field; lra). rewrite Q2. auto. }
    assert (G := round_2 (legendre 2) (legendre_d1 2) (3 / 2) (/ 3)). apply (G 5%nat _ (/ 6)); auto; try lra. right. intros y1 N1 U1. apply (G 4%nat y1 (1 / 25)); auto; try lra. right. intros y2 N2 U2.
    apply (G 3%nat y2 (1 / 450)); auto; try lra. right. intros y3 N3 U3. apply (G 2%nat y3 (1 / 10 ^ 5)); auto; try lra. right. intros y4 N4 U4.
    apply (G 1%nat y4 (2 / 10 ^ 10)); auto; try lra. right. intros y5 N5 U5. apply (G 0%nat y5 (/ 10 ^ 15)); auto; try lra. }
  destruct R as (v & R). unfold gauss_nodes. cbn [Nat.div Nat.divmod fst Nat.odd Nat.even negb]. unfold fill. cbn [seq foldM].
  replace (INR (2 * 2 - 2 * 0 - 1) * (PI / 2) / INR 2) with (3 * (PI / 4)) by (cbn [INR Nat.mul Nat.sub Nat.add]; field). rewrite cos_3PI4. rewrite R. cbn [bind]. eexists. reflexivity.
Qed.
Example ex_lobatto : exists z', lobatto_nodes_n (newton_poly 5) [7; 8; 9; 10] 4 = Ok z'.
Proof.
  assert (D : forall u, legendre_d2 3 u = 15 / 2 * (2 * u)). { intros u. rewrite legendre_d2_P by lia. rewrite P2_3. field. }
  assert (V : forall u, legendre_d1 3 u = 15 / 2 * (u * u - / 5)). { intros u. rewrite legendre_d1_P, P1_SS, P1_2, P1_1, P_SS, P_1, P_0 by lia. cbn [INR]. field. }
  assert (R : exists v, newton_poly 5 (legendre_d1 3) (legendre_d2 3) (- / 2) = Ok v).
  { assert (G := round_2 (legendre_d1 3) (legendre_d2 3) (15 / 2) (/ 5)). apply (G 4%nat _ (/ 20)); auto; try lra. right. intros y1 N1 U1. apply (G 3%nat y1 (1 / 300)); auto; try lra. right. intros y2 N2 U2.
    apply (G 2%nat y2 (2 / 10 ^ 5)); auto; try lra. right. intros y3 N3 U3. apply (G 1%nat y3 (1 / 10 ^ 9)); auto; try lra. right. intros y4 N4 U4.
    apply (G 0%nat y4 (/ 10 ^ 15)); auto; try lra. }
  destruct R as (v & R). unfold lobatto_nodes_n, lobatto_nodes_aux. cbn [wr length Nat.ltb Nat.leb upd bind Nat.sub Nat.add]. cbn [Nat.div Nat.divmod fst Nat.odd Nat.even negb]. unfold fill. cbn [seq foldM].
  replace (INR 2 * PI / INR 3) with (PI - PI / 3) by (cbn [INR]; field). rewrite Rtrigo_facts.cos_pi_minus, cos_PI3. replace (- (1 / 2)) with (- / 2) by field. rewrite R. cbn [bind]. eexists. reflexivity.
Qed.
Example ex_stops : exists r, P 3 r = 0 /\ r < 0 /\ Rabs ((r + / 8000) - r) <= / (32 * INR 3 ^ 5).
Proof.
  assert (Q : sqrt (3 / 5) * sqrt (3 / 5) = 3 / 5) by (apply sqrt_sqrt; lra). assert (S0 : 0 < sqrt (3 / 5)) by (apply sqrt_lt_R0; lra).
  exists (- sqrt (3 / 5)). split; [|split; [lra|]].
  - assert (V : forall u, P 3 u = u * (5 * (u * u) - 3) / 2) by (intros u; rewrite P_SS, P_SS, P_1, P_0; cbn [INR]; field).
    rewrite V. replace (- sqrt (3 / 5) * - sqrt (3 / 5)) with (3 / 5) by lra. field.
  - replace (- sqrt (3 / 5) + / 8000 - - sqrt (3 / 5)) with (/ 8000) by ring. rewrite Rabs_right by lra. cbn [INR]. apply Rinv_le_contravar; lra.
Qed.
