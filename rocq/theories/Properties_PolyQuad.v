(** C52: the quadrature rules of poly.c. *)
From Verif Require Import Base BaseLemmas Poly PolySpec PolyProof1 PolyProof2 PolyProof3 PolyImpSyntax PolyImp PolyGll PolyGllSpec PolyGllProof PolyGllRoots PolyQuad PolyQuadSpec PolyQuadProof1 PolyQuadProof2 PolyQuadProof3 PolyQuadProof4 PolyQuadProof5 LobBnd LobBndSpec LobBndProof1 LobBndProof3 LobBndSetupProof1 LobBndSetupProof3.
From Coq Require Import Reals Lra.
Open Scope R_scope.

(** The integral is determined. *)
Theorem C52_integral_unique : forall f a b, integral f a -> integral f b -> a = b.
Proof. exact int_unique. Qed.

(** For every n there is something for Newton's iteration to find: P_n has n different roots in
    (-1,1), and its derivative n-1; so iterations as assumed below exist. *)
Theorem C52_roots : forall n, (1 <= n)%nat ->
  (exists l : arr, length l = n /\ (forall i, (i + 1 < n)%nat -> get l i < get l (S i)) /\ (forall i, (i < n)%nat -> -1 < get l i < 1) /\
     forall x, P n x = 0 <-> exists i, (i < n)%nat /\ x = get l i) /\
  (exists newton, newton_roots newton (legendre n) (legendre_d1 n) (gauss_start n) n) /\
  (exists newton, newton_roots newton (legendre_d1 n) (legendre_d2 n) (lobatto_start (n - 1)) (n - 1)).
Proof.
  intros n Hn. split; [|split].
  - destruct (legendre_roots n) as (l & Ll & In & Inc & Z0 & _). exists l. repeat split; auto; try (apply In; auto).
    + intros Hx. apply (all_roots l n (P n)); auto; [apply increasing_distinct; auto|apply ip_P|exists 1; rewrite P_at_1; lra].
    + intros (i & Hi & ->). auto.
  - apply gauss_newton_exists. auto.
  - destruct (lobatto_newton_exists (n + 1)) as (nw & H); [lia|]. exists nw. replace (n + 1 - 1)%nat with n in H by lia. replace (n + 1 - 2)%nat with (n - 1)%nat in H by lia. auto.
Qed.

(** gauss_nodes: the n roots of P_n. *)
Theorem C52_gauss_nodes : forall newton n z, (1 <= n)%nat -> (n <= length z)%nat -> newton_roots newton (legendre n) (legendre_d1 n) (gauss_start n) n ->
  exists z', gauss_nodes newton z n = Ok z' /\ length z' = length z /\ (forall k, (n <= k)%nat -> get z' k = get z k) /\
    distinct z' n /\ forall x, P n x = 0 <-> exists i, (i < n)%nat /\ x = get z' i.
Proof.
  intros newton n z Hn Hz NR. destruct (gauss_nodes_ok newton n z Hn Hz NR) as (z' & E & L & O & D & _ & R). exists z'. repeat split; auto.
  - intros Hx. apply (all_roots z' n (P n)); auto; [apply ip_P|exists 1; rewrite P_at_1; lra].
  - intros (i & Hi & ->). auto.
Qed.

(** gauss_quad integrates polynomials of degree at most 2n-1 exactly. *)
Theorem C52_gauss : forall newton n m w, (1 <= n)%nat -> (n <= w)%nat -> (w + n <= length m)%nat ->
  newton_roots newton (legendre n) (legendre_d1 n) (gauss_start n) n ->
  exists m', gauss_quad (gauss_nodes newton) m w n = Ok m' /\ length m' = length m /\
    (forall k, (n <= k)%nat -> (k < w \/ w + n <= k)%nat -> get m' k = get m k) /\
    (forall x, P n x = 0 <-> exists i, (i < n)%nat /\ x = get m' i) /\
    forall c v, (length c <= 2 * n)%nat -> integral (peval c) v -> rsum n (fun i => get m' (w + i) * peval c (get m' i)) = v.
Proof.
  intros newton n m w Hn Hw Hm NR. destruct (gauss_quad_ok newton n m w Hn Hw Hm NR) as (m' & E & [L O] & D & R & W). exists m'.
  split; [auto|]. split; [auto|]. split; [intros k H1 H2; apply O; unfold rng; lia|]. split.
  - intros x. split; [|intros (i & Hi & ->); auto]. intros Hx. apply (all_roots m' n (P n)); auto; [apply ip_P|exists 1; rewrite P_at_1; lra].
  - intros c v Lc Iv. eapply int_unique; [|exact Iv]. eapply int_val; [apply (gauss_exact m' n Hn D R); exists c; auto|]. apply rsum_ext. intros i Hi. rewrite W by auto. auto.
Qed.

(** lobatto_nodes and lobatto_quad, for n > 24 (no tables): the nodes are -1, 1 and the extrema of
    P_(n-1); polynomials of degree at most 2n-3 are integrated exactly. *)
Theorem C52_lobatto : forall newton n m w, (24 < n)%nat -> (n <= w)%nat -> (w + n <= length m)%nat ->
  newton_roots newton (legendre_d1 (n - 1)) (legendre_d2 (n - 1)) (lobatto_start (n - 2)) (n - 2) ->
  exists m', lobatto_quad (lobatto_nodes_n newton) m w n = Ok m' /\ length m' = length m /\
    (forall k, (n <= k)%nat -> (k < w \/ w + n <= k)%nat -> get m' k = get m k) /\
    get m' 0 = -1 /\ get m' (n - 1) = 1 /\ (forall x, derivable_pt_lim (P (n - 1)) x 0 <-> exists i, (1 <= i < n - 1)%nat /\ x = get m' i) /\
    forall c v, (length c <= 2 * n - 2)%nat -> integral (peval c) v -> rsum n (fun i => get m' (w + i) * peval c (get m' i)) = v.
Proof.
  intros newton n m w Hn Hw Hm NR. destruct (lobatto_nodes_ok newton n ltac:(lia) NR) as (zs & Z0 & Z1 & D & Sy & R & Run).
  assert (LP : lobatto_points (lobatto_nodes_n newton) n zs).
  { split; auto. intros a La. unfold lobatto_nodes. change GLL_LAG_FIX_MAX with 24%nat. destruct (Nat.ltb_spec 24 n); [|lia]. auto. }
  destruct (lobatto_quad_ok _ n zs m w ltac:(lia) LP Hw Hm) as (m' & E & [L O] & Vz & Vw). exists m'.
  split; [auto|]. split; [auto|]. split; [intros k H1 H2; apply O; unfold rng; lia|]. split; [rewrite Vz by lia; auto|]. split; [rewrite Vz by lia; auto|]. split.
  - intros x. split.
    + intros Hx. assert (Q : P1 (n - 1) x = 0) by (eapply (der_unique (P (n - 1)) (P (n - 1))); [auto|apply P_der|auto]).
      assert (DD : distinct (skipn 1 zs) (n - 1 - 1)).
      { intros i j Hi Hj X. assert (XX : (S i = S j)%nat); [|lia]. apply D; [lia|lia|]. unfold get in *. destruct zs; cbn [skipn nth] in *; [cbn in Z0; lra|auto]. }
      destruct (lobatto_all (n - 1) (skipn 1 zs) ltac:(lia) DD) with (x := x) as (i & Hi & Ei); auto.
      * intros i Hi. specialize (R (i + 1)%nat ltac:(lia)). unfold get in *. destruct zs; [cbn in Z0; lra|]. rewrite Nat.add_1_r in R. exact R.
      * exists (S i). split; [lia|]. rewrite Vz by lia. rewrite Ei. unfold get. destruct zs; [cbn in Z0; lra|reflexivity].
    + intros (i & Hi & ->). rewrite Vz by lia. eapply der_eq; [apply P_der|]. apply R. auto.
  - intros c v Lc Iv. eapply int_unique; [|exact Iv]. eapply int_val; [apply (proj2 (lobatto_exact zs n ltac:(lia) D Z0 Z1 R)); exists c; auto|].
    apply rsum_ext. intros i Hi. rewrite Vw, Vz by auto. auto.
Qed.

(** So lobatto_nodes finds points as assumed by the theorems about lob_bnd_setup and obbox_calc. *)
Theorem C52_lobatto_points : forall newton n, (24 < n)%nat ->
  newton_roots newton (legendre_d1 (n - 1)) (legendre_d2 (n - 1)) (lobatto_start (n - 2)) (n - 2) ->
  exists zs, lobatto_points (lobatto_nodes_n newton) n zs /\ get zs 0 = -1 /\ get zs (n - 1) = 1 /\
    forall i, (1 <= i < n - 1)%nat -> derivable_pt_lim (P (n - 1)) (get zs i) 0.
Proof.
  intros newton n Hn NR. destruct (lobatto_nodes_ok newton n ltac:(lia) NR) as (zs & Z0 & Z1 & D & Sy & R & Run). exists zs. split; [|split; [auto|split; [auto|]]].
  - split; auto. intros a La. unfold lobatto_nodes. change GLL_LAG_FIX_MAX with 24%nat. destruct (Nat.ltb_spec 24 n); [|lia]. auto.
  - intros i Hi. eapply der_eq; [apply P_der|]. apply R. auto.
Qed.

(** For 2 <= n <= 24 the nodes come from tables: polynomials of degree at most 2n-3 are integrated
    with an error of at most 2e-11 times the sum of the absolute values of their coefficients. *)
Theorem C52_lobatto_table : forall nodes_n n m w, (2 <= n <= 24)%nat -> (n <= w)%nat -> (w + n <= length m)%nat ->
  exists m', lobatto_quad nodes_n m w n = Ok m' /\ length m' = length m /\
    (forall k, (n <= k)%nat -> (k < w \/ w + n <= k)%nat -> get m' k = get m k) /\
    forall c v, (length c <= 2 * n - 2)%nat -> integral (peval c) v -> Rabs (rsum n (fun i => get m' (w + i) * peval c (get m' i)) - v) <= 2 / 10 ^ 11 * norm1 c.
Proof.
  intros nn n m w Hn Hw Hm. destruct (lobatto_quad_ok nn n (gll_list n) m w ltac:(lia) (gll_points nn n Hn) Hw Hm) as (m' & E & [L O] & Vz & Vw). exists m'.
  split; [auto|]. split; [auto|]. split; [intros k H1 H2; apply O; unfold rng; lia|]. intros c v Lc Iv.
  rewrite (rsum_ext n _ (fun i => lobatto_weight n (get (gll_list n) i) * peval c (get (gll_list n) i))) by (intros i Hi; rewrite Vw, Vz by auto; auto). apply (table_near n c v); auto.
Qed.

(** All weights are positive; so the rule never exceeds 2 times a bound of the values at the nodes, and sums of
    nonnegative values are nonnegative.  Gauss; Lobatto without tables; Lobatto with tables. *)
Theorem C52_gauss_positive : forall newton n m w m', (1 <= n)%nat -> (n <= w)%nat -> (w + n <= length m)%nat ->
  newton_roots newton (legendre n) (legendre_d1 n) (gauss_start n) n -> gauss_quad (gauss_nodes newton) m w n = Ok m' ->
  (forall i, (i < n)%nat -> 0 < get m' (w + i)) /\ rsum n (fun i => get m' (w + i)) = 2.
Proof.
  intros newton n m w m' Hn Hw Hm NR X. destruct (gauss_quad_ok newton n m w Hn Hw Hm NR) as (m2 & E & _ & D & R & W).
  assert (m2 = m') by congruence. subst m2. split.
  - intros i Hi. rewrite W by auto. apply gauss_weight_pos; auto.
  - apply (int_unique (fun _ => 1)).
    + eapply int_val; [apply (gauss_exact m' n Hn D R); apply (ip_mono 1); [lia|apply ip_const]|]. apply rsum_ext. intros i Hi. rewrite W by auto. ring.
    + apply (int_der (fun x => x)); [intros; apply der_id|ring].
Qed.
Theorem C52_lobatto_positive : forall newton n m w m', (24 < n)%nat -> (n <= w)%nat -> (w + n <= length m)%nat ->
  newton_roots newton (legendre_d1 (n - 1)) (legendre_d2 (n - 1)) (lobatto_start (n - 2)) (n - 2) -> lobatto_quad (lobatto_nodes_n newton) m w n = Ok m' ->
  (forall i, (i < n)%nat -> 0 < get m' (w + i)) /\ rsum n (fun i => get m' (w + i)) = 2.
Proof.
  intros newton n m w m' Hn Hw Hm NR X. destruct (lobatto_nodes_ok newton n ltac:(lia) NR) as (zs & Z0 & Z1 & D & Sy & R & Run).
  assert (LP : lobatto_points (lobatto_nodes_n newton) n zs).
  { split; auto. intros a La. unfold lobatto_nodes. change GLL_LAG_FIX_MAX with 24%nat. destruct (Nat.ltb_spec 24 n); [|lia]. auto. }
  destruct (lobatto_quad_ok _ n zs m w ltac:(lia) LP Hw Hm) as (m2 & E & _ & Vz & Vw). assert (m2 = m') by congruence. subst m2.
  destruct (lobatto_exact zs n ltac:(lia) D Z0 Z1 R) as (NZ & EX). split.
  - intros i Hi. rewrite Vw by auto. apply lobatto_weight_pos; [lia|auto].
  - apply (int_unique (fun _ => 1)).
    + eapply int_val; [apply EX; apply (ip_mono 1); [lia|apply ip_const]|]. apply rsum_ext. intros i Hi. rewrite Vw by auto. ring.
    + apply (int_der (fun x => x)); [intros; apply der_id|ring].
Qed.
Theorem C52_lobatto_table_positive : forall nodes_n n m w m', (2 <= n <= 24)%nat -> (n <= w)%nat -> (w + n <= length m)%nat ->
  lobatto_quad nodes_n m w n = Ok m' -> forall i, (i < n)%nat -> 0 < get m' (w + i).
Proof.
  intros nn n m w m' Hn Hw Hm X i Hi. destruct (lobatto_quad_ok nn n (gll_list n) m w ltac:(lia) (gll_points nn n Hn) Hw Hm) as (m2 & E & _ & Vz & Vw).
  assert (m2 = m') by congruence. subst m2. rewrite Vw by auto.
  apply (table_near n [1] 2 Hn ltac:(cbn; lia)); [|auto]. exists (fun x => x). split; [|ring]. intros x. eapply der_eq; [apply der_id|cbn; ring].
Qed.

(** Example: Simpson's rule. *)
Example simpson : exists m', lobatto_quad (fun z _ => Ok z) (repeat 0 6) 3 3 = Ok m' /\ get m' 3 = 1 / 3 /\ get m' 4 = 4 / 3 /\ get m' 5 = 1 / 3.
Proof.
  destruct (lobatto_quad_ok (fun z _ => Ok z) 3 (gll_list 3) (repeat 0 6) 3 ltac:(lia) (gll_points _ 3 ltac:(lia))) as (m' & E & _ & Vz & Vw); [lia|cbn; lia|].
  assert (P2x : forall x, P 2 x = (3 * x * x - 1) / 2) by (intros; rewrite P_SS, P_1, P_0; cbn [INR]; field).
  exists m'. split; [auto|]. pose proof (Vw 0%nat ltac:(lia)) as A. pose proof (Vw 1%nat ltac:(lia)) as B. pose proof (Vw 2%nat ltac:(lia)) as C. cbn [Nat.add] in A, B, C. rewrite A, B, C.
  unfold lobatto_weight. cbn [Nat.sub]. rewrite !P2x. change (get (gll_list 3) 0) with (-1). change (get (gll_list 3) 1) with 0. change (get (gll_list 3) 2) with 1. cbn [INR]. repeat split; field.
Qed.
(** Example: the rule of one node is the midpoint rule, whatever the iteration does. *)
Example midpoint : forall newton, newton_roots newton (legendre 1) (legendre_d1 1) (gauss_start 1) 1.
Proof. intros newton. split; intros; cbn in *; lia. Qed.
Example linear_integral : integral (peval [3; 5]) 6.
Proof.
  exists (fun x => 3 * x + 5 / 2 * (x * x)). split; [|ring]. intros x. eapply der_eq; [apply (der_add (fun x => 3 * x) (fun x => 5 / 2 * (x * x))); [apply (der_scal 3 (fun x => x)), der_id|apply (der_scal (5 / 2) (fun x => x * x)), (der_mul (fun x => x) (fun x => x)); apply der_id]|]. cbn [peval]. field.
Qed.

Print Assumptions C52_integral_unique.
Print Assumptions C52_roots.
Print Assumptions C52_gauss_nodes.
Print Assumptions C52_gauss.
Print Assumptions C52_lobatto.
Print Assumptions C52_lobatto_points.
Print Assumptions C52_lobatto_table.
Print Assumptions C52_gauss_positive.
Print Assumptions C52_lobatto_positive.
Print Assumptions C52_lobatto_table_positive.
