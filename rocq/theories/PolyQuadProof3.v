(** gauss_nodes, lobatto_nodes_n, gauss_quad. *)
From Verif Require Import Base BaseLemmas Poly PolySpec PolyProof1 PolyProof2 PolyProof3 PolyImpSyntax PolyImp PolyGll PolyQuad PolyGllRoots PolyQuadSpec PolyQuadProof1 PolyQuadProof2 LobBnd LobBndSpec LobBndProof1 LobBndSetupProof1.
From Coq Require Import Reals Lra.
Open Scope R_scope.

Lemma mirror_neg_ok (m : arr) w n : (w + n <= length m)%nat ->
  exists m', mirror_neg m w n = Ok m' /\ length m' = length m /\
    forall k, get m' k = if ((w + (n + 1) / 2 <=? k) && (k <? w + n))%nat then - get m (w + (n - 1 - (k - w))) else get m k.
Proof.
  intros Hm. unfold mirror_neg. set (c := ((n + 1) / 2)%nat). assert (Hc : (c <= n + 1 /\ n <= 2 * c /\ 2 * c <= n + 1)%nat).
  { unfold c. pose proof (Nat.div_mod (n + 1) 2 ltac:(lia)). pose proof (Nat.mod_upper_bound (n + 1) 2 ltac:(lia)). lia. }
  assert (Hd : (n / 2 = n - c)%nat). { unfold c. pose proof (Nat.div_mod (n + 1) 2 ltac:(lia)). pose proof (Nat.mod_upper_bound (n + 1) 2 ltac:(lia)).
    pose proof (Nat.div_mod n 2 ltac:(lia)). pose proof (Nat.mod_upper_bound n 2 ltac:(lia)). lia. }
  rewrite Hd.
  destruct (block_loop (fun s : arr * nat => fst s) (fun j s => snd s = (n - 1 - j)%nat)
     (fun '(m, i) j => v <- rd m (w + i) ;; m <- wr m (w + j) (- v) ;; Ok (m, (i - 1)%nat)) (fun j k => k = (w + j)%nat) (fun j _ => - get m (w + (n - 1 - j))) c (n - c) (m, (n - c - 1)%nat))
    as ([m' i'] & E & _ & [KL KO] & V).
  - cbn [snd]. lia.
  - intros; lia.
  - intros j [s i] Hj Hi [KL KO]. cbn [fst snd] in *. subst i. rewrite rd_get by lia. cbn [bind]. rewrite wr_get by lia. cbn [bind]. eexists. split; [reflexivity|]. cbn [fst snd].
    split; [lia|]. split; [apply keeps_upd; auto|]. intros k ->. rewrite get_upd, Nat.eqb_refl by lia. f_equal. apply KO. intros (i' & Hi' & X). lia.
  - cbn [fst snd] in *. rewrite E. cbn [bind]. exists m'. split; [auto|]. split; [auto|]. intros k.
    destruct (Nat.leb_spec (w + c) k), (Nat.ltb_spec k (w + n)); cbn [andb].
    + rewrite (V (k - w)%nat k) by lia. auto.
    + apply KO. intros (i & Hi & X). lia.
    + apply KO. intros (i & Hi & X). lia.
    + apply KO. intros (i & Hi & X). lia.
Qed.

(** The n numbers that the n/2 numbers r and symmetry about 0 give. *)
Definition whole (r : arr) (n i : nat) : R :=
  if (i <? n / 2)%nat then get r i else if (i <? (n + 1) / 2)%nat then 0 else - get r (n - 1 - i).
Lemma half_facts n : ((n / 2 + (n + 1) / 2 = n) /\ n / 2 <= (n + 1) / 2 /\ (Nat.odd n = true -> (n + 1) / 2 = n / 2 + 1) /\ (Nat.odd n = false -> (n + 1) / 2 = n / 2))%nat.
Proof.
  destruct (Nat.Even_or_Odd n) as [[k ->]|[k ->]].
  - replace (2 * k + 1)%nat with (1 + k * 2)%nat by lia. rewrite Nat.div_add by lia. replace (2 * k)%nat with (k * 2)%nat by lia. rewrite Nat.div_mul by lia.
    replace (1 / 2)%nat with 0%nat by reflexivity. repeat split; try lia. intros H. rewrite Nat.odd_mul, Bool.andb_comm in H. discriminate H.
  - replace (2 * k + 1 + 1)%nat with ((k + 1) * 2)%nat by lia. rewrite Nat.div_mul by lia. replace (2 * k + 1)%nat with (1 + k * 2)%nat by lia. rewrite Nat.div_add by lia.
    replace (1 / 2)%nat with 0%nat by reflexivity. repeat split; try lia. intros H. rewrite Nat.odd_add, Nat.odd_mul, Bool.andb_comm in H. discriminate H.
Qed.
Lemma half_ok (z : arr) o n (f : nat -> res R) (r : arr) : (o + n <= length z)%nat -> (forall i, (i < n / 2)%nat -> f i = Ok (get r i)) ->
  exists z', (z <- fill z o (n / 2) (fun _ i => f i) ;; z <- (if Nat.odd n then wr z (o + n / 2) 0 else Ok z) ;; mirror_neg z o n) = Ok z' /\
    length z' = length z /\ (forall k, (k < o \/ o + n <= k)%nat -> get z' k = get z k) /\ forall i, (i < n)%nat -> get z' (o + i) = whole r n i.
Proof.
  intros L H. destruct (half_facts n) as (F1 & F2 & F3 & F4).
  destruct (fill_ok z o (n / 2) (fun _ i => f i) (get r)) as (z1 & E1 & [L1 O1] & R1); [lia|intros; apply H; auto|]. rewrite E1. cbn [bind].
  assert (E2 : exists z2, (if Nat.odd n then wr z1 (o + n / 2) 0 else Ok z1) = Ok z2 /\ length z2 = length z1 /\
     (forall k, get z2 k = if ((o + n / 2 <=? k) && (k <? o + (n + 1) / 2))%nat then 0 else get z1 k)).
  { destruct (Nat.odd n) eqn:Od.
    - specialize (F3 eq_refl). rewrite wr_get by lia. eexists. split; [reflexivity|]. split; [apply upd_length'|]. intros k. rewrite get_upd by lia.
      destruct (Nat.eqb_spec k (o + n / 2)), (Nat.leb_spec (o + n / 2) k), (Nat.ltb_spec k (o + (n + 1) / 2)); cbn [andb]; auto; lia.
    - specialize (F4 eq_refl). exists z1. split; [auto|]. split; [auto|]. intros k. destruct (Nat.leb_spec (o + n / 2) k), (Nat.ltb_spec k (o + (n + 1) / 2)); cbn [andb]; auto; lia. }
  destruct E2 as (z2 & E2 & L2 & V2). rewrite E2. cbn [bind].
  destruct (mirror_neg_ok z2 o n) as (z3 & E3 & L3 & V3); [lia|]. rewrite E3. exists z3. split; [auto|]. split; [congruence|]. split.
  - intros k Hk. rewrite V3. destruct (Nat.leb_spec (o + (n + 1) / 2) k), (Nat.ltb_spec k (o + n)); cbn [andb]; try lia; rewrite V2;
      destruct (Nat.leb_spec (o + n / 2) k), (Nat.ltb_spec k (o + (n + 1) / 2)); cbn [andb]; try lia; apply O1; lia.
  - intros i Hi. rewrite V3. unfold whole. destruct (Nat.leb_spec (o + (n + 1) / 2) (o + i)), (Nat.ltb_spec (o + i) (o + n)); cbn [andb]; try lia.
    + destruct (Nat.ltb_spec i (n / 2)); [lia|]. destruct (Nat.ltb_spec i ((n + 1) / 2)); [lia|]. rewrite V2.
      destruct (Nat.leb_spec (o + n / 2) (o + (n - 1 - (o + i - o)))); [lia|]. cbn [andb]. rewrite (R1 (n - 1 - (o + i - o))%nat) by lia. do 2 f_equal. lia.
    + rewrite V2. destruct (Nat.leb_spec (o + n / 2) (o + i)), (Nat.ltb_spec (o + i) (o + (n + 1) / 2)), (Nat.ltb_spec i (n / 2)), (Nat.ltb_spec i ((n + 1) / 2)); cbn [andb]; try lia; auto.
Qed.

Lemma whole_sym r n i : (i < n)%nat -> whole r n (n - 1 - i) = - whole r n i.
Proof.
  intros Hi. destruct (half_facts n) as (F1 & F2 & F3 & F4). unfold whole.
  destruct (Nat.ltb_spec i (n / 2)), (Nat.ltb_spec (n - 1 - i) (n / 2)), (Nat.ltb_spec i ((n + 1) / 2)), (Nat.ltb_spec (n - 1 - i) ((n + 1) / 2)); try lia; try ring.
  - f_equal. f_equal. lia.
Qed.

Section Nodes.
Variable r : arr.
Variable n : nat.
Hypothesis neg : forall i, (i < n / 2)%nat -> get r i < 0.
Hypothesis dis : distinct r (n / 2).
Lemma whole_distinct i j : (i < n)%nat -> (j < n)%nat -> whole r n i = whole r n j -> i = j.
Proof.
  intros Hi Hj E. destruct (half_facts n) as (F1 & F2 & F3 & F4).
  assert (F5 : ((n + 1) / 2 <= n / 2 + 1)%nat) by (destruct (Nat.odd n); [specialize (F3 eq_refl)|specialize (F4 eq_refl)]; lia).
  unfold whole in E. destruct (Nat.ltb_spec i (n / 2)), (Nat.ltb_spec j (n / 2)), (Nat.ltb_spec i ((n + 1) / 2)), (Nat.ltb_spec j ((n + 1) / 2)); try lia.
  all: try (apply dis; auto; fail).
  all: try (pose proof (neg i ltac:(lia))); try (pose proof (neg j ltac:(lia))); try (pose proof (neg (n - 1 - i)%nat ltac:(lia))); try (pose proof (neg (n - 1 - j)%nat ltac:(lia))); try lra.
  assert (X : (n - 1 - i = n - 1 - j)%nat) by (apply dis; [lia|lia|lra]). lia.
Qed.
Lemma whole_root (f : R -> R) s : (forall x, f (- x) = s * f x) -> (Nat.odd n = true -> f 0 = 0) -> (forall i, (i < n / 2)%nat -> f (get r i) = 0) ->
  forall i, (i < n)%nat -> f (whole r n i) = 0.
Proof.
  intros Sy Od H i Hi. destruct (half_facts n) as (F1 & F2 & F3 & F4). unfold whole.
  destruct (Nat.ltb_spec i (n / 2)); [auto|]. destruct (Nat.ltb_spec i ((n + 1) / 2)).
  - destruct (Nat.odd n) eqn:O; [apply Od; auto|]. specialize (F4 eq_refl). lia.
  - rewrite Sy, H by lia. ring.
Qed.
End Nodes.

Lemma newton_list newton f f' start n : newton_roots newton f f' start n -> exists r : arr,
  (forall i, (i < n / 2)%nat -> newton f f' (start i) = Ok (get r i) /\ get r i < 0 /\ f (get r i) = 0) /\ distinct r (n / 2).
Proof.
  intros [R D]. destruct (choose_list (fun i x => newton f f' (start i) = Ok x /\ x < 0 /\ f x = 0) (n / 2) R) as (l & Ll & Hl).
  exists l. split; [auto|]. intros i j Hi Hj E. destruct (Hl i Hi) as [A _]. destruct (Hl j Hj) as [B _]. rewrite E in A. eapply D; eauto.
Qed.

(** A polynomial of degree n that is not 0 has no other roots. *)
Lemma all_roots z n f x : distinct z n -> ispoly (n + 1) f -> (forall i, (i < n)%nat -> f (get z i) = 0) -> (exists y, f y <> 0) -> f x = 0 -> exists i, (i < n)%nat /\ x = get z i.
Proof.
  intros D Hf Z0 (y & Hy) Hx. destruct (ip_roots z n D 1 f Hf Z0) as (g & (c & Lc & Hc) & E).
  assert (C : forall u, g u = peval c 0). { intros u. rewrite <- Hc. destruct c as [|a [|]]; [reflexivity|cbn [peval]; ring|cbn in Lc; lia]. }
  destruct (find_dec z x n) as [Y|N]; [auto|]. exfalso. apply Hy. rewrite E, C. rewrite E, C in Hx. apply Rmult_integral in Hx. destruct Hx as [X|X]; [|rewrite X; ring].
  exfalso. revert X. apply rprod_nonzero. intros i Hi X. apply N. exists i. split; [auto|lra].
Qed.

Lemma P1_opp n x : P1 n (- x) = - (-1) ^ n * P1 n x.
Proof.
  eapply (der_unique (fun x => - P n (- x)) (fun x => - (-1) ^ n * P n x) x).
  - intros y. rewrite (proj1 (P_opp n y)). ring.
  - eapply der_eq; [apply (derivable_pt_lim_opp (fun x => P n (- x))); apply (derivable_pt_lim_comp (fun x => - x) (P n)); [apply (derivable_pt_lim_opp id), derivable_pt_lim_id|apply P_der]|]. ring.
  - apply der_scal, P_der.
Qed.
Lemma pow_m1_odd n : Nat.odd n = true -> (-1) ^ n = -1.
Proof. intros H. apply Nat.odd_spec in H. destruct H as (k & ->). rewrite pow_add, pow_mult. replace ((-1) ^ 2) with 1 by (cbn; ring). rewrite pow1. cbn. ring. Qed.
Lemma pow_m1_even n : Nat.even n = true -> (-1) ^ n = 1.
Proof. intros H. apply Nat.even_spec in H. destruct H as (k & ->). rewrite pow_mult. replace ((-1) ^ 2) with 1 by (cbn; ring). apply pow1. Qed.

Lemma gauss_nodes_ok newton n (z : arr) : (1 <= n)%nat -> (n <= length z)%nat -> newton_roots newton (legendre n) (legendre_d1 n) (gauss_start n) n ->
  exists z', gauss_nodes newton z n = Ok z' /\ length z' = length z /\ (forall k, (n <= k)%nat -> get z' k = get z k) /\
    distinct z' n /\ (forall i, (i < n)%nat -> get z' (n - 1 - i) = - get z' i) /\ forall i, (i < n)%nat -> P n (get z' i) = 0.
Proof.
  intros Hn L NR. destruct (newton_list _ _ _ _ _ NR) as (r & Hr & Dr).
  destruct (half_ok z 0 n (fun i => newton (legendre n) (legendre_d1 n) (gauss_start n i)) r) as (z' & E & L' & O & V); [lia|intros i Hi; apply Hr; auto|].
  exists z'. split; [exact E|]. split; [auto|]. split; [intros; apply O; lia|]. cbn [Nat.add] in V.
  assert (NEG : forall i, (i < n / 2)%nat -> get r i < 0) by (intros i Hi; apply Hr; auto). split; [|split].
  - intros i j Hi Hj X. rewrite !V in X by auto. eapply whole_distinct; eauto.
  - intros i Hi. rewrite !V by lia. apply whole_sym. auto.
  - intros i Hi. rewrite V by auto. eapply (whole_root r n (P n) ((-1) ^ n)); auto.
    + intros x. apply P_opp.
    + intros Od. pose proof (proj1 (P_opp n 0)) as X. rewrite Ropp_0, (pow_m1_odd n Od) in X. lra.
    + intros k Hk. rewrite <- legendre_P. apply Hr. auto.
Qed.
Lemma gauss_quad_ok newton n (m : arr) w : (1 <= n)%nat -> (n <= w)%nat -> (w + n <= length m)%nat -> newton_roots newton (legendre n) (legendre_d1 n) (gauss_start n) n ->
  exists m', gauss_quad (gauss_nodes newton) m w n = Ok m' /\ keeps m m' (fun k => rng 0 n k \/ rng w n k) /\
    distinct m' n /\ (forall i, (i < n)%nat -> P n (get m' i) = 0) /\ forall i, (i < n)%nat -> get m' (w + i) = gauss_weight n (get m' i).
Proof.
  intros Hn Hw Hm NR. unfold gauss_quad. destruct (gauss_nodes_ok newton n m Hn ltac:(lia) NR) as (m1 & E1 & L1 & O1 & D1 & S1 & R1). rewrite E1. cbn [bind].
  set (c := ((n - 1) / 2 + 1)%nat). assert (Hc : (c <= n /\ n <= 2 * c)%nat).
  { unfold c. pose proof (Nat.div_mod (n - 1) 2 ltac:(lia)). pose proof (Nat.mod_upper_bound (n - 1) 2 ltac:(lia)). lia. }
  assert (Hc2 : c = ((n + 1) / 2)%nat). { unfold c. replace (n + 1)%nat with ((n - 1) + 1 * 2)%nat by lia. rewrite Nat.div_add by lia. auto. }
  lazymatch goal with |- context [fill m1 w c ?f] => destruct (fill_ok m1 w c f (fun i => gauss_weight n (get m1 i))) as (m2 & E2 & [L2 O2] & R2) end; [lia| |].
  { intros m' i Hi [L O] _. rewrite rd_get by lia. cbn [bind]. rewrite O by lia. rewrite legendre_P. unfold gauss_weight. auto. }
  rewrite E2. cbn [bind]. destruct (mirror_ok m2 w n) as (m3 & E3 & L3 & V3); [lia|lia|]. rewrite E3.
  assert (Z : forall i, (i < n)%nat -> get m3 i = get m1 i).
  { intros i Hi. rewrite V3. destruct (Nat.leb_spec (w + (n + 1) / 2) i), (Nat.ltb_spec i (w + n)); cbn [andb]; try lia; rewrite O2 by lia; auto. }
  exists m3. split; [auto|]. split; [|split; [|split]].
  - split; [congruence|]. intros k Hk. unfold rng in Hk. rewrite V3. destruct (Nat.leb_spec (w + (n + 1) / 2) k), (Nat.ltb_spec k (w + n)); cbn [andb]; try lia; rewrite O2 by lia; apply O1; lia.
  - intros i j Hi Hj X. rewrite !Z in X by auto. auto.
  - intros i Hi. rewrite Z; auto.
  - intros i Hi. rewrite (Z i) by auto. rewrite V3. rewrite <- Hc2. destruct (Nat.leb_spec (w + c) (w + i)), (Nat.ltb_spec (w + i) (w + n)); cbn [andb]; try lia.
    + replace (w + i - w)%nat with i by lia. rewrite (R2 (n - 1 - i)%nat) by lia. unfold gauss_weight. rewrite S1 by lia.
      replace (INR (n + 1) * P (n + 1) (- get m1 i) * (INR (n + 1) * P (n + 1) (- get m1 i))) with (INR (n + 1) * INR (n + 1) * (P (n + 1) (- get m1 i) * P (n + 1) (- get m1 i))) by ring.
      rewrite P_opp_sq. replace (- get m1 i * - get m1 i) with (get m1 i * get m1 i) by ring. f_equal. ring.
    + apply R2. lia.
Qed.

Lemma lobatto_nodes_ok newton n : (2 <= n)%nat -> newton_roots newton (legendre_d1 (n - 1)) (legendre_d2 (n - 1)) (lobatto_start (n - 2)) (n - 2) ->
  exists zs : arr, get zs 0 = -1 /\ get zs (n - 1) = 1 /\ distinct zs n /\ (forall i, (i < n)%nat -> get zs (n - 1 - i) = - get zs i) /\
    (forall i, (1 <= i < n - 1)%nat -> P1 (n - 1) (get zs i) = 0) /\
    forall a : arr, (n <= length a)%nat -> exists a', lobatto_nodes_n newton a n = Ok a' /\ length a' = length a /\ (forall k, (n <= k)%nat -> get a' k = get a k) /\ forall i, (i < n)%nat -> get a' i = get zs i.
Proof.
  intros Hn NR. destruct (newton_list _ _ _ _ _ NR) as (r & Hr & Dr).
  assert (NEG : forall i, (i < (n - 2) / 2)%nat -> get r i < 0) by (intros i Hi; apply Hr; auto).
  set (zs := (-1 :: map (whole r (n - 2)) (seq 0 (n - 2)) ++ [1]) : arr).
  assert (G0 : get zs 0 = -1) by reflexivity.
  assert (GI : forall i, (i < n - 2)%nat -> get zs (S i) = whole r (n - 2) i).
  { intros i Hi. unfold zs, get. cbn [nth]. rewrite app_nth1 by (rewrite map_length, seq_length; auto). rewrite (nth_indep _ 0 (whole r (n - 2) 0)) by (rewrite map_length, seq_length; auto). rewrite map_nth, seq_nth by auto. auto. }
  assert (G1 : get zs (n - 1) = 1). { replace (n - 1)%nat with (S (n - 2)) by lia. unfold zs, get. cbn [nth]. rewrite app_nth2; rewrite map_length, seq_length; [|lia]. rewrite Nat.sub_diag. auto. }
  assert (RT : forall i, (i < n - 2)%nat -> P1 (n - 1) (whole r (n - 2) i) = 0).
  { intros i Hi. eapply (whole_root r (n - 2) (P1 (n - 1)) (- (-1) ^ (n - 1))); auto.
    - intros x. apply P1_opp.
    - intros Od. pose proof (P1_opp (n - 1) 0) as X. rewrite Ropp_0, (pow_m1_even (n - 1)) in X by (replace (n - 1)%nat with (S (n - 2)) by lia; rewrite Nat.even_succ; auto). lra.
    - intros k Hk. rewrite <- legendre_d1_P by lia. apply Hr. auto. }
  assert (NE : forall i, (i < n - 2)%nat -> whole r (n - 2) i <> 1 /\ whole r (n - 2) i <> -1).
  { intros i Hi. specialize (RT i Hi). split; intros X; rewrite X in RT.
    - rewrite P1_at_1 in RT. assert (1 <= INR (n - 1)) by (apply (le_INR 1); lia). nra.
    - rewrite P1_m1 in RT. apply Rmult_integral in RT. destruct RT as [Y|Y]; [|apply (P_m1_nz (n - 1)); auto]. pose proof (c_pos (n - 1) ltac:(lia)). lra. }
  exists zs. split; [auto|]. split; [auto|]. split; [|split; [|split]].
  - assert (CASE : forall i, (i < n)%nat -> i = 0%nat \/ i = (n - 1)%nat \/ exists k, (k < n - 2)%nat /\ i = S k).
    { intros i Hi. destruct i as [|i]; [auto|]. destruct (Nat.eq_dec (S i) (n - 1)); [auto|]. right. right. exists i. split; [lia|auto]. }
    intros i j Hi Hj E. destruct (CASE i Hi) as [->|[->|(k & Hk & ->)]], (CASE j Hj) as [->|[->|(k' & Hk' & ->)]]; auto; rewrite ?G0, ?G1, ?GI in E by auto; try lra.
    + exfalso. apply (proj2 (NE k' Hk')). auto.
    + exfalso. apply (proj1 (NE k' Hk')). auto.
    + exfalso. apply (proj2 (NE k Hk)). auto.
    + exfalso. apply (proj1 (NE k Hk)). auto.
    + f_equal. eapply whole_distinct; eauto.
  - intros i Hi. destruct i as [|i]; [rewrite Nat.sub_0_r, G0, G1; ring|]. destruct (Nat.eq_dec (S i) (n - 1)) as [E|E]; [rewrite E, Nat.sub_diag, G0, G1; ring|].
    replace (n - 1 - S i)%nat with (S (n - 2 - 1 - i)) by lia. rewrite !GI by lia. apply whole_sym. lia.
  - intros i Hi. destruct i as [|i]; [lia|]. rewrite GI by lia. apply RT. lia.
  - intros a La. unfold lobatto_nodes_n. rewrite wr_get by lia. cbn [bind]. rewrite wr_get by (rewrite upd_length'; lia). cbn [bind].
    set (a1 := upd (upd a 0 (-1)) (n - 1) 1). assert (L1 : length a1 = length a) by (unfold a1; rewrite !upd_length'; auto).
    unfold lobatto_nodes_aux. destruct (half_ok a1 1 (n - 2) (fun i => newton (legendre_d1 (n - 2 + 1)) (legendre_d2 (n - 2 + 1)) (lobatto_start (n - 2) i)) r) as (a' & E & L' & O & V); [lia| |].
    + intros i Hi. replace (n - 2 + 1)%nat with (n - 1)%nat by lia. apply Hr. auto.
    + exists a'. split; [exact E|]. split; [congruence|]. split.
      * intros k Hk. rewrite O by lia. unfold a1. rewrite !get_upd by (rewrite ?upd_length'; lia). destruct (Nat.eqb_spec k (n - 1)); [lia|]. destruct (Nat.eqb_spec k 0); [lia|auto].
      * intros i Hi. destruct i as [|i].
        { rewrite O by lia. unfold a1. rewrite !get_upd by (rewrite ?upd_length'; lia). destruct (Nat.eqb_spec 0 (n - 1)); [lia|]. auto. }
        destruct (Nat.eq_dec (S i) (n - 1)) as [X|X].
        { rewrite X, G1. rewrite O by lia. unfold a1. rewrite get_upd by (rewrite ?upd_length'; lia). rewrite Nat.eqb_refl. auto. }
        rewrite GI by lia. apply (V i). lia.
Qed.
