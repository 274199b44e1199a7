(** Loops of lob_bnd_setup and lobatto_quad. *)
From Verif Require Import Base BaseLemmas Poly PolySpec PolyProof1 PolyProof2 PolyProof3 PolyImpSyntax PolyImp PolyGll PolyQuad LobBnd LobBndSpec LobBndProof1.
From Coq Require Import Reals Lra Psatz.
Open Scope R_scope.

(** A loop whose i-th iteration writes the values V i at the places B i. *)
Lemma block_loop {T} (mem : T -> arr) (J : nat -> T -> Prop) (f : T -> nat -> res T) (B : nat -> nat -> Prop) (V : nat -> nat -> R) a N s0 :
  J a s0 -> (forall i i' k, B i k -> B i' k -> i = i') ->
  (forall i s, (a <= i < a + N)%nat -> J i s -> keeps (mem s0) (mem s) (fun k => exists i', (a <= i' < i)%nat /\ B i' k) ->
     exists s', f s i = Ok s' /\ J (S i) s' /\ keeps (mem s) (mem s') (B i) /\ forall k, B i k -> get (mem s') k = V i k) ->
  exists s', foldM f (seq a N) s0 = Ok s' /\ J (a + N)%nat s' /\ keeps (mem s0) (mem s') (fun k => exists i, (a <= i < a + N)%nat /\ B i k) /\
    forall i k, (a <= i < a + N)%nat -> B i k -> get (mem s') k = V i k.
Proof.
  intros H0 D. induction N as [|N IH]; intros H.
  - exists s0. cbn [seq foldM]. rewrite Nat.add_0_r. split; [auto|]. split; [auto|]. split; [apply keeps_refl|]. intros; lia.
  - destruct IH as (s & E & HJ & [KL KO] & HV). { intros i s Hi. apply H. lia. }
    destruct (H (a + N)%nat s) as (s' & E' & HJ' & [KL' KO'] & HV'); [lia|auto|split; auto|].
    exists s'. rewrite seq_S, foldM_snoc, E. cbn [bind]. rewrite E'. split; [auto|]. rewrite Nat.add_succ_r. split; [auto|]. split.
    + split; [congruence|]. intros k Hk. rewrite KO'; [apply KO|]; intros X; apply Hk; [destruct X as (i & Hi & X); exists i; split; [lia|auto]|exists (a + N)%nat; split; [lia|auto]].
    + intros i k Hi Hb. destruct (Nat.eq_dec i (a + N)) as [->|Hne]; [auto|]. rewrite KO'; [apply HV; [lia|auto]|]. intros X. apply Hne. eapply D; eauto.
Qed.

Lemma upd2_get w i j v x : (i < length w)%nat -> (j < length w)%nat -> i <> j ->
  get (upd (upd w i v) j x) i = v /\ get (upd (upd w i v) j x) j = x /\ keeps w (upd (upd w i v) j x) (fun k => k = i \/ k = j).
Proof.
  intros Hi Hj Hne. split; [|split].
  - rewrite get_upd by (rewrite upd_length'; auto). destruct (Nat.eqb_spec i j); [lia|]. rewrite get_upd, Nat.eqb_refl by auto. auto.
  - rewrite get_upd, Nat.eqb_refl by (rewrite upd_length'; auto). auto.
  - split; [rewrite !upd_length'; auto|]. intros k Hk. rewrite !get_upd by (rewrite ?upd_length'; auto).
    destruct (Nat.eqb_spec k j); [tauto|]. destruct (Nat.eqb_spec k i); [tauto|]. auto.
Qed.

(** mirror. *)
Lemma mirror_ok (m : arr) w n : (1 <= n)%nat -> (w + n <= length m)%nat ->
  exists m', mirror m w n = Ok m' /\ length m' = length m /\
    forall k, get m' k = if ((w + (n + 1) / 2 <=? k) && (k <? w + n))%nat then get m (w + (n - 1 - (k - w))) else get m k.
Proof.
  intros Hn Hm. unfold mirror. set (c := ((n + 1) / 2)%nat). assert (Hc : (c <= n /\ n <= 2 * c /\ 2 * c <= n + 1)%nat).
  { unfold c. pose proof (Nat.div_mod (n + 1) 2 ltac:(lia)). pose proof (Nat.mod_upper_bound (n + 1) 2 ltac:(lia)). lia. }
  assert (Hd : (n / 2 = n - c)%nat). { unfold c. pose proof (Nat.div_mod (n + 1) 2 ltac:(lia)). pose proof (Nat.mod_upper_bound (n + 1) 2 ltac:(lia)).
    pose proof (Nat.div_mod n 2 ltac:(lia)). pose proof (Nat.mod_upper_bound n 2 ltac:(lia)). lia. }
  rewrite Hd.
  destruct (block_loop (fun s : arr * nat => fst s) (fun j s => snd s = (n - 1 - j)%nat)
     (fun '(m, i) j => v <- rd m (w + i) ;; m <- wr m (w + j) v ;; Ok (m, (i - 1)%nat)) (fun j k => k = (w + j)%nat) (fun j _ => get m (w + (n - 1 - j))) c (n - c) (m, (n - c - 1)%nat))
    as ([m' i'] & E & _ & [KL KO] & V).
  - cbn [snd]. lia.
  - intros; lia.
  - intros j [s i] Hj Hi [KL KO]. cbn [fst snd] in *. subst i. rewrite rd_get by lia. cbn [bind]. rewrite wr_get by lia. cbn [bind]. eexists. split; [reflexivity|]. cbn [fst snd].
    split; [lia|]. split; [apply keeps_upd; auto|]. intros k ->. rewrite get_upd, Nat.eqb_refl by lia. apply KO. intros (i' & Hi' & X). lia.
  - cbn [fst snd] in *. rewrite E. cbn [bind]. exists m'. split; [auto|]. split; [auto|]. intros k.
    destruct (Nat.leb_spec (w + c) k), (Nat.ltb_spec k (w + n)); cbn [andb].
    + rewrite (V (k - w)%nat k) by lia. auto.
    + apply KO. intros (i & Hi & X). lia.
    + apply KO. intros (i & Hi & X). lia.
    + apply KO. intros (i & Hi & X). lia.
Qed.

(** Parity of the Legendre polynomials. *)
Lemma P_opp n x : P n (- x) = (-1) ^ n * P n x /\ P (S n) (- x) = (-1) ^ S n * P (S n) x.
Proof.
  induction n as [|n [IH1 IH2]].
  - unfold P. cbn. lra.
  - split; [auto|]. rewrite !P_SS. rewrite IH1, IH2. cbn [pow]. field. pose proof (pos_INR n). lra.
Qed.
Lemma P_opp_sq n x : P n (- x) * P n (- x) = P n x * P n x.
Proof.
  rewrite (proj1 (P_opp n x)). replace ((-1) ^ n * P n x * ((-1) ^ n * P n x)) with ((-1) ^ n * (-1) ^ n * (P n x * P n x)) by ring.
  rewrite <- Rpow_mult_distr. replace (-1 * -1) with 1 by ring. rewrite pow1. ring.
Qed.

(** lobatto_quad. *)
Lemma lobatto_quad_ok nn n zs (m : arr) w : (2 <= n)%nat -> lobatto_points nn n zs -> (n <= w)%nat -> (w + n <= length m)%nat ->
  exists m', lobatto_quad nn m w n = Ok m' /\ keeps m m' (fun k => rng 0 n k \/ rng w n k) /\
    (forall i, (i < n)%nat -> get m' i = get zs i) /\ forall i, (i < n)%nat -> get m' (w + i) = lobatto_weight n (get zs i).
Proof.
  intros Hn LP Hw Hm. unfold lobatto_quad. destruct (lp_run _ _ _ LP m) as (m1 & E1 & L1 & O1 & V1); [lia|]. rewrite E1. cbn [bind].
  set (c := ((n - 1) / 2 + 1)%nat). assert (Hc : (c <= n /\ n <= 2 * c)%nat).
  { unfold c. pose proof (Nat.div_mod (n - 1) 2 ltac:(lia)). pose proof (Nat.mod_upper_bound (n - 1) 2 ltac:(lia)). lia. }
  assert (Hc2 : c = ((n + 1) / 2)%nat). { unfold c. replace (n + 1)%nat with ((n - 1) + 1 * 2)%nat by lia. rewrite Nat.div_add by lia. auto. }
  lazymatch goal with |- context [fill m1 w c ?f] => destruct (fill_ok m1 w c f (fun i => lobatto_weight n (get zs i))) as (m2 & E2 & [L2 O2] & R2) end; [lia| |].
  { intros m' i Hi [L O] _. rewrite rd_get by lia. cbn [bind]. rewrite O by lia. rewrite V1 by lia. rewrite legendre_P. unfold lobatto_weight. rewrite Rmult_assoc. auto. }
  rewrite E2. cbn [bind]. destruct (mirror_ok m2 w n) as (m3 & E3 & L3 & V3); [lia|lia|]. rewrite E3. exists m3. split; [auto|]. split; [|split].
  - split; [congruence|]. intros k Hk. unfold rng in Hk. rewrite V3. destruct (Nat.leb_spec (w + (n + 1) / 2) k), (Nat.ltb_spec k (w + n)); cbn [andb]; try lia; rewrite O2 by lia; apply O1; lia.
  - intros i Hi. rewrite V3. destruct (Nat.leb_spec (w + (n + 1) / 2) i), (Nat.ltb_spec i (w + n)); cbn [andb]; try lia; rewrite O2 by lia; auto.
  - intros i Hi. rewrite V3. rewrite <- Hc2. destruct (Nat.leb_spec (w + c) (w + i)), (Nat.ltb_spec (w + i) (w + n)); cbn [andb]; try lia.
    + replace (w + i - w)%nat with i by lia. rewrite (R2 (n - 1 - i)%nat) by lia. unfold lobatto_weight. rewrite (lp_symmetric _ _ _ LP) by lia. rewrite P_opp_sq. auto.
    + apply R2. lia.
Qed.

(** The functionals. *)
Lemma funcs_ok n Q : forall (data : arr) v z, (n <= Q)%nat -> (Q + 2 * n <= length data)%nat ->
  (forall i, (i < n)%nat -> get data (Q + i) = v i) -> (forall i, (i < n)%nat -> get data i = z i) ->
  exists data', foldM (fun data i =>
      q <- rd data (Q + i) ;;
      data <- wr data (Q + 2 * i) (q / 2) ;;
      q <- rd data (Q + 2 * i) ;; zi <- rd data (0 + i) ;;
      wr data (Q + (2 * i + 1)) (3 * q * zi)) (rev (seq 0 n)) data = Ok data' /\ keeps data data' (rng Q (2 * n)) /\
    forall i, (i < n)%nat -> get data' (Q + 2 * i) = v i / 2 /\ get data' (Q + (2 * i + 1)) = 3 * (v i / 2) * z i.
Proof.
  induction n as [|n IH]; intros data v z HQ HL Hv Hz.
  - exists data. split; [reflexivity|]. split; [apply keeps_refl|]. intros; lia.
  - rewrite seq_S, rev_app_distr. cbn [rev app foldM Nat.add]. rewrite rd_get by lia. cbn [bind]. rewrite wr_get by lia. cbn [bind].
    rewrite !rd_get by (rewrite upd_length'; lia). cbn [bind]. rewrite wr_get by (rewrite upd_length'; lia). cbn [bind].
    rewrite !get_upd by lia. rewrite Nat.eqb_refl. destruct (Nat.eqb_spec n (Q + 2 * n)); [lia|]. rewrite Hv, Hz by lia.
    destruct (upd2_get data (Q + 2 * n) (Q + (2 * n + 1)) (v n / 2) (3 * (v n / 2) * z n)) as (A & B & KL & KO); [lia|lia|lia|].
    set (data1 := upd (upd data (Q + 2 * n) (v n / 2)) (Q + (2 * n + 1)) (3 * (v n / 2) * z n)) in *.
    destruct (IH data1 v z) as (data' & E & [KL' KO'] & V); [lia|lia| | |].
    { intros i Hi. rewrite KO by lia. apply Hv. lia. }
    { intros i Hi. rewrite KO by lia. apply Hz. lia. }
    exists data'. split; [exact E|]. split.
    + split; [congruence|]. intros k Hk. unfold rng in *. rewrite KO' by (unfold rng; lia). apply KO. lia.
    + intros i Hi. destruct (Nat.eq_dec i n) as [->|]; [|apply V; lia]. rewrite !KO' by (unfold rng; lia). auto.
Qed.
