(** lob_bnd_setup as a whole. *)
From Verif Require Import Base BaseLemmas Poly PolySpec PolyProof1 PolyProof2 PolyProof3 PolyImpSyntax PolyImp PolyGll PolyGllSpec PolyImpProof PolyGllCheck PolyGllProof PolyQuad LobBnd LobBndSpec LobBndProof1 LobBndSetupProof1 LobBndSetupProof2.
From Coq Require Import Reals Lra Psatz.
Open Scope R_scope.

Lemma setup_runs nn n m zs (data : arr) : (2 <= n)%nat -> (2 <= m)%nat -> lobatto_points nn n zs -> (lob_bnd_size n m <= length data)%nat ->
  exists data', lob_bnd_setup nn data n m = Ok data' /\ keeps data data' (rng 0 (lob_bnd_size n m)) /\ setup_data zs data' n m.
Proof.
  intros Hn Hm LP HL. unfold lob_bnd_setup. assert (Hs : (lob_bnd_size n m = 3 * n + m + 6 * (n * m))%nat) by (unfold lob_bnd_size; nia). rewrite Hs in *. cbv zeta.
  destruct (lag_ok nn n zs Hn LP) as (lag & gd & Rdy & EL & HR & HG). rewrite EL. cbn [bind].
  destruct (lobatto_quad_ok nn n zs data (0 + n) Hn LP) as (d1 & E1 & K1 & Vz & Vw); [lia|lia|]. rewrite E1. cbn [bind].
  destruct (funcs_ok n (0 + n) d1 (fun i => lobatto_weight n (get zs i)) (get zs)) as (d2 & E2 & K2 & VQ); [lia|destruct K1; lia|auto|auto|]. rewrite E2. cbn [bind].
  assert (Ld2 : length d2 = length data) by (destruct K1, K2; congruence).
  rewrite wr_get by lia. cbn [bind]. rewrite wr_get by (rewrite upd_length'; lia). cbn [bind].
  destruct (points_ok n m Hn Hm d2 (0 + n + 2 * n)) as (d3 & E3 & K3 & Vh); [lia|]. rewrite E3. cbn [bind].
  assert (Ld3 : length d3 = length data) by (destruct K3; congruence).
  destruct (ends_ok n m Hn Hm d3 (0 + n + 2 * n + m)) as (d4 & E4 & K4 & Ve); [nia|]. cbv zeta in E4. rewrite E4. cbn [bind].
  assert (Ld4 : length d4 = length data) by (destruct K4; congruence).
  assert (Vh4 : forall k, (k < m)%nat -> get d4 (0 + n + 2 * n + k) = cheb m k) by (intros k Hk; rewrite (proj2 K4) by (unfold rng; lia); auto).
  rewrite !rd_get by lia. cbn [bind]. rewrite (Vh4 1%nat) by lia. pose proof (Vh4 0%nat ltac:(lia)) as H0. rewrite Nat.add_0_r in H0. rewrite H0.
  destruct (HG (repeat 0 (2 * n)) gd 1%nat ((cheb m 0 + cheb m 1) / 2)) as (pl & g1 & E5 & G1 & (Lp & _ & Vp)); [auto|lia|rewrite repeat_length; lia|]. rewrite repeat_length in Lp. rewrite E5. cbn [bind].
  destruct (inner_all_ok n m zs Hn Hm lag Rdy d4 pl g1 (0 + n + 2 * n) (0 + n + 2 * n + m) HG G1) as (d5 & r1 & r2 & r3 & r4 & E6 & K5 & Vi); [lia|nia|auto| |].
  { split; [lia|]. intros i Hi. destruct (Vp i Hi) as (A & B & _). auto. }
  cbv zeta in E6. rewrite E6. cbn [bind].
  assert (Ld5 : length d5 = length data) by (destruct K5; congruence).
  destruct (signed_ok n m Hn Hm d5 (0 + n + 2 * n + m) (0 + n + 2 * n + m + 2 * (n * m)) (n * m)) as (d6 & E7 & K6 & Vs); [lia|nia|].
  rewrite E7. exists d6. split; [reflexivity|].
  destruct K1 as [L1 O1], K2 as [L2 O2], K3 as [L3 O3], K4 as [L4 O4], K5 as [L5 O5], K6 as [L6 O6]. unfold rng in *.
  assert (PB : forall i k, (i < n)%nat -> (k < m)%nat -> (i * m + k < n * m)%nat) by (intros; nia).
  assert (X5 : forall c, (c < 3 * n + m \/ 3 * n + m + 2 * (n * m) <= c)%nat -> ~ (exists i k, (i < n)%nat /\ (0 < k < m - 1)%nat /\
       (c = (0 + n + 2 * n + m + (i * m + k) * 2)%nat \/ c = (0 + n + 2 * n + m + ((i * m + k) * 2 + 1))%nat))).
  { intros c Hc (i & k & Hi & Hk & X). specialize (PB i k Hi ltac:(lia)). lia. }
  split; [split; [congruence|]|].
  { intros k Hk. rewrite O6, O5, O4, O3, O2, O1 by (try apply X5; lia). auto. }
  split.
  - intros i Hi. unfold node. rewrite O6, O5, O4, O3, O2 by (try apply X5; lia). auto.
  - intros i Hi. unfold func0. rewrite O6, O5, O4, O3 by (try apply X5; lia). destruct (VQ i Hi) as [A _]. rewrite <- A. f_equal.
  - intros i Hi. unfold func1. rewrite O6, O5, O4, O3 by (try apply X5; lia). destruct (VQ i Hi) as [_ A]. cbn [Nat.add] in A. rewrite A. field.
  - intros k Hk. unfold point. rewrite O6, O5 by (try apply X5; lia). rewrite <- Vh4 by auto. try (f_equal; lia).
  - intros i Hi. destruct (Ve i Hi) as [[A B] _]. unfold lower, upper. specialize (PB i 0%nat Hi ltac:(lia)). rewrite !O6 by lia.
    assert (D : forall p, (p < 2)%nat -> get d5 (3 * n + m + ((i * m + 0) * 2 + p)) = get d4 (3 * n + m + ((i * m + 0) * 2 + p))).
    { intros p Hp. apply O5. intros (i' & k' & Hi' & Hk' & X). assert (E : (i * m + 0 = i' * m + k')%nat) by lia.
      assert (i = i') by (apply (f_equal (fun x => x / m)%nat) in E; rewrite !Nat.div_add_l, !Nat.div_small in E by lia; lia). subst. lia. }
    pose proof (D 0%nat ltac:(lia)) as D0. rewrite Nat.add_0_r in D0. rewrite D0, (D 1%nat) by lia. replace (3 * n + m)%nat with (0 + n + 2 * n + m)%nat by lia. rewrite A, B. auto.
  - intros i Hi. destruct (Ve i Hi) as [_ [A B]]. unfold lower, upper. specialize (PB i (m - 1)%nat Hi ltac:(lia)). rewrite !O6 by lia.
    assert (D : forall p, (p < 2)%nat -> get d5 (3 * n + m + ((i * m + (m - 1)) * 2 + p)) = get d4 (3 * n + m + ((i * m + (m - 1)) * 2 + p))).
    { intros p Hp. apply O5. intros (i' & k' & Hi' & Hk' & X). assert (E : (i * m + (m - 1) = i' * m + k')%nat) by lia.
      assert (i = i') by (apply (f_equal (fun x => x / m)%nat) in E; rewrite !Nat.div_add_l, !Nat.div_small in E by lia; lia). subst. lia. }
    pose proof (D 0%nat ltac:(lia)) as D0. rewrite Nat.add_0_r in D0. rewrite D0, (D 1%nat) by lia. replace (3 * n + m)%nat with (0 + n + 2 * n + m)%nat by lia. rewrite A, B. auto.
  - intros i k Hi Hk. destruct (Vi i k Hi Hk) as (cl & cr & lo & up & A & B & C & D & F & G). exists cl, cr. split; [auto|]. split; [auto|].
    unfold lower, upper. specialize (PB i k Hi ltac:(lia)). rewrite !O6 by lia. replace (3 * n + m)%nat with (0 + n + 2 * n + m)%nat by lia. rewrite F, G. auto.
  - intros i k Hi Hk. specialize (PB i k Hi Hk). destruct (Vs (i * m + k)%nat PB) as (A & B & C & D).
    assert (LU : lower d6 n m i k = get d5 (0 + n + 2 * n + m + 2 * (i * m + k)) /\ upper d6 n m i k = get d5 (0 + n + 2 * n + m + (2 * (i * m + k) + 1))).
    { unfold lower, upper. rewrite !O6 by lia. split; f_equal; lia. }
    destruct LU as [-> ->]. unfold signed. rewrite <- A, <- B, <- C, <- D. repeat split; f_equal; lia.
Qed.

Lemma setup_bound_data zs d n m : (2 <= n)%nat -> (2 <= m)%nat -> (lob_bnd_size n m <= length d)%nat -> distinct zs n -> setup_data zs d n m -> bounds_basis d n m -> bound_data d n m.
Proof.
  intros Hn Hm HL D SD HB. constructor; auto.
  - intros i j Hi Hj. pose proof (sd_node _ _ _ _ SD i Hi) as A. pose proof (sd_node _ _ _ _ SD j Hj) as B. unfold node in *. rewrite A, B. apply D; auto.
  - rewrite (sd_point _ _ _ _ SD) by lia. apply cheb_first. auto.
  - rewrite (sd_point _ _ _ _ SD) by lia. apply cheb_last. auto.
  - intros k Hk. rewrite !(sd_point _ _ _ _ SD) by lia. apply cheb_inc. auto.
  - apply (sd_split _ _ _ _ SD).
Qed.

Lemma gll_points nn n : (2 <= n <= 24)%nat -> lobatto_points nn n (gll_list n).
Proof.
  intros Hn. split.
  - intros a Ha. destruct (nodes_fix_ok n Hn a Ha) as (z' & E & [L O] & Rg). exists z'. split.
    + unfold lobatto_nodes. rewrite table_24. destruct (Nat.ltb_spec 24 n); [lia|]. destruct (Nat.leb_spec 2 n); [auto|lia].
    + split; [auto|]. split; [intros; apply O; lia|]. intros i Hi. apply (Rg i Hi).
  - apply gll_distinct. auto.
  - intros i Hi. destruct (table_parts n Hn) as (Lt & Lg & _). unfold gll_list in *. fold (gll_table n) in *.
    assert (Lt' : length (gll_table n) = (n / 2 - 1)%nat) by (unfold gll_table; rewrite map_length; auto).
    set (l := [-1] ++ map Ropp (gll_table n) ++ (if Nat.odd n then [0] else []) ++ rev (gll_table n) ++ [1]) in *.
    assert (R : rev l = map Ropp l).
    { unfold l. rewrite !rev_app_distr, rev_involutive, !map_app, map_map. rewrite (map_ext (fun x => - - x) (fun x => x)) by (intros; apply Ropp_involutive). rewrite map_id, map_rev.
      assert (Z : rev (if Nat.odd n then [0] else []) = map Ropp (if Nat.odd n then [0] else [])) by (destruct (Nat.odd n); cbn [rev app map]; rewrite ?Ropp_0; auto).
      rewrite Z. cbn [rev app map]. replace (- -1) with 1 by lra. replace (- (1)) with (-1) by lra. rewrite <- ?app_assoc. reflexivity. }
    assert (E : nth i (rev l) 0 = nth i (map Ropp l) 0) by (rewrite R; auto). rewrite rev_nth in E by lia. rewrite Lg in E.
    rewrite (nth_indep (map Ropp l) 0 (- 0)) in E by (rewrite map_length; lia). rewrite map_nth in E. unfold get. replace (n - 1 - i)%nat with (n - S i)%nat by lia. exact E.
Qed.
