(** lob_bnd_setup. *)
From Verif Require Import Base BaseLemmas Poly PolySpec PolyProof1 PolyProof2 PolyProof3 PolyImpSyntax PolyImp PolyGll PolyGllSpec PolyImpProof PolyGllCheck PolyGllProof PolyQuad LobBnd LobBndSpec LobBndProof1 LobBndSetupProof1.
From Coq Require Import Reals Lra Psatz.
Open Scope R_scope.

Lemma basis_ext z z' n i x : (i < n)%nat -> (forall j, (j < n)%nat -> get z j = get z' j) -> basis z n i x = basis z' n i x.
Proof. intros Hi H. unfold basis. apply rprod_ext. intros j Hj. rewrite !H by auto. auto. Qed.
Lemma evaluates_ext z z' n der x p p' : (forall j, (j < n)%nat -> get z j = get z' j) -> (der <= 1)%nat -> evaluates z n der x p p' -> evaluates z' n der x p p'.
Proof.
  intros H Hd (A & B & C). split; [auto|]. split; [auto|]. intros i Hi. destruct (C i Hi) as (D & E & F). rewrite <- (basis_ext z z') by auto. split; [auto|]. split; [|lia].
  intros Hd' eps He. destruct (E Hd' eps He) as [dl Hl]. exists dl. intros h Hh Hl'. rewrite <- !(basis_ext z z') by auto. auto.
Qed.

Lemma lag_ok nn n zs : (2 <= n)%nat -> lobatto_points nn n zs -> exists lag gd (Rdy : arr -> Prop),
  gll_lag_setup nn (repeat 0 (gll_lag_size n)) n = Ok (Some lag, gd) /\ Rdy gd /\
  forall p g der x, Rdy g -> (der <= 1)%nat -> (n * (der + 1) <= length p)%nat -> exists p' g', lag p g n der x = Ok (p', g') /\ Rdy g' /\ evaluates zs n der x p p'.
Proof.
  intros Hn LP. destruct (Nat.le_gt_cases n 24) as [H|H].
  - destruct (setup_fix_ok n ltac:(lia) nn (repeat 0 (gll_lag_size n))) as (gd & E & _ & Hr).
    { rewrite repeat_length. unfold gll_lag_size. rewrite table_24. destruct (Nat.leb_spec n 24); lia. }
    eexists; exists gd, (ready_fix n). split; [exact E|]. split; [auto|]. intros p g der x Hg Hd Hp.
    destruct (eval_fix_ok n ltac:(lia) g p der x Hg ltac:(lia) Hp) as (p' & E' & Ev). exists p', g. split; [auto|]. split; [auto|].
    apply (evaluates_ext (gll_list n)); auto. intros j Hj. destruct (lp_run _ _ _ LP (repeat 0 n)) as (a & Ea & _ & _ & Va); [rewrite repeat_length; auto|].
    destruct (nodes_fix_ok n ltac:(lia) (repeat 0 n)) as (z' & Ez & _ & Rg); [rewrite repeat_length; auto|].
    unfold lobatto_nodes in Ea. rewrite table_24 in Ea. destruct (Nat.ltb_spec 24 n); [lia|]. destruct (Nat.leb_spec 2 n); [|lia]. rewrite Ez in Ea. injection Ea as <-.
    rewrite <- Va by auto. symmetry. apply (Rg j Hj).
  - assert (Ls : (gll_lag_size n = 9 * n)%nat) by (unfold gll_lag_size; rewrite table_24; destruct (Nat.leb_spec n 24); lia).
    destruct (lp_run _ _ _ LP (repeat 0 (gll_lag_size n))) as (a & Ea & La & Oa & Va); [rewrite repeat_length; lia|].
    unfold lobatto_nodes in Ea. rewrite table_24 in Ea. destruct (Nat.ltb_spec 24 n); [|lia].
    assert (D : distinct a n) by (intros i j Hi Hj; rewrite !Va by auto; apply (lp_distinct _ _ _ LP); auto).
    destruct (setup_big_ok nn (repeat 0 (gll_lag_size n)) n a) as (gd & E & _ & Hr); auto. { rewrite repeat_length. lia. }
    exists lagrange_eval, gd, (fun g => ready a g n). split; [exact E|]. split; [auto|]. intros p g der x Hg Hd Hp.
    destruct (eval_ready a g n p der x ltac:(lia) Hg D ltac:(lia) Hp) as (p' & g' & E' & Hr' & Ev). exists p', g'. split; [auto|]. split; [auto|]. apply (evaluates_ext a); auto.
Qed.

(** A loop whose i-th iteration writes at the places B i and makes Q i true. *)
Lemma block_loop2 {T} (mem : T -> arr) (J : nat -> T -> Prop) (f : T -> nat -> res T) (B : nat -> nat -> Prop) (Q : nat -> arr -> Prop) a N s0 :
  J a s0 -> (forall i i' k, (a <= i < a + N)%nat -> (a <= i' < a + N)%nat -> B i k -> B i' k -> i = i') ->
  (forall i w w', (a <= i < a + N)%nat -> Q i w -> (forall k, B i k -> get w' k = get w k) -> Q i w') ->
  (forall i s, (a <= i < a + N)%nat -> J i s -> keeps (mem s0) (mem s) (fun k => exists i', (a <= i' < i)%nat /\ B i' k) ->
     exists s', f s i = Ok s' /\ J (S i) s' /\ keeps (mem s) (mem s') (B i) /\ Q i (mem s')) ->
  exists s', foldM f (seq a N) s0 = Ok s' /\ J (a + N)%nat s' /\ keeps (mem s0) (mem s') (fun k => exists i, (a <= i < a + N)%nat /\ B i k) /\
    forall i, (a <= i < a + N)%nat -> Q i (mem s').
Proof.
  intros H0 D St. induction N as [|N IH]; intros H.
  - exists s0. cbn [seq foldM]. rewrite Nat.add_0_r. split; [auto|]. split; [auto|]. split; [apply keeps_refl|]. intros; lia.
  - destruct IH as (s & E & HJ & [KL KO] & HV). { intros i i' k Hi Hi'. apply D; lia. } { intros i w w' Hi. apply St. lia. } { intros i s Hi. apply H. lia. }
    destruct (H (a + N)%nat s) as (s' & E' & HJ' & [KL' KO'] & HV'); [lia|auto|split; auto|].
    exists s'. rewrite seq_S, foldM_snoc, E. cbn [bind]. rewrite E'. split; [auto|]. rewrite Nat.add_succ_r. split; [auto|]. split.
    + split; [congruence|]. intros k Hk. rewrite KO'; [apply KO|]; intros X; apply Hk; [destruct X as (i & Hi & X); exists i; split; [lia|auto]|exists (a + N)%nat; split; [lia|auto]].
    + intros i Hi. destruct (Nat.eq_dec i (a + N)) as [->|Hne]; [auto|]. apply (St i (mem s)); [lia|apply HV; lia|]. intros k Hk. apply KO'. intros X. apply Hne. apply (D i (a + N)%nat k); auto; lia.
Qed.

Lemma cheb_first m : (2 <= m)%nat -> cheb m 0 = -1.
Proof. intros Hm. unfold cheb. rewrite Nat.sub_0_r. replace (INR (m - 1) * PI / INR (m - 1)) with PI; [apply cos_PI|]. field. apply not_0_INR. lia. Qed.
Lemma cheb_last m : (2 <= m)%nat -> cheb m (m - 1) = 1.
Proof. intros Hm. unfold cheb. rewrite Nat.sub_diag. cbn [INR]. unfold Rdiv. rewrite !Rmult_0_l. apply cos_0. Qed.
Lemma cheb_inc m k : (k + 1 < m)%nat -> cheb m k < cheb m (k + 1).
Proof.
  intros Hk. unfold cheb. pose proof PI_RGT_0 as HP. assert (H0 : 0 < INR (m - 1)) by (apply lt_0_INR; lia).
  assert (A : INR (m - 1 - (k + 1)) < INR (m - 1 - k)) by (apply lt_INR; lia).
  assert (B : INR (m - 1 - k) <= INR (m - 1)) by (apply le_INR; lia). pose proof (pos_INR (m - 1 - (k + 1))) as C.
  assert (I : 0 < / INR (m - 1)) by (apply Rinv_0_lt_compat; auto).
  assert (X : forall y, INR y * PI / INR (m - 1) = PI * (INR y * / INR (m - 1))) by (intros; unfold Rdiv; ring).
  rewrite !X. assert (Y : INR (m - 1 - k) * / INR (m - 1) <= 1) by (apply (Rmult_le_reg_r (INR (m - 1))); [auto|]; rewrite Rmult_assoc, Rinv_l by lra; lra).
  assert (Z : 0 <= INR (m - 1 - (k + 1)) * / INR (m - 1)) by (apply Rmult_le_pos; lra).
  assert (W : INR (m - 1 - (k + 1)) * / INR (m - 1) < INR (m - 1 - k) * / INR (m - 1)) by (apply Rmult_lt_compat_r; auto).
  apply cos_decreasing_1; nra.
Qed.

Section Setup.
Variable nn : arr -> nat -> res arr.
Variable n m : nat.
Variable zs : arr.
Hypothesis Hn : (2 <= n)%nat.
Hypothesis Hm : (2 <= m)%nat.
Hypothesis LP : lobatto_points nn n zs.

(** The Chebyshev points. *)
Lemma points_ok (data : arr) h : (h + m <= length data)%nat ->
  exists data', foldM (fun data j => wr data (h + j) (cos (INR (m - 1 - j) * PI / INR (m - 1)))) (seq 1 (m - 2)) (upd (upd data h (-1)) (h + (m - 1)) 1) = Ok data' /\
    keeps data data' (rng h m) /\ forall k, (k < m)%nat -> get data' (h + k) = cheb m k.
Proof.
  intros HL. destruct (upd2_get data h (h + (m - 1)) (-1) 1) as (A & B & KL & KO); [lia|lia|lia|]. set (d1 := upd (upd data h (-1)) (h + (m - 1)) 1) in *.
  destruct (block_loop (fun s : arr => s) (fun _ _ => True) (fun data j => wr data (h + j) (cos (INR (m - 1 - j) * PI / INR (m - 1)))) (fun j k => k = (h + j)%nat) (fun j _ => cheb m j) 1 (m - 2) d1)
    as (d2 & E & _ & [KL2 KO2] & V).
  - auto.
  - intros; lia.
  - intros i s Hi _ [KL' _]. rewrite wr_get by lia. eexists. split; [reflexivity|]. split; [auto|]. split; [apply keeps_upd; auto|]. intros k ->. rewrite get_upd, Nat.eqb_refl by lia. auto.
  - exists d2. split; [exact E|]. split.
    + split; [congruence|]. intros k Hk. unfold rng in Hk. rewrite KO2; [apply KO; lia|]. intros (i & Hi & X). lia.
    + intros k Hk. destruct (Nat.eq_dec k 0) as [->|]; [|destruct (Nat.eq_dec k (m - 1)) as [->|]].
      * rewrite cheb_first by auto. rewrite Nat.add_0_r. rewrite KO2; [auto|]. intros (i & Hi & X). lia.
      * rewrite cheb_last by auto. rewrite KO2; [auto|]. intros (i & Hi & X). lia.
      * apply (V k); lia.
Qed.

Let pairplace lb i k c := c = (lb + (i * m + k) * 2)%nat \/ c = (lb + ((i * m + k) * 2 + 1))%nat.
Lemma pairplace_inj lb i k i' k' c : pairplace lb i k c -> pairplace lb i' k' c -> (k < m)%nat -> (k' < m)%nat -> i = i' /\ k = k'.
Proof.
  unfold pairplace. intros H H' Hk Hk'. assert (E : (i * m + k = i' * m + k')%nat) by lia.
  assert (i = i') by (apply (f_equal (fun x => x / m)%nat) in E; rewrite !Nat.div_add_l, !Nat.div_small in E by lia; lia). subst. lia.
Qed.

(** The bounds at the ends. *)
Definition end0 (i : nat) : R := if (i =? 0)%nat then 1 else 0.
Definition end1 (i : nat) : R := if (i =? n - 1)%nat then 1 else 0.
Definition pair (d : arr) lb i k lo up : Prop := get d (lb + (i * m + k) * 2) = lo /\ get d (lb + ((i * m + k) * 2 + 1)) = up.
Lemma pair_place i k : (i < n)%nat -> (k < m)%nat -> (i * m + k < n * m)%nat.
Proof. nia. Qed.
Lemma ends_ok (data : arr) lb : (lb + 2 * (n * m) <= length data)%nat ->
  exists data', foldM (fun data i =>
      let v := if (i =? 0)%nat then 1 else 0 in
      data <- wr data (lb + (i * m + 0) * 2) v ;;
      data <- wr data (lb + ((i * m + 0) * 2 + 1)) v ;;
      let v := if (i =? n - 1)%nat then 1 else 0 in
      data <- wr data (lb + (i * m + (m - 1)) * 2) v ;;
      wr data (lb + ((i * m + (m - 1)) * 2 + 1)) v) (seq 0 n) data = Ok data' /\ keeps data data' (rng lb (2 * (n * m))) /\
    forall i, (i < n)%nat -> pair data' lb i 0 (end0 i) (end0 i) /\ pair data' lb i (m - 1) (end1 i) (end1 i).
Proof.
  intros HL. lazymatch goal with |- context [foldM ?f (seq 0 n) data] =>
    destruct (block_loop2 (fun s : arr => s) (fun _ _ => True) f (fun i k => pairplace lb i 0 k \/ pairplace lb i (m - 1) k)
      (fun i w => pair w lb i 0 (end0 i) (end0 i) /\ pair w lb i (m - 1) (end1 i) (end1 i)) 0 n data) as (d' & E & _ & [KL KO] & V) end.
  - auto.
  - intros i i' k Hi Hi' [H|H] [H'|H']; destruct (pairplace_inj _ _ _ _ _ _ H H'); auto; lia.
  - intros i w w' Hi [[A B] [C D]] H. unfold pair. rewrite !H by (unfold pairplace; auto). auto.
  - intros i s Hi _ [KL _]. pose proof (pair_place i 0 ltac:(lia) ltac:(lia)). pose proof (pair_place i (m - 1) ltac:(lia) ltac:(lia)). cbv zeta.
    rewrite wr_get by lia. cbn [bind]. rewrite wr_get by (rewrite upd_length'; lia). cbn [bind].
    destruct (upd2_get s (lb + (i * m + 0) * 2) (lb + ((i * m + 0) * 2 + 1)) (end0 i) (end0 i)) as (A & B & KL1 & KO1); [lia|lia|lia|].
    fold (end0 i) (end1 i). set (s1 := upd (upd s (lb + (i * m + 0) * 2) (end0 i)) (lb + ((i * m + 0) * 2 + 1)) (end0 i)) in *.
    rewrite wr_get by lia. cbn [bind]. rewrite wr_get by (rewrite upd_length'; lia).
    destruct (upd2_get s1 (lb + (i * m + (m - 1)) * 2) (lb + ((i * m + (m - 1)) * 2 + 1)) (end1 i) (end1 i)) as (A' & B' & KL2 & KO2); [lia|lia|lia|].
    eexists. split; [reflexivity|]. split; [auto|]. split; [split|].
    + congruence.
    + intros k Hk. unfold pairplace in Hk. rewrite KO2 by lia. apply KO1. lia.
    + unfold pair. rewrite !(KO2 (lb + (i * m + 0) * 2))%nat, !(KO2 (lb + ((i * m + 0) * 2 + 1)))%nat by lia. auto.
  - exists d'. split; [exact E|]. split; [|intros; apply V; lia]. split; [auto|]. intros k Hk. apply KO. intros (i & Hi & X). apply Hk.
    unfold rng, pairplace in *. pose proof (pair_place i 0 ltac:(lia) ltac:(lia)). pose proof (pair_place i (m - 1) ltac:(lia) ltac:(lia)). lia.
Qed.

(** The bounds at an inner point. *)
Definition inner_ok (d : arr) lb i k : Prop := exists cl cr lo up,
  tangent_value (basis zs n i) (middle m (k - 1)) (cheb m k) cl /\ tangent_value (basis zs n i) (middle m k) (cheb m k) cr /\
  lo = Rmin (Rmin cl cr) (basis zs n i (cheb m k)) /\ up = Rmax (Rmax cl cr) (basis zs n i (cheb m k)) /\ pair d lb i k lo up.
(** pl holds the values and derivatives at x. *)
Definition holds (p : arr) (x : R) : Prop := (2 * n <= length p)%nat /\ forall i, (i < n)%nat -> get p i = basis zs n i x /\ derivable_pt_lim (basis zs n i) x (get p (n + i)).
Lemma inner_row_ok (data pl pr p : arr) lb j x xl xr : (lb + 2 * (n * m) <= length data)%nat -> (0 < j < m - 1)%nat ->
  holds pl xl -> holds pr xr -> (n <= length p)%nat -> (forall i, (i < n)%nat -> get p i = basis zs n i x) ->
  x = cheb m j -> xl = middle m (j - 1) -> xr = middle m j ->
  exists data', foldM (fun data i =>
          pli <- rd pl i ;; dli <- rd pl (n + i) ;;
          pri <- rd pr i ;; dri <- rd pr (n + i) ;; pi <- rd p i ;;
          let cl := pli + (x - xl) * dli in
          let cr := pri + (x - xr) * dri in
          let '(lo, up) := if Rlt_dec cl cr then (cl, cr) else (cr, cl) in
          let lo := if Rlt_dec pi lo then pi else lo in
          let up := if Rlt_dec up pi then pi else up in
          data <- wr data (lb + (i * m + j) * 2) lo ;;
          wr data (lb + ((i * m + j) * 2 + 1)) up) (seq 0 n) data = Ok data' /\
    keeps data data' (fun c => exists i, (i < n)%nat /\ pairplace lb i j c) /\ forall i, (i < n)%nat -> inner_ok data' lb i j.
Proof.
  intros HL Hj [Ll Pl] [Lr Pr] Lp Pp Ex Exl Exr. lazymatch goal with |- context [foldM ?f (seq 0 n) data] =>
    destruct (block_loop2 (fun s : arr => s) (fun _ _ => True) f (fun i k => pairplace lb i j k) (fun i w => inner_ok w lb i j) 0 n data) as (d' & E & _ & [KL KO] & V) end.
  - auto.
  - intros i i' k Hi Hi' H H'; destruct (pairplace_inj _ _ _ _ _ _ H H'); auto; lia.
  - intros i w w' Hi (cl & cr & lo & up & A & B & C & D & F & G) H. exists cl, cr, lo, up. unfold pair. rewrite !H by (unfold pairplace; auto). auto 6.
  - intros i s Hi _ [KL _]. pose proof (pair_place i j ltac:(lia) ltac:(lia)).
    rewrite !rd_get by lia. cbn [bind]. cbv zeta. destruct (Pl i) as [A1 A2]; [lia|]. destruct (Pr i) as [B1 B2]; [lia|]. rewrite (Pp i) by lia. rewrite A1, B1.
    set (cl := basis zs n i xl + (x - xl) * get pl (n + i)). set (cr := basis zs n i xr + (x - xr) * get pr (n + i)). set (pi := basis zs n i x).
    assert (G : (let '(lo, up) := if Rlt_dec cl cr then (cl, cr) else (cr, cl) in
          data <- wr s (lb + (i * m + j) * 2) (if Rlt_dec pi lo then pi else lo) ;;
          wr data (lb + ((i * m + j) * 2 + 1)) (if Rlt_dec up pi then pi else up)) =
      Ok (upd (upd s (lb + (i * m + j) * 2) (Rmin (Rmin cl cr) pi)) (lb + ((i * m + j) * 2 + 1)) (Rmax (Rmax cl cr) pi))).
    { assert (X : forall a b, Rmin a b = if Rlt_dec b a then b else a) by (intros a b; unfold Rmin; destruct (Rle_dec a b), (Rlt_dec b a); lra).
      assert (Y : forall a b, Rmax a b = if Rlt_dec a b then b else a) by (intros a b; unfold Rmax; destruct (Rle_dec a b), (Rlt_dec a b); lra).
      rewrite !X, !Y. destruct (Rlt_dec cl cr), (Rlt_dec cr cl); try lra.
      - rewrite wr_get by lia. cbn [bind]. rewrite wr_get by (rewrite upd_length'; lia). auto.
      - rewrite wr_get by lia. cbn [bind]. rewrite wr_get by (rewrite upd_length'; lia). auto.
      - assert (cl = cr) as <- by lra. rewrite wr_get by lia. cbn [bind]. rewrite wr_get by (rewrite upd_length'; lia). auto. }
    rewrite G. eexists. split; [reflexivity|]. split; [auto|].
    destruct (upd2_get s (lb + (i * m + j) * 2) (lb + ((i * m + j) * 2 + 1)) (Rmin (Rmin cl cr) pi) (Rmax (Rmax cl cr) pi)) as (A & B & K); [lia|lia|lia|]. split; [exact K|].
    exists cl, cr, (Rmin (Rmin cl cr) pi), (Rmax (Rmax cl cr) pi). subst pi. rewrite <- Ex, <- Exl, <- Exr. split; [|split; [|split; [auto|split; [auto|split; auto]]]].
    + exists (get pl (n + i)). auto.
    + exists (get pr (n + i)). auto.
  - exists d'. split; [exact E|]. split; [|intros; apply V; lia]. split; [auto|]. intros k Hk. apply KO. intros (i & Hi & X). apply Hk. exists i. split; [lia|auto].
Qed.

(** All inner points. *)
Lemma inner_all_ok lag (Rdy : arr -> Prop) (data pl gd : arr) h lb :
  (forall p g der x, Rdy g -> (der <= 1)%nat -> (n * (der + 1) <= length p)%nat -> exists p' g', lag p g n der x = Ok (p', g') /\ Rdy g' /\ evaluates zs n der x p p') ->
  Rdy gd -> (h + m <= lb)%nat -> (lb + 2 * (n * m) <= length data)%nat -> (forall k, (k < m)%nat -> get data (h + k) = cheb m k) -> holds pl (middle m 0) ->
  exists data' r1 r2 r3 r4, foldM (fun '(data, pl, pr, p, gll_data) j =>
      x <- rd data (h + j) ;;
      hl <- rd data (h + (j - 1)) ;; hr <- rd data (h + (j + 1)) ;;
      let xl := (x + hl) / 2 in let xr := (x + hr) / 2 in
      '(pr, gll_data) <- lag pr gll_data n 1%nat xr ;;
      '(p, gll_data) <- lag p gll_data n 0%nat x ;;
      data <- foldM (fun data i =>
          pli <- rd pl i ;; dli <- rd pl (n + i) ;;
          pri <- rd pr i ;; dri <- rd pr (n + i) ;; pi <- rd p i ;;
          let cl := pli + (x - xl) * dli in
          let cr := pri + (x - xr) * dri in
          let '(lo, up) := if Rlt_dec cl cr then (cl, cr) else (cr, cl) in
          let lo := if Rlt_dec pi lo then pi else lo in
          let up := if Rlt_dec up pi then pi else up in
          data <- wr data (lb + (i * m + j) * 2) lo ;;
          wr data (lb + ((i * m + j) * 2 + 1)) up) (seq 0 n) data ;;
      Ok (data, pr, pr, p, gll_data)) (seq 1 (m - 2)) (data, pl, repeat 0 (2 * n), repeat 0 n, gd) = Ok (data', r1, r2, r3, r4) /\
    keeps data data' (fun c => exists i k, (i < n)%nat /\ (0 < k < m - 1)%nat /\ pairplace lb i k c) /\
    forall i k, (i < n)%nat -> (0 < k < m - 1)%nat -> inner_ok data' lb i k.
Proof.
  intros HG Hg Hh HL Hp Hpl. lazymatch goal with |- context [foldM ?f (seq 1 (m - 2)) ?s0] =>
    destruct (block_loop2 (fun s : arr * arr * arr * arr * arr => fst (fst (fst (fst s))))
      (fun j s => holds (snd (fst (fst (fst s)))) (middle m (j - 1)) /\ (2 * n <= length (snd (fst (fst s))))%nat /\ (n <= length (snd (fst s)))%nat /\ Rdy (snd s)) f
      (fun k c => exists i, (i < n)%nat /\ pairplace lb i k c) (fun k w => forall i, (i < n)%nat -> inner_ok w lb i k) 1 (m - 2) s0) as ([[[[d' r1] r2] r3] r4] & E & _ & [KL KO] & V) end.
  - cbn [fst snd]. rewrite !repeat_length. auto.
  - intros k k' c Hk Hk' (i & Hi & H) (i' & Hi' & H'). destruct (pairplace_inj _ _ _ _ _ _ H H'); auto; lia.
  - intros k w w' Hk H Hc i Hi. destruct (H i Hi) as (cl & cr & lo & up & A & B & C & D & F & G). exists cl, cr, lo, up. unfold pair. rewrite !Hc by (exists i; unfold pairplace; auto). auto 6.
  - intros k [[[[d q1] q2] q3] q4] Hk (J1 & J2 & J3 & J4) [KL KO]. cbn [fst snd] in *.
    assert (Hd : forall c, (c < m)%nat -> get d (h + c) = cheb m c).
    { intros c Hc. rewrite KO; [auto|]. intros (k' & Hk' & i & Hi & X). unfold pairplace in X. lia. }
    rewrite !rd_get by lia. cbn [bind]. cbv zeta. rewrite !Hd by lia.
    destruct (HG q2 q4 1%nat ((cheb m k + cheb m (k + 1)) / 2)) as (q2' & g1 & E1 & G1 & (Lq & _ & V1)); [auto|lia|lia|]. rewrite E1. cbn [bind].
    destruct (HG q3 g1 0%nat (cheb m k)) as (q3' & g2 & E2 & G2 & (Lq3 & _ & V2)); [auto|lia|lia|]. rewrite E2. cbn [bind].
    assert (Hq2 : holds q2' ((cheb m k + cheb m (k + 1)) / 2)) by (split; [lia|]; intros i Hi; destruct (V1 i Hi) as (A & B & _); auto).
    assert (M : (cheb m k + cheb m (k - 1)) / 2 = middle m (k - 1)) by (unfold middle; replace (k - 1 + 1)%nat with k by lia; lra). rewrite M.
    destruct (inner_row_ok d q1 q2' q3' lb k (cheb m k) (middle m (k - 1)) ((cheb m k + cheb m (k + 1)) / 2)) as (d' & E3 & K3 & I3); auto; try lia.
    { intros i Hi. apply (V2 i Hi). }
    cbv zeta in E3. rewrite E3. cbn [bind]. eexists. split; [reflexivity|]. cbn [fst snd]. split; [|split; [exact K3|exact I3]].
    split; [|split; [lia|split; [lia|auto]]]. replace (S k - 1)%nat with k by lia. exact Hq2.
  - cbn [fst snd] in *. exists d', r1, r2, r3, r4. split; [exact E|]. split; [|intros i k Hi Hk; apply V; [lia|auto]]. split; [auto|].
    intros c Hc. apply KO. intros (k & Hk & i & Hi & X). apply Hc. exists i, k. split; [auto|]. split; [lia|auto].
Qed.

(** The signed parts. *)
Lemma signed_ok (data : arr) lb lbnp nm : (lb + 2 * nm <= lbnp)%nat -> (lbnp + 4 * nm <= length data)%nat ->
  exists data', foldM (fun data i =>
      data <- wr data (lbnp + 4 * i) 0 ;; data <- wr data (lbnp + (4 * i + 1)) 0 ;;
      data <- wr data (lbnp + (4 * i + 2)) 0 ;; data <- wr data (lbnp + (4 * i + 3)) 0 ;;
      f <- rd data (lb + 2 * i) ;;
      data <- (if Rlt_dec f 0 then wr data (lbnp + 4 * i) f else wr data (lbnp + (4 * i + 1)) f) ;;
      f <- rd data (lb + (2 * i + 1)) ;;
      if Rlt_dec f 0 then wr data (lbnp + (4 * i + 2)) f else wr data (lbnp + (4 * i + 3)) f) (seq 0 nm) data = Ok data' /\
    keeps data data' (rng lbnp (4 * nm)) /\
    forall i, (i < nm)%nat -> get data' (lbnp + 4 * i) = Rmin (get data (lb + 2 * i)) 0 /\ get data' (lbnp + (4 * i + 1)) = Rmax (get data (lb + 2 * i)) 0 /\
      get data' (lbnp + (4 * i + 2)) = Rmin (get data (lb + (2 * i + 1))) 0 /\ get data' (lbnp + (4 * i + 3)) = Rmax (get data (lb + (2 * i + 1))) 0.
Proof.
  intros H1 H2. lazymatch goal with |- context [foldM ?f (seq 0 nm) data] =>
    destruct (block_loop2 (fun s : arr => s) (fun _ _ => True) f (fun i k => rng (lbnp + 4 * i) 4 k)
      (fun i w => get w (lbnp + 4 * i) = Rmin (get data (lb + 2 * i)) 0 /\ get w (lbnp + (4 * i + 1)) = Rmax (get data (lb + 2 * i)) 0 /\
      get w (lbnp + (4 * i + 2)) = Rmin (get data (lb + (2 * i + 1))) 0 /\ get w (lbnp + (4 * i + 3)) = Rmax (get data (lb + (2 * i + 1))) 0) 0 nm data) as (d' & E & _ & [KL KO] & V) end.
  - auto.
  - unfold rng. intros. lia.
  - intros i w w' Hi V H. unfold rng in H. rewrite !H by lia. auto.
  - intros i s Hi _ [KL KO]. rewrite wr_get by lia. cbn [bind]. rewrite wr_get by (rewrite !upd_length'; lia). cbn [bind].
    rewrite wr_get by (rewrite !upd_length'; lia). cbn [bind]. rewrite wr_get by (rewrite !upd_length'; lia). cbn [bind].
    set (s1 := upd (upd (upd (upd s (lbnp + 4 * i) 0) (lbnp + (4 * i + 1)) 0) (lbnp + (4 * i + 2)) 0) (lbnp + (4 * i + 3)) 0).
    assert (L1 : length s1 = length data) by (unfold s1; rewrite !upd_length'; auto).
    assert (V1 : forall k, get s1 k = if ((lbnp + 4 * i <=? k) && (k <? lbnp + 4 * i + 4))%nat then 0 else get s k).
    { intros k. unfold s1. rewrite !get_upd by (rewrite ?upd_length'; lia).
      destruct (Nat.eqb_spec k (lbnp + (4 * i + 3))), (Nat.eqb_spec k (lbnp + (4 * i + 2))), (Nat.eqb_spec k (lbnp + (4 * i + 1))), (Nat.eqb_spec k (lbnp + 4 * i)), (Nat.leb_spec (lbnp + 4 * i) k), (Nat.ltb_spec k (lbnp + 4 * i + 4)); cbn [andb]; try lia; auto. }
    rewrite rd_get by lia. cbn [bind].
    assert (F0 : get s1 (lb + 2 * i) = get data (lb + 2 * i)). { rewrite V1. destruct (Nat.leb_spec (lbnp + 4 * i) (lb + 2 * i)); cbn [andb]; [lia|]. apply KO. intros (i' & Hi' & X). unfold rng in X. lia. }
    assert (F1 : get s1 (lb + (2 * i + 1)) = get data (lb + (2 * i + 1))). { rewrite V1. destruct (Nat.leb_spec (lbnp + 4 * i) (lb + (2 * i + 1))); cbn [andb]; [lia|]. apply KO. intros (i' & Hi' & X). unfold rng in X. lia. }
    rewrite F0. set (p := (if Rlt_dec (get data (lb + 2 * i)) 0 then lbnp + 4 * i else lbnp + (4 * i + 1))%nat).
    assert (E1 : (if Rlt_dec (get data (lb + 2 * i)) 0 then wr s1 (lbnp + 4 * i) (get data (lb + 2 * i)) else wr s1 (lbnp + (4 * i + 1)) (get data (lb + 2 * i))) = Ok (upd s1 p (get data (lb + 2 * i)))).
    { unfold p. destruct (Rlt_dec _ _); apply wr_get; lia. }
    assert (Hp : (lbnp + 4 * i <= p <= lbnp + 4 * i + 1)%nat) by (unfold p; destruct (Rlt_dec _ _); lia).
    rewrite E1. cbn [bind]. rewrite rd_get by (rewrite upd_length'; lia). cbn [bind]. rewrite get_upd by lia. destruct (Nat.eqb_spec (lb + (2 * i + 1)) p); [lia|]. rewrite F1.
    set (q := (if Rlt_dec (get data (lb + (2 * i + 1))) 0 then lbnp + (4 * i + 2) else lbnp + (4 * i + 3))%nat).
    assert (E2 : (if Rlt_dec (get data (lb + (2 * i + 1))) 0 then wr (upd s1 p (get data (lb + 2 * i))) (lbnp + (4 * i + 2)) (get data (lb + (2 * i + 1))) else wr (upd s1 p (get data (lb + 2 * i))) (lbnp + (4 * i + 3)) (get data (lb + (2 * i + 1)))) = Ok (upd (upd s1 p (get data (lb + 2 * i))) q (get data (lb + (2 * i + 1))))).
    { unfold q. destruct (Rlt_dec (get data (lb + (2 * i + 1))) 0); apply wr_get; rewrite upd_length'; lia. }
    assert (Hq : (lbnp + 4 * i + 2 <= q <= lbnp + 4 * i + 3)%nat) by (unfold q; clear; destruct (Rlt_dec (get data (lb + (2 * i + 1))) 0); lia).
    rewrite E2. eexists. split; [reflexivity|]. split; [auto|]. split; [split|].
    + rewrite !upd_length'. lia.
    + intros k Hk. unfold rng in Hk. rewrite !get_upd by (rewrite ?upd_length'; lia). destruct (Nat.eqb_spec k q); [lia|]. destruct (Nat.eqb_spec k p); [lia|]. rewrite V1.
      destruct (Nat.leb_spec (lbnp + 4 * i) k), (Nat.ltb_spec k (lbnp + 4 * i + 4)); cbn [andb]; try lia; auto.
    + rewrite !get_upd by (rewrite ?upd_length'; lia).
      assert (Z : forall k, (lbnp + 4 * i <= k < lbnp + 4 * i + 4)%nat -> get s1 k = 0). { intros k Hk. rewrite V1. destruct (Nat.leb_spec (lbnp + 4 * i) k), (Nat.ltb_spec k (lbnp + 4 * i + 4)); cbn [andb]; try lia; auto. }
      rewrite !Z by lia. unfold p, q, Rmin, Rmax. clear - H1.
      destruct (Rlt_dec (get data (lb + 2 * i)) 0), (Rlt_dec (get data (lb + (2 * i + 1))) 0), (Rle_dec (get data (lb + 2 * i)) 0), (Rle_dec (get data (lb + (2 * i + 1))) 0);
        repeat match goal with |- context [Nat.eqb ?a ?b] => destruct (Nat.eqb_spec a b); try lia end; repeat split; lra.
  - exists d'. split; [exact E|]. split; [|intros; apply V; lia]. split; [auto|]. intros k Hk. apply KO. intros (i & Hi & X). apply Hk. unfold rng in *. lia.
Qed.
End Setup.
