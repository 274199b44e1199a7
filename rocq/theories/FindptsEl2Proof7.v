(** findpts_el_setup_2, findpts_el_start_2 and findpts_el_eval_2. *)
From Verif Require Import Base BaseLemmas Tensor TensorSpec TensorProof Poly PolySpec PolyProof1 PolyProof2 PolyProof3 PolyGll PolyGllSpec PolyGllProof LobBndSpec LobBndSetupProof3 LobBndValid3 FindptsEl2 FindptsEl2Spec FindptsEl2Proof1 FindptsEl2Proof2 FindptsEl2Proof3 FindptsEl2Proof4 FindptsEl2Proof5 FindptsEl2Proof6.
From Coq Require Import Reals Lra Psatz NArith.
Open Scope R_scope.

Lemma gll_el_points nn n : (2 <= n <= 24)%nat -> el_points nn n (gll_list n).
Proof.
  intros Hn. destruct (gll_ends n Hn) as [A B]. assert (Hn' : (2 <= n <= 24)%nat) by auto. destruct (table_parts n Hn') as (_ & _ & _ & Inc & _).
  constructor; [lia|apply gll_points; auto|auto|auto|]. intros i Hi.
  assert (M : forall j i, (i + j < n)%nat -> get (gll_list n) i <= get (gll_list n) (i + j)).
  { induction j as [|j IH]; intros k Hk; [rewrite Nat.add_0_r; lra|]. pose proof (IH k ltac:(lia)). replace (k + S j)%nat with (S (k + j)) by lia. pose proof (Inc (k + j)%nat ltac:(lia)). lra. }
  pose proof (M i 0%nat ltac:(lia)) as M0. pose proof (M (n - 1 - i)%nat i ltac:(lia)) as M1. replace (i + (n - 1 - i))%nat with (n - 1)%nat in M1 by lia. cbn [Nat.add] in M0. lra.
Qed.

Lemma zeros_ok m : forall k (w : arr), (k + m <= length w)%nat -> exists w', foldM (fun w i => wr w i 0) (seq k m) w = Ok w' /\ length w' = length w /\
  forall i, get w' i = if andb (k <=? i)%nat (i <? k + m)%nat then 0 else get w i.
Proof.
  induction m as [|m IH]; intros k w H; cbn [seq foldM].
  - exists w. split; [auto|]. split; [auto|]. intros i. destruct (Nat.leb_spec k i), (Nat.ltb_spec i (k + 0)); cbn; auto; lia.
  - rewrite wr_ok by lia. cbn [bind]. destruct (IH (S k) (upd w k 0)) as (w' & E & L & V); [rewrite upd_length; lia|]. exists w'. split; [auto|]. split; [rewrite L, upd_length; auto|].
    intros i. rewrite V. change (get (upd w k 0) i) with (ent (upd w k 0) i). rewrite ent_upd by lia. change (ent w i) with (get w i).
    destruct (Nat.leb_spec (S k) i), (Nat.ltb_spec i (S k + m)), (Nat.leb_spec k i), (Nat.ltb_spec i (k + S m)), (Nat.eqb_spec i k); cbn [andb]; auto; lia.
Qed.
Lemma setup_dir_ok nn n zs : el_points nn n zs -> exists z f data w Q, setup_dir nn n = Ok (z, f, data, w) /\ length z = n /\ (forall i, (i < n)%nat -> get z i = get zs i) /\
  fit f n zs Q /\ Q data /\ length w = (6 * n)%nat /\ forall j k a, (j < 2)%nat -> (k <= 2)%nat -> (a < n)%nat -> get w (3 * j * n + k * n + a) = bas zs n k a (side_r j).
Proof.
  intros [Hn LP Zf Zl Zi]. unfold setup_dir. destruct (lp_run _ _ _ LP (repeat 0 n)) as (z & Ez & Lz & _ & Vz); [rewrite repeat_length; auto|]. rewrite Ez. cbn [bind]. rewrite repeat_length in Lz.
  destruct (lag_fit nn n zs (repeat 0 (gll_lag_size n)) Hn LP) as (f & gd & Q & Es & F & Qg); [rewrite repeat_length; auto|]. rewrite Es. cbn [bind].
  destruct (F gd (repeat 0 (3 * n)) 2%nat (-1) Qg ltac:(lia)) as (wa & d1 & Ea & Q1 & Va); [rewrite repeat_length; lia|]. rewrite Ea. cbn [bind].
  destruct (F d1 (repeat 0 (3 * n)) 2%nat 1 Q1 ltac:(lia)) as (wb & d2 & Eb & Q2 & Vb); [rewrite repeat_length; lia|]. rewrite Eb. cbn [bind].
  pose proof (lp_distinct _ _ _ LP) as Dz.
  assert (La : length wa = (3 * n)%nat) by (destruct Va as [L _]; rewrite L, repeat_length; auto). assert (Lb : length wb = (3 * n)%nat) by (destruct Vb as [L _]; rewrite L, repeat_length; auto).
  rewrite wr_ok by lia. cbn [bind]. destruct (zeros_ok (n - 1) 1 (upd wa 0 1)) as (wa' & E1 & L1 & V1); [rewrite upd_length; lia|]. rewrite E1. cbn [bind].
  destruct (zeros_ok (n - 1) 0 wb) as (wb' & E2 & L2 & V2); [lia|]. rewrite E2. cbn [bind]. rewrite wr_ok by lia. cbn [bind].
  rewrite upd_length in L1.
  exists z, f, d2, (wa' ++ upd wb' (n - 1) 1), Q. split; [auto|]. split; [auto|]. split; [auto|]. split; [auto|]. split; [auto|]. split; [rewrite app_length, upd_length; lia|].
  intros j k a Hj Hk Ha. unfold PolySpec.get. destruct j as [|[|j]]; [| |lia].
  - rewrite app_nth1 by (rewrite L1, La; nia). replace (3 * 0 * n + k * n + a)%nat with (k * n + a)%nat by lia. fold (get wa' (k * n + a)). rewrite V1.
    change (get (upd wa 0 1) (k * n + a)) with (ent (upd wa 0 1) (k * n + a)). rewrite ent_upd by lia. change (ent wa (k * n + a)) with (get wa (k * n + a)). change (side_r 0) with (-1).
    destruct k as [|k].
    + cbn [bas]. rewrite <- Zf, basis_node_ by (auto; lia). cbn [Nat.mul Nat.add]. destruct (Nat.leb_spec 1 a), (Nat.ltb_spec a (S (n - 1))), (Nat.eqb_spec a 0), (Nat.eqb_spec 0 a); cbn [andb]; auto; lia.
    + rewrite (evaluates_bas zs n 2 (-1) (repeat 0 (3 * n)) wa) by (auto; lia). destruct (Nat.ltb_spec (S k * n + a) (1 + (n - 1))); [nia|]. rewrite andb_false_r. destruct (Nat.eqb_spec (S k * n + a) 0); [nia|auto].
  - rewrite app_nth2 by (rewrite L1, La; nia). rewrite L1, La. replace (3 * 1 * n + k * n + a - 3 * n)%nat with (k * n + a)%nat by lia. change (nth (k * n + a) (upd wb' (n - 1) 1) 0) with (ent (upd wb' (n - 1) 1) (k * n + a)).
    rewrite ent_upd by lia. change (ent wb' (k * n + a)) with (get wb' (k * n + a)). rewrite V2. change (side_r 1) with 1.
    destruct k as [|k].
    + cbn [bas]. rewrite <- Zl, basis_node_ by (auto; lia). cbn [Nat.mul Nat.add]. destruct (Nat.leb_spec 0 a), (Nat.ltb_spec a (n - 1)), (Nat.eqb_spec a (n - 1)), (Nat.eqb_spec (n - 1) a); cbn [andb]; auto; lia.
    + rewrite (evaluates_bas zs n 2 1 (repeat 0 (3 * n)) wb) by (auto; lia). destruct (Nat.ltb_spec (S k * n + a) (0 + (n - 1))); [nia|]. rewrite andb_false_r. destruct (Nat.eqb_spec (S k * n + a) (n - 1)); [nia|auto].
Qed.

Definition pair2 {A} (a b : A) (d : nat) : A := if (d =? 0)%nat then a else b.
Lemma setup_ok nn nr ns z0 z1 npt (x0 x1 : arr) : el_points nn nr z0 -> el_points nn ns z1 -> (nr * ns <= length x0)%nat -> (nr * ns <= length x1)%nat ->
  exists fd s Qd, findpts_el_setup_2 nn nr ns npt [x0; x1] = Ok (fd, s) /\ npt_max fd = npt /\ FindptsEl2.nn fd 0 = nr /\ FindptsEl2.nn fd 1 = ns /\ ux fd = [x0; x1] /\
    (forall d, (d < 2)%nat -> elem_dir fd (pair2 z0 z1) Qd d) /\ good_st fd (pair2 z0 z1) Qd s.
Proof.
  intros P0 P1 L0 L1. destruct (setup_dir_ok nn nr z0 P0) as (a0 & f0 & d0 & w0 & Q0 & E0 & A1 & A2 & A3 & A4 & A5 & A6). destruct (setup_dir_ok nn ns z1 P1) as (b0 & g0 & e0 & v0 & R0 & F0 & B1 & B2 & B3 & B4 & B5 & B6).
  unfold findpts_el_setup_2. rewrite E0. cbn [bind]. rewrite F0. cbn [bind]. eexists; eexists; exists (pair2 Q0 R0). split; [reflexivity|]. split; [auto|]. split; [auto|]. split; [auto|]. split; [auto|]. split.
  - intros d Hd. destruct d as [|[|d]]; [| |lia].
    + destruct P0 as [? LP ? ? ?]. constructor; cbn; auto. apply (lp_distinct _ _ _ LP).
    + destruct P1 as [? LP ? ? ?]. constructor; cbn; auto. apply (lp_distinct _ _ _ LP).
  - constructor; cbn [lag_data side_init edges pts]; auto.
    + intros d Hd. destruct d as [|[|d]]; [auto|auto|lia].
    + intros dn j _ _ H. exfalso. apply H. reflexivity.
    + intros j i _ _ H. exfalso. apply H. reflexivity.
Qed.
(** Another element: only the coordinates change. *)
Lemma start_ok fd zd Qd s (x0 x1 : arr) : (forall d, (d < 2)%nat -> elem_dir fd zd Qd d) -> good_st fd zd Qd s -> (FindptsEl2.nn fd 0 * FindptsEl2.nn fd 1 <= length x0)%nat -> (FindptsEl2.nn fd 0 * FindptsEl2.nn fd 1 <= length x1)%nat ->
  let '(fd', s') := findpts_el_start_2 fd s [x0; x1] in npt_max fd' = npt_max fd /\ FindptsEl2.nn fd' 0 = FindptsEl2.nn fd 0 /\ FindptsEl2.nn fd' 1 = FindptsEl2.nn fd 1 /\ ux fd' = [x0; x1] /\
    (forall d, (d < 2)%nat -> elem_dir fd' zd Qd d) /\ good_st fd' zd Qd s'.
Proof.
  intros Hel [S1 S2 S3 S4 _ _] L0 L1. unfold findpts_el_start_2. split; [auto|]. split; [auto|]. split; [auto|]. split; [auto|]. split.
  - intros d Hd. destruct (Hel d Hd) as [? ? ? ? ? ? ? ? ? ?]. constructor; auto. destruct d as [|[|d]]; [auto|auto|lia].
  - constructor; cbn [lag_data side_init edges pts]; auto; intros; exfalso; match goal with H : N.land 0 _ <> _ |- _ => apply H end; reflexivity.
Qed.

Lemma ListLemmas_map_nth {A} (l : list A) d : map (fun i => nth i l d) (seq 0 (length l)) = l.
Proof. induction l as [|x l IH]; cbn [length seq map nth]; [auto|]. f_equal. rewrite <- seq_shift, map_map. exact IH. Qed.
Section Eval.
Variable P : products R.
Hypothesis G : good R 0 Rplus Rmult P.
Variable fd : el.
Variable zd : nat -> arr.
Variable Qd : nat -> arr -> Prop.
Hypothesis Hel : forall d, (d < 2)%nat -> elem_dir fd zd Qd d.
Hypothesis Hux : length (ux fd) = 2%nat.
Notation nr := (FindptsEl2.nn fd 0).
Notation ns := (FindptsEl2.nn fd 1).
(** The value at r of the function with the values u at the nodes. *)
Definition inter (u : arr) (r : list R) : R :=
  apply2 R 0 Rplus Rmult (fun i => bas (zd 0) nr 0 i (ent r 0)) nr (fun j => bas (zd 1) ns 0 j (ent r 1)) ns u.
Lemma eval_ok s rs u : good_st fd zd Qd s -> (length rs <= npt_max fd)%nat -> (nr * ns <= length u)%nat -> exists s', good_st fd zd Qd s' /\
  findpts_el_eval_2 P fd s rs u = Ok (map (inter u) rs, s').
Proof.
  intros S Hn Hu. unfold findpts_el_eval_2.
  rewrite need_ok by (pose proof (proj1 (have_all fd Hux) (length rs) Hn); nia). cbn [bind].
  destruct (lag_dir_ok fd zd Qd Hel Hux s 0 0 (map (fun r => ent r 0) rs) S ltac:(lia) ltac:(lia)) as (wtr & s1 & E1 & S1 & L1' & W1). rewrite E1. cbn [bind].
  destruct (lag_dir_ok fd zd Qd Hel Hux s1 1 0 (map (fun r => ent r 1) rs) S1 ltac:(lia) ltac:(lia)) as (wts & s2 & E2 & S2 & L2' & W2). rewrite E2. cbn [bind].
  rewrite map_length in L1', L2', W1, W2. exists s2. split; [auto|]. set (pn := length rs) in *.
  destruct (good_mxm _ _ _ _ _ G (repeat 0 (nr * pn)) nr u ns wts pn) as (C & EC & LC & WC & _); [rewrite repeat_length; lia|auto|lia|].
  rewrite EC. cbn [bind]. rewrite repeat_length in LC.
  assert (M : mapM (fun i => tensor_i1 R 0 Rplus Rmult (skipn (i * nr) wtr) nr (skipn (i * nr) C)) (seq 0 pn) = Ok (map (fun i => inter u (nth i rs [])) (seq 0 pn))).
  { apply mapM_ok. intros i Hi. apply in_seq in Hi. assert (Hi' : (i < pn)%nat) by lia. set (r := nth i rs []).
    assert (Lr : forall k, nth i (map (fun r => ent r k) rs) 0 = ent r k).
    { intros k. unfold r. rewrite (nth_indep _ 0 (ent [] k)) by (rewrite map_length; auto). apply (map_nth (fun r => ent r k)). }
    assert (i * nr + nr <= nr * pn)%nat by nia.
    rewrite (i1_ok R 0 1 Rplus Rmult Rminus Ropp RTheory) by (rewrite !skipn_length; lia). f_equal. unfold inter.
    rewrite <- (fold2 R 0 1 Rplus Rmult Rminus Ropp RTheory). unfold apply1. apply sum_ext. intros a Ha. unfold row. rewrite !(get_skipn R 0). f_equal.
    - rewrite <- Lr, <- (W1 i 0%nat a) by lia. apply gget. lia.
    - transitivity (get C (a + i * nr)); [apply gget; lia|]. etransitivity; [apply WC; lia|]. unfold MB. apply sum_ext. intros j Hj. f_equal.
      rewrite <- Lr, <- (W2 i 0%nat j) by lia. apply gget. lia. }
  rewrite M. cbn [bind]. f_equal. f_equal. unfold pn. clear. rewrite <- (map_map (fun i => nth i rs []) (inter u)). f_equal. apply ListLemmas_map_nth.
Qed.
End Eval.
