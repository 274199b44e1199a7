(** A search that ends, converged, at a corner that is not nearest. *)
From Verif Require Import Base BaseLemmas Tensor TensorSpec TensorProof Poly PolySpec PolyProof1 PolyProof2 PolyProof3 LobBndSpec FindptsEl2 FindptsEl2Spec FindptsEl2Proof1 FindptsEl2Proof2 FindptsEl2Proof3 FindptsEl2Proof4 FindptsEl2Proof5 FindptsEl2Proof6 FindptsEl2Proof7 FindptsEl2Proof8 FindptsEl2Proof9 FindptsEl2Proof10 FindptsEl2Proof11.
From Coq Require Import Reals Lra Psatz NArith.
Open Scope R_scope.

Ltac dec := match goal with
  | |- context [Rlt_dec ?a ?b] => destruct (Rlt_dec a b); [try (exfalso; lra)|try (exfalso; lra)]
  | |- context [Rle_dec ?a ?b] => destruct (Rle_dec a b); [try (exfalso; lra)|try (exfalso; lra)]
  | |- context [Req_EM_T ?a ?b] => destruct (Req_EM_T a b); [try (exfalso; lra)|try (exfalso; lra)]
  end.
Lemma bounds_11 : area_bounds [1; 1] 1 = ([1 - 1; 1; 1 - 1; 1], 10%N).
Proof. unfold area_bounds. cbn [fold_left ent nth]. dec. dec. cbn [upd Nat.mul Nat.add]. dec. dec. reflexivity. Qed.
Definition J0 : list R := [1; -1; 0; 1].
Definition E0 : list R := [-1/2; 2].
Lemma solve_J : lin_solve_2 J0 E0 = Ok [3/2; 2].
Proof. unfold lin_solve_2, dv, J0, E0. cbn [ent nth]. dec. cbn [bind]. f_equal. f_equal; [field|f_equal; field]. Qed.
Ltac nats := change (2 * 0 + 1)%nat with 1%nat; change (2 * 1 + 1)%nat with 3%nat; change (2 * 0)%nat with 0%nat; change (2 * 1)%nat with 2%nat; change (2 + 1)%nat with 3%nat; change (2 + 0)%nat with 2%nat.
Lemma first_J : area_first [1; 1] [3/2; 2] [1 - 1; 1; 1 - 1; 1] = Ok (0, 2%N).
Proof.
  unfold area_first, dv. cbn [foldM]. nats. cbn [ent nth]. dec. dec. dec. cbn [bind]. assert (Z : (1 - 1) / (3 / 2) = 0) by field. dec. rewrite Z. nats. cbn [ent nth]. dec. dec. dec. cbn [bind].
  assert (Z' : (1 - 1) / 2 = 0) by field. rewrite Z'. dec. reflexivity.
Qed.
Lemma edge_J : area_edge J0 E0 [1; 1] [1 - 1; 1; 1 - 1; 1] [0; 0] 2 = Ok ([0; 0], 10%N).
Proof.
  unfold area_edge. change (edge_index 2) with 1%nat. change (1 / 2)%nat with 0%nat. change (plus_1_mod_2 0) with 1%nat. nats. unfold lin_res, J0, E0, dv. cbn [ent nth].
  set (y := -1 * (-1 / 2 - (1 * 0 + -1 * 0)) + 1 * (2 - (0 * 0 + 1 * 0))). assert (Y : y / (-1 * -1 + 1 * 1) = 5/4) by (unfold y; field).
  dec. cbn [bind]. rewrite Y. dec. dec. dec. cbn [bind]. assert (Z : (1 - (1 + 0)) / (5 / 4) = 0) by field. dec. cbn [bind upd]. rewrite Z. replace (0 + 0 * (5 / 4)) with 0 by ring. reflexivity.
Qed.
Lemma relax_J : area_relax J0 E0 [1; 1] [1 - 1; 1; 1 - 1; 1] [0; 0] 10 = ([0; 0], 10%N).
Proof.
  unfold area_relax, lin_res, J0, E0. change (con 10 0) with 2%N. change (con 10 1) with 2%N. change (2 =? 0)%N with false. change (N.to_nat (2 - 1)) with 1%nat. nats. cbv iota beta zeta. cbn [ent nth upd fold_left].
  change (con 10 0) with 2%N. change (2 =? 0)%N with false. cbv iota. dec. change (con 10 1) with 2%N. change (2 =? 0)%N with false. cbv iota. dec. f_equal. f_equal; [ring|f_equal; ring].
Qed.
Lemma area_J out p tol : 0 < tol -> pr p = [1; 1] -> tr p = 1 -> flags p = 0%N -> exists d, newton_area out J0 E0 p tol = Ok (set_step out [1; 1] d 26%N).
Proof.
  intros Ht Er Et Ef. unfold newton_area. rewrite Er, Et, bounds_11, solve_J. cbn [bind]. rewrite first_J. cbn [bind]. change (2 =? 0)%N with false. cbv iota.
  replace [ent [3 / 2; 2] 0 * 0; ent [3 / 2; 2] 1 * 0] with [0; 0] by (f_equal; [cbn; ring|f_equal; cbn; ring]).
  cbn [area_loop]. rewrite edge_J. cbn [bind]. rewrite relax_J. change (10 =? 10)%N with true. cbv iota. cbn [bind]. change (N.land 10 10) with 10%N. unfold lin_res, J0, E0. cbn [ent nth].
  destruct (Rlt_dec (Rabs 0 + Rabs 0) tol) as [H|H]; [|exfalso; apply H; rewrite Rabs_R0; lra]. rewrite Ef. change (N.lor 10 CONVERGED_FLAG) with 26%N. change (con 26 0) with 2%N. change (con 26 1) with 2%N.
  change (2 =? 0)%N with false. change (2 =? 1)%N with false. cbv iota. change (N.lor 26 (shl 0 5)) with 26%N. eexists. reflexivity.
Qed.

Definition slanted (zs : arr) : shape := Shape 2 2 zs zs [0; 2; -2; 0] [-1; -1; 1; 1].
Definition far : list R := [-1/2; 3].
Lemma slanted_par nodes_n zs : el_points nodes_n 2 zs -> parallelogram (slanted zs) 0 1 (-1) 0 0 1.
Proof.
  intros [_ _ F L _]. cbn in L. constructor; cbn [slanted s_nr s_ns s_zr s_zs s_x s_y]; [| |lra];
  intros i j Hi Hj; destruct i as [|[|i]]; try lia; destruct j as [|[|j]]; try lia; rewrite ?F, ?L; cbn; lra.
Qed.
Section Far.
Variable M : R.
Hypothesis HM : 5 < M.
Variable P : products R.
Hypothesis G : good R 0 Rplus Rmult P.
Variable nodes_n : arr -> nat -> res arr.
Variable zs : arr.
Hypothesis Hz : el_points nodes_n 2 zs.
Variable npt : nat.
Hypothesis Hn : (1 <= npt)%nat.
Variable tol : R.
Hypothesis Ht : 0 < tol.
Lemma far_found fd s : history M P nodes_n 2 2 zs zs npt (slanted zs) fd s -> exists p s', findpts_el_2 M P fd s [far] tol = Ok ([p], s') /\ flags p = 26%N /\ pr p = [1; 1] /\ 
  sqdist (slanted zs) far (1 / 2) 1 < sqdist_at (slanted zs) far (pr p) /\ regular (slanted zs) /\ reachable M (slanted zs) far /\ ~ corner_min (slanted zs) far (pr p).
Proof.
  intros H. assert (HM0 : 0 < M) by lra. destruct (history_known M HM0 P G nodes_n 2 2 zs zs Hz Hz npt _ fd s H) as (Q & K). pose proof (slanted_par nodes_n zs Hz) as Pg.
  pose proof (par_regular 2 2 zs zs npt _ fd s Q K _ _ _ _ _ _ Pg) as Rg. pose proof (par_image 2 2 zs zs npt _ fd s Q K _ _ _ _ _ _ Pg) as Im.
  pose proof Hz as [_ _ F L _]. cbn in L.
  assert (Sq : forall u v, sqdist (slanted zs) far u v = (-1/2 - (u - v)) ^ 2 + (3 - v) ^ 2) by (intros u v; unfold sqdist; destruct (Im u v) as [-> ->]; cbn [far nth]; ring).
  assert (Rc : reachable M (slanted zs) far). { exists 1%nat, 1%nat. split; [cbn; lia|]. split; [cbn; lia|]. rewrite Sq. cbn [slanted s_zr s_zs]. rewrite L. lra. }
  destruct (search_known M HM0 P G nodes_n 2 2 zs zs Hz Hz npt _ fd s Q [far] tol K Rg) as (out & s' & E & _ & Lo & V); [cbn; lia|intros x [<-|[]]; auto|].
  destruct (V 0%nat far eq_refl) as (p & V1 & _ & V3). destruct out as [|q [|? ?]]; try discriminate Lo. injection V1 as ->.
  assert (Hux : length (ux fd) = 2%nat) by (rewrite (k_ux _ _ _ _ _ _ _ _ _ K); auto). pose proof (k_dir _ _ _ _ _ _ _ _ _ K) as Hel. pose proof (k_sh _ _ _ _ _ _ _ _ _ K) as Es. pose proof (k_n _ _ _ _ _ _ _ _ _ K) as En.
  assert (Dn : forall i j, (i < 2)%nat -> (j < 2)%nat -> D fd (pair2 zs zs) far (node (pair2 zs zs) i j) = (-1/2 - (get zs i - get zs j)) ^ 2 + (3 - get zs j) ^ 2).
  { intros i j Hi Hj. rewrite (D_sqdist fd (pair2 zs zs) Hux), Es. apply Sq. }
  destruct (seed_ok M fd (pair2 zs zs) Q Hel Hux far) as (u & v & Hu & Hv & Sd & Sl & Sm). { apply (reachable_node M fd (pair2 zs zs) Hux). rewrite Es. auto. }
  unfold nn in Hu, Hv, Sm. rewrite En in Hu, Hv, Sm. cbn [nth] in Hu, Hv, Sm.
  assert (Uv : u = 1%nat /\ v = 1%nat). { pose proof (Sm 1%nat 1%nat ltac:(lia) ltac:(lia)) as Q1. rewrite !Dn in Q1 by lia. rewrite L in Q1. destruct u as [|[|u]]; try lia; destruct v as [|[|v]]; try lia; rewrite ?F, ?L in Q1; lra. }
  destruct Uv as [-> ->]. assert (Nd : node (pair2 zs zs) 1 1 = [1; 1]) by (unfold node, pair2; cbn [Nat.eqb]; rewrite L; auto). rewrite Nd in *.
  assert (D1 : D fd (pair2 zs zs) far [1; 1] = 17/4) by (rewrite <- Nd, Dn, L by lia; lra).
  set (p0 := Pt far [1; 1] [] M 0 1 0 0%N). assert (Ff : first M fd 0 far = p0) by (unfold first; rewrite Sd; auto). rewrite Ff in V3.
  pose proof (par_aff 2 2 zs zs npt _ fd s Q K _ _ _ _ _ _ Pg) as Af.
  assert (Jc : jacobian fd (pair2 zs zs) (pr p0) = J0) by (rewrite (aff_jac fd _ Q Hel Hux _ _ _ Af) by auto; reflexivity).
  assert (Rs : residual fd (pair2 zs zs) p0 = E0) by (unfold residual; rewrite !(aff_T fd _ Q Hel Hux _ _ _ Af) by lia; cbn [p0 px pr far ent nth pair2 Nat.eqb]; unfold E0; f_equal; [lra|f_equal; lra]).
  assert (St : exists q, step1 M fd (pair2 zs zs) tol (low p0) p0 = Ok q /\ pr q = [1; 1] /\ flags q = 26%N).
  { change (step1 M fd (pair2 zs zs) tol (low p0) p0) with (area1 M fd (pair2 zs zs) tol p0). unfold area1. rewrite Jc. unfold reject_prior_step_q. rewrite resid_sq, Rs. cbn [px pr dist2 dist2p p0]. rewrite D1.
    destruct (Rle_dec (1 / 100 * 0) (M - 17 / 4)); [|exfalso; lra]. destruct (Rle_dec (9 / 10 * 0) (M - 17 / 4)); [|exfalso; lra]. destruct (area_J (Pt far [] [1; 1] (17/4) 0 (tr p0 * 2) (index p0) 0) p0 tol Ht eq_refl eq_refl eq_refl) as (d & Ed). rewrite Ed. eexists. split; [reflexivity|]. auto. }
  destruct St as (q & Sq1 & Sq2 & Sq3). rewrite run1_S in V3. replace (activeb p0) with true in V3 by reflexivity. rewrite Sq1 in V3. cbn [bind] in V3. rewrite run1_stop in V3 by (unfold activeb, low; rewrite Sq3; reflexivity). injection V3 as <-.
  exists (masked q), s'. split; [auto|]. split; [cbn [masked flags]; rewrite Sq3; reflexivity|]. split; [exact Sq2|]. cbn [masked pr]. rewrite Sq2. unfold sqdist_at. cbn [nth]. split; [rewrite !Sq; lra|]. split; [auto|]. split; [auto|].
  intros (_ & _ & C). cbn [nth] in C.
  assert (Lin : forall k l w, derivable_pt_lim (fun t => k + l * t) w l) by apply aff_der.
  assert (F1 : derivable_pt_lim (fun t => sqdist (slanted zs) far t 1) 1 (-2 * ((-1/2 - (-1 + 1 * 1)) * 1 + (3 - (1 + 0 * 1)) * 0))).
  { apply derivable_pt_lim_ext with (f := fun t => (-1/2 - (-1 + 1 * t)) ^ 2 + (3 - (1 + 0 * t)) ^ 2); [intros t; rewrite Sq; ring|]. apply (sq_der (fun t => -1 + 1 * t) (fun t => 1 + 0 * t)); apply Lin. }
  assert (G1 : derivable_pt_lim (fun t => sqdist (slanted zs) far 1 t) 1 (-2 * ((-1/2 - (1 + -1 * 1)) * -1 + (3 - (0 + 1 * 1)) * 1))).
  { apply derivable_pt_lim_ext with (f := fun t => (-1/2 - (1 + -1 * t)) ^ 2 + (3 - (0 + 1 * t)) ^ 2); [intros t; rewrite Sq; ring|]. apply (sq_der (fun t => 1 + -1 * t) (fun t => 0 + 1 * t)); apply Lin. }
  destruct (C _ _ F1 G1) as [C1 _]. lra.
Qed.
End Far.
