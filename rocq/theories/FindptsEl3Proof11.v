(** A search that ends, converged, at a corner that is not nearest. *)
From Verif Require Import Base BaseLemmas Tensor TensorSpec TensorProof Poly PolySpec PolyProof1 PolyProof2 PolyProof3 LobBndSpec FindptsEl2 FindptsEl2Spec FindptsEl2Proof1 FindptsEl2Proof2 FindptsEl2Proof3 FindptsEl2Proof8 FindptsEl2Proof9 FindptsEl2Proof11 FindptsEl2Proof12 FindptsEl3 FindptsEl3Spec FindptsEl3Proof1 FindptsEl3Proof2 FindptsEl3Proof3 FindptsEl3Proof4 FindptsEl3Proof5 FindptsEl3Proof6 FindptsEl3Proof7 FindptsEl3Proof8 FindptsEl3Proof9 FindptsEl3Proof10.
From Coq Require Import Reals Lra Psatz NArith.
Open Scope R_scope.

Definition B1 : list R := [1 - 1; 1; 1 - 1; 1; 1 - 1; 1].
Lemma bounds_111 : vol_bounds [1; 1; 1] 1 = (B1, 42%N).
Proof. unfold vol_bounds, dims. cbn [fold_left ent nth]. dec. dec. cbn [upd Nat.mul Nat.add]. dec. dec. cbn [upd]. dec. dec. cbn [upd]. reflexivity. Qed.
Definition K0 : list R := [1; -1; 0; 0; 1; 0; 0; 0; 1].
Definition C0 : list R := [-1/2; 2; 1].
Lemma solve_K : lin_solve_3 K0 C0 = Ok [3/2; 2; 1].
Proof. unfold lin_solve_3, dv, K0, C0. cbn [ent nth]. dec. cbn [bind]. f_equal. f_equal; [field|f_equal; [field|f_equal; field]]. Qed.
Ltac nats3 := change (2 * 0 + 1)%nat with 1%nat; change (2 * 1 + 1)%nat with 3%nat; change (2 * 2 + 1)%nat with 5%nat; change (2 * 0)%nat with 0%nat; change (2 * 1)%nat with 2%nat; change (2 * 2)%nat with 4%nat.
Lemma first_K : vol_first [1; 1; 1] [3/2; 2; 1] B1 = Ok (0, 2%N).
Proof.
  unfold vol_first, dv, dims, B1. cbn [foldM]. nats3. cbn [ent nth]. dec. dec. dec. cbn [bind]. assert (Z : (1 - 1) / (3 / 2) = 0) by field. dec. rewrite Z. nats3. cbn [ent nth]. dec. dec. dec. cbn [bind].
  assert (Z' : (1 - 1) / 2 = 0) by field. rewrite Z'. dec. nats3. cbn [ent nth]. dec. dec. dec. cbn [bind]. assert (Z2 : (1 - 1) / 1 = 0) by field. rewrite Z2. dec. reflexivity.
Qed.
Definition O3 : list R := [0; 0; 0].
Lemma res_K : lin_res3 K0 C0 O3 = C0.
Proof. unfold lin_res3, dims, K0, C0, O3. cbn [map Nat.mul Nat.add ent nth]. f_equal; [ring|f_equal; [ring|f_equal; ring]]. Qed.
Lemma check_K delta d f nf : (d < 3)%nat -> 0 < delta -> 0 < f -> check_constraint [1; 1; 1] B1 O3 delta d (f, nf) = Ok (0, at_dir 2 d).
Proof.
  intros Hd Hp Hf. unfold check_constraint. set (q := (2 * d + 1)%nat). assert (E1 : ent [1; 1; 1] d = 1) by (dim3 d Hd; reflexivity). assert (E2 : ent O3 d = 0) by (dim3 d Hd; reflexivity).
  assert (E3 : ent B1 (2 * d) = 0) by (dim3 d Hd; cbn; ring). assert (E4 : ent B1 q = 1) by (unfold q; dim3 d Hd; reflexivity). rewrite E1, E2, E3, E4.
  destruct (Rlt_dec ((1 + (0 + delta) - 0) * (1 - (1 + (0 + delta)))) 0) as [_|N]; [|exfalso; apply N; nra]. dec. unfold dv. dec. cbn [bind].
  assert (Z : (1 - (1 + 0)) / delta = 0) by (field; lra). rewrite Z. dec. reflexivity.
Qed.
Lemma check_K0 delta d nf : (d < 3)%nat -> 0 < delta -> check_constraint [1; 1; 1] B1 O3 delta d (0, nf) = Ok (0, nf).
Proof.
  intros Hd Hp. unfold check_constraint. set (q := (2 * d + 1)%nat). assert (E1 : ent [1; 1; 1] d = 1) by (dim3 d Hd; reflexivity). assert (E2 : ent O3 d = 0) by (dim3 d Hd; reflexivity).
  assert (E3 : ent B1 (2 * d) = 0) by (dim3 d Hd; cbn; ring). assert (E4 : ent B1 q = 1) by (unfold q; dim3 d Hd; reflexivity). rewrite E1, E2, E3, E4.
  destruct (Rlt_dec ((1 + (0 + delta) - 0) * (1 - (1 + (0 + delta)))) 0) as [_|N]; [|exfalso; apply N; nra]. dec. unfold dv. dec. cbn [bind].
  assert (Z : (1 - (1 + 0)) / delta = 0) by (field; lra). rewrite Z. dec. reflexivity.
Qed.
Lemma face_K : vol_face K0 C0 [1; 1; 1] B1 O3 2 = Ok (O3, 8%N).
Proof.
  unfold vol_face. change (face_index 2 / 2)%nat with 0%nat. change (plus_1_mod_3 0) with 1%nat. change (plus_2_mod_3 0) with 2%nat. rewrite res_K. unfold colcol, col, K0, C0. cbn [Nat.add ent nth].
  unfold lin_solve_sym_2, dv. cbn [ent nth]. dec. cbn [bind].
  set (c1 := Rmult _ _). set (c2 := Rmult _ _). assert (H1 : c1 = 5/4) by (unfold c1; field). assert (H2 : c2 = 1) by (unfold c2; field). clearbody c1 c2. subst.
  rewrite check_K by (lia || lra). cbn [bind]. rewrite check_K0 by (lia || lra). cbn [bind]. unfold O3. cbn [ent nth upd]. repeat (f_equal; try ring).
Qed.
Lemma edge_K : vol_edge K0 C0 [1; 1; 1] B1 O3 10 = Ok (O3, 42%N).
Proof.
  unfold vol_edge. change (edge_index3 10 / 4)%nat with 2%nat. rewrite res_K. unfold colcol, col, K0, C0, dv. cbn [Nat.add ent nth]. dec. cbn [bind].
  set (c1 := Rdiv _ _). assert (H1 : c1 = 1) by (unfold c1; field). clearbody c1. subst.
  rewrite check_K by (lia || lra). cbn [bind]. change (N.lor 10 (at_dir 2 2)) with 42%N. unfold O3. cbn [ent nth upd]. f_equal. f_equal. f_equal; f_equal; f_equal; ring.
Qed.
Lemma relax_K : vol_relax K0 C0 [1; 1; 1] B1 O3 42 = (O3, 42%N).
Proof.
  unfold vol_relax. rewrite res_K. unfold dims. cbn [fold_left]. change (con 42 0) with 2%N. change (con 42 1) with 2%N. change (con 42 2) with 2%N. change (2 =? 0)%N with false. change (N.to_nat (2 - 1)) with 1%nat. nats3. cbv iota beta zeta. unfold B1, O3.
  cbn [ent nth upd]. rewrite !Rmult_minus_distr_r. unfold col, K0, C0. cbn [Nat.add ent nth].
  dec. change (con 42 1) with 2%N. change (2 =? 0)%N with false. cbv iota. dec. change (con 42 2) with 2%N. change (2 =? 0)%N with false. cbv iota. dec. f_equal. f_equal; [ring|f_equal; [ring|f_equal; ring]].
Qed.
Lemma vol_K out p tol : 0 < tol -> pr p = [1; 1; 1] -> tr p = 1 -> flags p = 0%N -> exists d, newton_vol out K0 C0 p tol = Ok (set_step out [1; 1; 1] d 106%N).
Proof.
  intros Ht Er Et Ef. unfold newton_vol. rewrite Er, Et, bounds_111, solve_K. cbn [bind]. rewrite first_K. cbn [bind]. change (2 =? 0)%N with false. cbv iota.
  replace (map (fun d => ent [3 / 2; 2; 1] d * 0) dims) with O3 by (unfold dims, O3; cbn [map ent nth]; f_equal; [ring|f_equal; [ring|f_equal; ring]]).
  generalize 20%nat. intros k. cbn [vol_loop]. rewrite face_K. cbn [bind]. change (true && (8 =? 0)%N)%bool with false. cbv iota. change (N.lor 2 8) with 10%N. rewrite edge_K. cbn [bind]. rewrite relax_K. change (42 =? 42)%N with true. cbv iota. cbn [bind]. change (N.land 42 42) with 42%N. rewrite Ef.
  destruct (Rlt_dec (Rabs (ent O3 0) + Rabs (ent O3 1) + Rabs (ent O3 2)) tol) as [H|H]; [|exfalso; apply H; cbn [O3 ent nth]; rewrite Rabs_R0; lra].
  change (N.lor 42 CONVERGED_FLAG3) with 106%N. change (N.lor 106 (shl 0 7)) with 106%N. unfold dims. cbn [map]. change (con 106 0) with 2%N. change (con 106 1) with 2%N. change (con 106 2) with 2%N.
  change (2 =? 0)%N with false. change (2 =? 1)%N with false. cbv iota. eexists. reflexivity.
Qed.

Definition slanted3 (z : arr) : shape3 := Shape3 2 2 2 z z z [[0; 2; -2; 0; 0; 2; -2; 0]; [-1; -1; 1; 1; -1; -1; 1; 1]; [-1; -1; -1; -1; 1; 1; 1; 1]].
Definition far3 : list R := [-1/2; 3; 2].
Definition sl_a (c : nat) : R := 0.
Definition sl_b (c d : nat) : R := nth d (nth c [[1; -1; 0]; [0; 1; 0]; [0; 0; 1]] []) 0.
Lemma slanted_par3 nodes_n z : el_points nodes_n 2 z -> parallelepiped (slanted3 z) sl_a sl_b.
Proof.
  intros [_ _ F L _]. cbn in L. constructor; [|cbn; lra]. cbn [slanted3 q_nr q_ns q_nt q_zr q_zs q_zt q_x]. unfold is_node3. cbn [slanted3 q_nr q_ns q_nt].
  intros c i j k Hc (Hi & Hj & Hk); destruct i as [|[|i]]; try lia; destruct j as [|[|j]]; try lia; destruct k as [|[|k]]; try lia; rewrite ?F, ?L; unfold sl_a, sl_b; destruct c as [|[|[|c]]]; try lia; cbn; lra.
Qed.
Section Far3.
Variable M : R.
Hypothesis HM : 6 < M.
Variable P : products R.
Hypothesis G : good R 0 Rplus Rmult P.
Variable nodes_n : arr -> nat -> res arr.
Variable z : arr.
Hypothesis Hz : el_points nodes_n 2 z.
Variable npt : nat.
Hypothesis Hn : (1 <= npt)%nat.
Variable tol : R.
Hypothesis Ht : 0 < tol.
Notation zd := (trip z z z).
Lemma far_found3 fd s : history3 M P nodes_n 2 2 2 z z z npt (slanted3 z) fd s -> exists p s', findpts_el_3 M P fd s [far3] tol = Ok ([p], s') /\ flags p = 106%N /\ pr p = [1; 1; 1] /\
  sqdist3 (slanted3 z) far3 [1 / 2; 1; 1] < sqdist3 (slanted3 z) far3 (pr p) /\ regular3 (slanted3 z) /\ reachable3 M (slanted3 z) far3 /\ ~ corner_min3 (slanted3 z) far3 (pr p).
Proof.
  intros H. assert (HM0 : 0 < M) by lra. destruct (history_known3 M HM0 P G nodes_n 2 2 2 z z z Hz Hz Hz npt _ fd s H) as (Q & K). pose proof (slanted_par3 nodes_n z Hz) as Pg.
  pose proof (par_regular3 2 2 2 z z z npt _ fd s Q K _ _ Pg) as Rg. pose proof (par_image3 2 2 2 z z z npt _ fd s Q K _ _ Pg) as Im.
  pose proof Hz as [_ _ F L _]. cbn in L.
  assert (Sq : forall r, sqdist3 (slanted3 z) far3 r = (-1/2 - (ent r 0 - ent r 1)) ^ 2 + (3 - ent r 1) ^ 2 + (2 - ent r 2) ^ 2).
  { intros r. unfold sqdist3. rewrite !Im by lia. unfold affine, sl_a, sl_b. cbn [far3 nth]. ring. }
  assert (Rc : reachable3 M (slanted3 z) far3). { exists 1%nat, 1%nat, 1%nat. split; [repeat split; cbn; lia|]. rewrite Sq. unfold node3. cbn [slanted3 q_zr q_zs q_zt ent nth]. rewrite L. lra. }
  destruct (search_known3 M HM0 P G nodes_n 2 2 2 z z z Hz Hz Hz npt _ fd s Q [far3] tol K Rg) as (out & s' & E & _ & Lo & V); [cbn; lia|intros x [<-|[]]; auto|].
  destruct (V 0%nat far3 eq_refl) as (p & V1 & _ & V3). destruct out as [|q [|? ?]]; try discriminate Lo. injection V1 as ->.
  destruct (known_x _ _ _ _ _ _ _ _ _ _ _ K) as [Hux HX]. pose proof (k3_dir _ _ _ _ _ _ _ _ _ _ _ K) as Hel. pose proof (k3_sh _ _ _ _ _ _ _ _ _ _ _ K) as Es. pose proof (k3_n _ _ _ _ _ _ _ _ _ _ _ K) as En.
  assert (Ds : forall r, D3 fd zd far3 r = (-1/2 - (ent r 0 - ent r 1)) ^ 2 + (3 - ent r 1) ^ 2 + (2 - ent r 2) ^ 2) by (intros r; rewrite D_sqdist3, Es; apply Sq).
  destruct (seed_ok3 M fd zd Q Hel Hux HX far3) as (u & v & w & Huvw & Sd & Sl & Sm). { apply (reachable_node3 M fd zd). rewrite Es. auto. }
  unfold in_range, nn in Huvw, Sm. rewrite En in Huvw, Sm. cbn [nth] in Huvw, Sm. destruct Huvw as (Hu & Hv & Hw).
  assert (Uv : u = 1%nat /\ v = 1%nat /\ w = 1%nat).
  { pose proof (Sm 1%nat 1%nat 1%nat ltac:(lia)) as Q1. rewrite !Ds in Q1. unfold nodept, trip in Q1. cbn [ent nth] in Q1. rewrite L in Q1. destruct u as [|[|u]]; try lia; destruct v as [|[|v]]; try lia; destruct w as [|[|w]]; try lia; rewrite ?F, ?L in Q1; lra || auto. }
  destruct Uv as (-> & -> & ->). assert (Nd : nodept zd 1 1 1 = [1; 1; 1]) by (unfold nodept, trip; rewrite L; auto). rewrite Nd in *.
  set (p0 := Pt far3 [1; 1; 1] [] M 0 1 0 0%N). assert (Ff : first3 M fd 0 far3 = p0) by (unfold first3; rewrite Sd; auto). rewrite Ff in V3.
  pose proof (par_aff3 2 2 2 z z z npt _ fd s Q K _ _ Pg) as Af.
  assert (Jc : jacobian fd zd (pr p0) = K0) by (rewrite (aff_jac3 fd zd Q Hel Hux _ _ Af) by auto; reflexivity).
  assert (Rs : residual fd zd p0 = C0).
  { change (residual fd zd p0) with (res3 fd zd far3 [1; 1; 1]). unfold res3, dims. cbn [map]. rewrite !(aff_T3 fd zd Q Hel Hux _ _ Af) by lia. unfold affine, sl_a, sl_b, C0. cbn [far3 ent nth]. f_equal; [lra|f_equal; [lra|f_equal; lra]]. }
  assert (St : exists q, step3 M fd zd tol (low3 p0) p0 = Ok q /\ pr q = [1; 1; 1] /\ flags q = 106%N).
  { change (step3 M fd zd tol (low3 p0) p0) with (vol1 M fd zd tol p0). unfold vol1, after, reject_prior_step_q3. fold (norm2 (residual fd zd p0)). assert (Rn : norm2 (residual fd zd p0) = 21/4) by (rewrite Rs; unfold norm2, C0; cbn [ent nth]; lra). rewrite Rn. cbn [px pr dist2 dist2p tr index p0].
    destruct (Rle_dec (1 / 100 * 0) (M - 21/4)); [|exfalso; lra]. destruct (Rle_dec (9 / 10 * 0) (M - 21/4)); [|exfalso; lra]. unfold vstep. rewrite Jc, Rs.
    match goal with |- context [newton_vol ?o _ _ _ _] => destruct (vol_K o p0 tol Ht eq_refl eq_refl eq_refl) as (d & Ed) end. rewrite Ed. eexists. split; [reflexivity|]. split; reflexivity. }
  destruct St as (q & Sq1 & Sq2 & Sq3). rewrite run3_S in V3. replace (activeb3 p0) with true in V3 by reflexivity. rewrite Sq1 in V3. cbn [bind] in V3. rewrite run3_stop in V3 by (unfold activeb3, low3; rewrite Sq3; reflexivity). injection V3 as <-.
  exists (masked3 q), s'. split; [auto|]. split; [cbn [masked3 flags]; rewrite Sq3; reflexivity|]. split; [exact Sq2|]. cbn [masked3 pr]. rewrite Sq2. split; [rewrite !Sq; cbn [ent nth]; lra|]. split; [auto|]. split; [auto|].
  intros C. destruct (C 0%nat ltac:(lia)) as [_ C1]. cbn [nth] in C1. assert (F1 : derivable_pt_lim (fun t => sqdist3 (slanted3 z) far3 (upd [1; 1; 1] 0 t)) 1 (-2 * ((-1/2 - (-1 + 1 * 1)) * 1 + (3 - (1 + 0 * 1)) * 0))).
  { apply derivable_pt_lim_ext with (f := fun t => ((-1/2 - (-1 + 1 * t)) ^ 2 + (3 - (1 + 0 * t)) ^ 2) + (1 + 0 * t)); [intros t; rewrite Sq; cbn [upd ent nth]; ring|]. replace (-2 * _) with (-2 * ((-1/2 - (-1 + 1 * 1)) * 1 + (3 - (1 + 0 * 1)) * 0) + 0) by ring.
    apply derivable_pt_lim_plus; [apply (sq_der (fun t => -1 + 1 * t) (fun t => 1 + 0 * t)); apply aff_der|apply aff_der]. }
  pose proof (C1 _ F1). lra.
Qed.
End Far3.
