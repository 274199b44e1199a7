(** With 4 nodes and 5 points the interval of lob_bnd_1 may be too small. *)
From Verif Require Import Base BaseLemmas Poly PolySpec PolyProof1 PolyProof2 PolyProof3 PolyImpSyntax PolyImp PolyGll PolyGllSpec PolyGllCheck PolyGllProof LobBnd LobBndSpec LobBndProof1 LobBndProof5 LobBndSetupProof1 LobBndSetupProof2 LobBndSetupProof3 LobBndValid1 LobBndValid2 LobBndValid3 RInterval.
From Coq Require Import Reals Lra Psatz ZArith.
Open Scope R_scope.

Definition sg : R := get (gll_list 4) 2.
Definition cc : R := cos (PI / INR (5 - 1)).
Lemma nodes_4 : get (gll_list 4) 0 = -1 /\ get (gll_list 4) 1 = - sg /\ get (gll_list 4) 3 = 1.
Proof.
  destruct (gll_ends 4 ltac:(lia)) as [A B]. split; [auto|]. split; [|auto]. pose proof (lp_symmetric _ _ _ (gll_points (fun a _ => Ok a) 4 ltac:(lia)) 1%nat ltac:(lia)) as H.
  cbn [Nat.sub] in H. unfold sg. lra.
Qed.

Definition SC : Z := (10 ^ 12)%Z.
Definition env (i : nat) : R := if (i =? 0)%nat then sg else cc.
Definition ienv (i : nat) : Z * Z := if (i =? 0)%nat then (447213595499, 447213595500)%Z else (707106781186, 707106781187)%Z.
Lemma env_ok i : inI SC (env i) (ienv i).
Proof.
  unfold env, ienv, inI. destruct (Nat.eqb_spec i 0); cbn [fst snd].
  - unfold sg. rewrite gll_list_entry, get_entry. assert (E : nth 2 (gll_list_Z 4) 0%Z = 4472135954999579392818347337462552470881236719223100%Z) by (vm_compute; reflexivity). rewrite E.
    unfold entry. rewrite <- IZR_pow52. change (10 ^ 52)%Z with 10000000000000000000000000000000000000000000000000000%Z. unfold SC. change (10 ^ 12)%Z with 1000000000000%Z. lra.
  - assert (E : cc * cc = 1 / 2). { unfold cc. replace (INR (5 - 1)) with 4 by (cbn; lra). rewrite cos_PI4.
      assert (Q : sqrt 2 <> 0) by (apply Rgt_not_eq, sqrt_lt_R0; lra). replace (1 / sqrt 2 * (1 / sqrt 2)) with (/ (sqrt 2 * sqrt 2)) by (field; auto). rewrite sqrt_sqrt by lra. lra. }
    assert (P : 0 < cc). { pose proof (C_half 5 ltac:(lia)) as H. fold cc in H. lra. }
    unfold SC. change (10 ^ 12)%Z with 1000000000000%Z. split; nra.
Qed.

(** Expressions. *)
Definition q (a b : Z) : ex := EDiv (EC a) (EC b).
Definition eS := EV 0. Definition eC := EV 1.
Definition eneg a := ESub (EC 0) a.
Definition eK0 := EDiv (EC 1) (EMul (EC 2) (ESub (EC 1) (EMul eS eS))).
Definition eK1 := EDiv (EC 1) (EMul (EC 2) (EMul eS (ESub (EC 1) (EMul eS eS)))).
Definition coef (i : nat) : ex * ex * ex * ex :=
  match i with
  | 0 => (eneg (EMul (EMul eS eS) eK0), EMul (EMul eS eS) eK0, eK0, eneg eK0)
  | 1 => (EMul eS eK1, eneg eK1, eneg (EMul eS eK1), eK1)
  | 2 => (EMul eS eK1, eK1, eneg (EMul eS eK1), eneg eK1)
  | _ => (eneg (EMul (EMul eS eS) eK0), eneg (EMul (EMul eS eS) eK0), eK0, eK0)
  end%nat.
Definition ecub i x := let '(a0, a1, a2, a3) := coef i in EAdd (EAdd (EAdd a0 (EMul a1 x)) (EMul a2 (EMul x x))) (EMul a3 (EMul (EMul x x) x)).
Definition etanc i c x := let '(a0, a1, a2, a3) := coef i in EAdd (ecub i c) (EMul (ESub x c) (EAdd (EAdd a1 (EMul (EMul (EC 2) a2) c)) (EMul (EMul (EC 3) a3) (EMul c c)))).
Lemma ecub_ok i x : let '(a0, a1, a2, a3) := coef i in ev env (ecub i x) = cub (ev env a0) (ev env a1) (ev env a2) (ev env a3) (ev env x).
Proof. unfold ecub. destruct (coef i) as [[[a0 a1] a2] a3]. reflexivity. Qed.

Lemma HS : 0 < sg < 1. Proof. destruct (env_ok 0) as [A B]. unfold SC in *. cbn [env ienv Nat.eqb fst snd] in *. change (10 ^ 12)%Z with 1000000000000%Z in *. lra. Qed.
Lemma basis_cub i x : (i < 4)%nat -> let '(a0, a1, a2, a3) := coef i in basis (gll_list 4) 4 i x = cub (ev env a0) (ev env a1) (ev env a2) (ev env a3) x.
Proof.
  intros Hi. destruct nodes_4 as (Z0 & Z1 & Z3). pose proof HS as H. assert (1 - sg * sg <> 0) by nra.
  destruct i as [|[|[|[|i]]]]; [| | | |lia]; cbn [coef]; unfold basis, cub, eK0, eK1, eS, eneg; cbn [rprod Nat.eqb ev env]; fold sg; rewrite Z0, Z1, Z3; fold sg; field; repeat split; try lra; nra.
Qed.

Definition zero : arr := [].
(** The points, the values of the bounds. *)
Definition epoint (k : nat) : ex := match k with 0 => EC (-1) | 1 => eneg eC | 2 => ESub (EC 1) (EMul (EC 2) (EMul eC eC)) | 3 => eC | _ => EC 1 end%nat.
Definition emiddle (k : nat) : ex := EDiv (EAdd (epoint k) (epoint (k + 1))) (EC 2).
Lemma epoint_ok k : (k < 5)%nat -> ev env (epoint k) = cheb 5 k.
Proof.
  intros Hk. destruct k as [|[|[|[|[|k]]]]]; [| | | | |lia]; cbn [epoint ev eneg eC env Nat.eqb].
  - rewrite cheb_first by lia. auto.
  - rewrite (cheb_1 5) by lia. fold cc. ring.
  - rewrite (cheb_2 5) by lia. fold cc. ring.
  - symmetry. apply (cheb_m2 5). lia.
  - symmetry. apply (cheb_last 5). lia.
Qed.
Lemma emiddle_ok k : (k < 4)%nat -> ev env (emiddle k) = middle 5 k.
Proof. intros Hk. unfold emiddle, middle. cbn [ev]. rewrite !epoint_ok by lia. auto. Qed.
Definition eL (i k : nat) : ex := EMin (EMin (etanc i (emiddle (k - 1)) (epoint k)) (etanc i (emiddle k) (epoint k))) (ecub i (epoint k)).
Definition eU (i k : nat) : ex := EMax (EMax (etanc i (emiddle (k - 1)) (epoint k)) (etanc i (emiddle k) (epoint k))) (ecub i (epoint k)).
Lemma bounds_ok d i k : setup_data (gll_list 4) d 4 5 -> (i < 4)%nat -> (0 < k < 4)%nat -> lower d 4 5 i k = ev env (eL i k) /\ upper d 4 5 i k = ev env (eU i k).
Proof.
  intros SD Hi Hk. destruct (sd_inner _ _ _ _ SD i k Hi Hk) as (cl & cr & Tl & Tr & -> & ->). unfold eL, eU. cbn [ev].
  pose proof (basis_cub i) as B. pose proof (ecub_ok i) as E. unfold etanc. destruct (coef i) as [[[a0 a1] a2] a3].
  rewrite (tangent_cub (gll_list 4) 4 _ _ _ _ i _ _ cl (fun x => B x Hi) Tl), (tangent_cub (gll_list 4) 4 _ _ _ _ i _ _ cr (fun x => B x Hi) Tr), (B _ Hi).
  unfold tanc. cbn [ev]. rewrite !E, !epoint_ok, !emiddle_ok by lia. auto.
Qed.

(** The polynomial with the values -8, -20, 9, 19. *)
Definition uu : arr := [-8; -20; 9; 19].
Definition eu (i : nat) : ex := EC (match i with 0%nat => (-8)%Z | 1%nat => (-20)%Z | 2%nat => 9%Z | _ => 19%Z end).
Definition ez (i : nat) : ex := match i with 0 => EC (-1) | 1 => eneg eS | 2 => eS | _ => EC 1 end%nat.
Definition eP3 (x : ex) : ex := EDiv (ESub (EMul (EC 5) (EMul (EMul x x) x)) (EMul (EC 3) x)) (EC 2).
Definition ew (i : nat) : ex := EDiv (EC 2) (EMul (EC 12) (EMul (eP3 (ez i)) (eP3 (ez i)))).
Definition esum (f : nat -> ex) : ex := EAdd (EAdd (EAdd (EAdd (EC 0) (f 0%nat)) (f 1%nat)) (f 2%nat)) (f 3%nat).
Definition ea0 : ex := esum (fun i => EMul (EDiv (ew i) (EC 2)) (eu i)).
Definition ea1 : ex := esum (fun i => EMul (EMul (EMul (EDiv (EC 3) (EC 2)) (ew i)) (ez i)) (eu i)).
Definition et (i : nat) : ex := ESub (eu i) (EAdd ea0 (EMul ea1 (ez i))).
(** The upper bound at an inner point; the terms 1 and 3 are negative. *)
Definition etop (k : nat) : ex := EAdd (EAdd ea0 (EMul ea1 (epoint k))) (esum (fun i => EMul (et i) (if Nat.odd i then eL i k else eU i k))).
Definition epoly (x : ex) : ex := esum (fun i => EMul (eu i) (ecub i x)).

Lemma ez_ok i : (i < 4)%nat -> ev env (ez i) = get (gll_list 4) i.
Proof. intros Hi. destruct nodes_4 as (Z0 & Z1 & Z3). destruct i as [|[|[|[|i]]]]; [| | | |lia]; cbn [ez ev eneg eS env Nat.eqb]; rewrite ?Z0, ?Z1, ?Z3; fold sg; lra. Qed.
Lemma eu_ok i : (i < 4)%nat -> ev env (eu i) = get uu (0 + i).
Proof. intros Hi. destruct i as [|[|[|[|i]]]]; [| | | |lia]; reflexivity. Qed.
Lemma P3 x : P 3 x = (5 * (x * x * x) - 3 * x) / 2.
Proof. unfold P. cbn [PP fst]. cbn [INR]. field. Qed.
Lemma ew_ok i : (i < 4)%nat -> ev env (ew i) = lobatto_weight 4 (get (gll_list 4) i).
Proof.
  intros Hi. unfold ew, eP3, lobatto_weight. cbn [ev]. rewrite ez_ok by auto. cbn [Nat.sub]. rewrite P3. replace (INR 3 * INR 4) with 12 by (cbn [INR]; lra). auto.
Qed.
Lemma esum_ok f g : (forall i, (i < 4)%nat -> ev env (f i) = g i) -> ev env (esum f) = rsum 4 g.
Proof. intros H. unfold esum. cbn [ev rsum]. rewrite !H by lia. auto. Qed.

Lemma check_1 : le_check SC ienv (etop 1) 19 = true. Proof. vm_compute. reflexivity. Qed.
Lemma check_2 : le_check SC ienv (etop 2) 19 = true. Proof. vm_compute. reflexivity. Qed.
Lemma check_3 : le_check SC ienv (etop 3) 19 = true. Proof. vm_compute. reflexivity. Qed.
Lemma check_p : ge_check SC ienv (EMul (EC 10) (epoly (EDiv (EC 19) (EC 20)))) 191 = true. Proof. vm_compute. reflexivity. Qed.
Lemma check_t0 : ge_check SC ienv (et 0) 0 = true. Proof. vm_compute. reflexivity. Qed.
Lemma check_t1 : le_check SC ienv (EMul (EC 100) (et 1)) (-1) = true. Proof. vm_compute. reflexivity. Qed.
Lemma check_t2 : ge_check SC ienv (et 2) 0 = true. Proof. vm_compute. reflexivity. Qed.
Lemma check_t3 : le_check SC ienv (EMul (EC 100) (et 3)) (-1) = true. Proof. vm_compute. reflexivity. Qed.

Lemma tup_same t c : tup t c c = t * c.
Proof. unfold tup. destruct (Rle_dec 0 t); auto. Qed.
Lemma SC_pos : (0 < SC)%Z. Proof. reflexivity. Qed.
Lemma ev_mul v a b : ev v (EMul a b) = ev v a * ev v b. Proof. reflexivity. Qed.
Lemma poly_high : 191 / 10 <= ev env (epoly (EDiv (EC 19) (EC 20))).
Proof. pose proof (ge_ok SC SC_pos env ienv _ _ env_ok check_p) as C. rewrite ev_mul in C. set (x := ev env (epoly _)) in *. clearbody x. cbn [ev] in C. lra. Qed.
Lemma et_sign : 0 <= ev env (et 0) /\ ev env (et 1) < 0 /\ 0 <= ev env (et 2) /\ ev env (et 3) < 0.
Proof.
  pose proof (ge_ok SC SC_pos env ienv _ _ env_ok check_t0) as C0. pose proof (ge_ok SC SC_pos env ienv _ _ env_ok check_t2) as C2.
  pose proof (le_ok SC SC_pos env ienv _ _ env_ok check_t1) as C1. pose proof (le_ok SC SC_pos env ienv _ _ env_ok check_t3) as C3. rewrite ev_mul in C1, C3.
  set (x := ev env (et 0)) in *. clearbody x. set (x1 := ev env (et 1)) in *. clearbody x1. set (x2 := ev env (et 2)) in *. clearbody x2. set (x3 := ev env (et 3)) in *. clearbody x3. cbn [ev] in *. lra.
Qed.
Lemma etop_le k : (0 < k < 4)%nat -> ev env (etop k) <= 19.
Proof.
  intros Hk. destruct k as [|[|[|[|k]]]]; [lia| | | |lia].
  - exact (le_ok SC SC_pos env ienv _ _ env_ok check_1).
  - exact (le_ok SC SC_pos env ienv _ _ env_ok check_2).
  - exact (le_ok SC SC_pos env ienv _ _ env_ok check_3).
Qed.

Lemma too_small nn data work : (lob_bnd_size 4 5 <= length data)%nat -> (10 <= length work)%nat ->
  exists data' mn mx work', lob_bnd_setup nn data 4 5 = Ok data' /\ lob_bnd_1 data' 4 5 uu 0 work = Ok (mn, mx, work') /\
    mx < poly_1 data' 4 uu 0 (19 / 20).
Proof.
  intros Hd Hw. destruct (setup_runs nn 4 5 (gll_list 4) data ltac:(lia) ltac:(lia) (gll_points nn 4 ltac:(lia)) Hd) as (d & E & [L _] & SD).
  assert (Ld : (lob_bnd_size 4 5 <= length d)%nat) by (rewrite L; auto). clear L.
  destruct (fst_ok d 4 5 Ld work 0 uu 0 ltac:(lia) ltac:(cbn; lia)) as (w & E1 & [Lw _] & a0 & a1 & A0 & A1 & F).
  destruct (minmax_ok w 0 5 ltac:(lia) ltac:(lia)) as (mn & mx & E2 & _ & _ & j & Hj & M).
  exists d, mn, mx, w. split; [exact E|]. split.
  { unfold lob_bnd_1, lob_bnd_lin_1. rewrite E1. cbn [bind]. rewrite E2. reflexivity. }
  assert (B0 : a0 = ev env ea0).
  { rewrite A0. symmetry. unfold ea0. apply esum_ok. intros i Hi. cbn [ev]. rewrite ew_ok, eu_ok, (sd_func0 _ _ _ _ SD) by auto. lra. }
  assert (B1 : a1 = ev env ea1).
  { rewrite A1. symmetry. unfold ea1. apply esum_ok. intros i Hi. cbn [ev]. rewrite ew_ok, ez_ok, eu_ok, (sd_func1 _ _ _ _ SD) by auto. lra. }
  assert (T : forall i, (i < 4)%nat -> get uu (0 + i) - (a0 + a1 * node d i) = ev env (et i)).
  { intros i Hi. unfold et. cbn [ev]. rewrite eu_ok, ez_ok, (sd_node _ _ _ _ SD), <- B0, <- B1 by auto. auto. }
  assert (M19 : mx <= 19).
  { rewrite M. destruct (F j Hj) as [_ ->]. destruct (Nat.eq_dec j 0) as [->|J0]; [|destruct (Nat.eq_dec j 4) as [->|J4]].
    - rewrite (sd_point _ _ _ _ SD) by lia. cbn [rsum]. rewrite !T by lia. destruct nodes_4 as (Z0 & _ & _).
      destruct (sd_first _ _ _ _ SD 0%nat ltac:(lia)) as [-> ->]. destruct (sd_first _ _ _ _ SD 1%nat ltac:(lia)) as [-> ->].
      destruct (sd_first _ _ _ _ SD 2%nat ltac:(lia)) as [-> ->]. destruct (sd_first _ _ _ _ SD 3%nat ltac:(lia)) as [-> ->]. rewrite !tup_same. cbn [Nat.eqb].
      rewrite <- (T 0%nat) by lia. rewrite (sd_node _ _ _ _ SD), Z0, cheb_first by lia. cbn [uu get Nat.add nth]. lra.
    - rewrite (sd_point _ _ _ _ SD) by lia. cbn [rsum]. rewrite !T by lia. destruct nodes_4 as (_ & _ & Z3).
      destruct (sd_last _ _ _ _ SD 0%nat ltac:(lia)) as [A A']. destruct (sd_last _ _ _ _ SD 1%nat ltac:(lia)) as [B B'].
      destruct (sd_last _ _ _ _ SD 2%nat ltac:(lia)) as [C C']. destruct (sd_last _ _ _ _ SD 3%nat ltac:(lia)) as [D D']. cbn [Nat.sub] in *. rewrite A, A', B, B', C, C', D, D', !tup_same. cbn [Nat.eqb Nat.sub].
      rewrite <- (T 3%nat) by lia. rewrite (sd_node _ _ _ _ SD), Z3 by lia. rewrite (cheb_last 5 ltac:(lia) : cheb 5 4 = 1). unfold get. cbn [uu Nat.add nth]. lra.
    - assert (Hj' : (0 < j < 4)%nat) by lia. eapply Rle_trans; [|apply (etop_le j Hj')]. apply Req_le. unfold etop. cbn [ev]. rewrite <- B0, <- B1, epoint_ok, (sd_point _ _ _ _ SD) by lia. f_equal. symmetry. apply esum_ok.
      intros i Hi. rewrite T by auto. destruct (bounds_ok d i j SD Hi Hj') as [-> ->]. destruct et_sign as (S0 & S1 & S2 & S3). unfold tup.
      destruct i as [|[|[|[|i]]]]; [| | | |lia]; cbn [Nat.odd Nat.even negb ev]; destruct (Rle_dec 0 _); auto; lra. }
  enough (191 / 10 <= poly_1 d 4 uu 0 (19 / 20)) by lra. eapply Rle_trans; [apply poly_high|]. apply Req_le. unfold epoly, poly_1. apply esum_ok. intros i Hi. cbn [ev].
  rewrite eu_ok by auto. f_equal. rewrite (basis_ext d (gll_list 4) 4) by (auto; intros; apply (sd_node _ _ _ _ SD); auto).
  pose proof (ecub_ok i (EDiv (EC 19) (EC 20))) as G. pose proof (basis_cub i (19 / 20) Hi) as B. destruct (coef i) as [[[c0 c1] c2] c3]. rewrite G, B. reflexivity.
Qed.
