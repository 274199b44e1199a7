(** The searches of findpts_el_3 in any history; they do not depend on it. *)
From Verif Require Import Base BaseLemmas Tensor TensorSpec TensorProof Poly PolySpec PolyProof1 PolyProof2 PolyProof3 LobBndSpec FindptsEl2 FindptsEl2Spec FindptsEl2Proof1 FindptsEl2Proof2 FindptsEl2Proof3 FindptsEl2Proof10 FindptsEl3 FindptsEl3Spec FindptsEl3Proof1 FindptsEl3Proof2 FindptsEl3Proof3 FindptsEl3Proof4 FindptsEl3Proof5 FindptsEl3Proof6 FindptsEl3Proof7 FindptsEl3Proof8.
From Coq Require Import Reals Lra Psatz NArith.
Open Scope R_scope.

Definition nearest3 (DBL_MAX : R) (fd : el) (x : list R) : R := match seed3 DBL_MAX fd x with Ok (b, _) => b | _ => 0 end.
Lemma flags_split3 f : In f all27 -> f = (con f 0 + 4 * con f 1 + 16 * con f 2)%N /\ N.lor f CONVERGED_FLAG3 = (con f 0 + 4 * con f 1 + 16 * con f 2 + 64)%N.
Proof. intros H. flags27 H; vm_compute; auto. Qed.

Section Found.
Variable DBL_MAX : R.
Hypothesis HM : 0 < DBL_MAX.
Variable fd : el.
Variable zd : nat -> arr.
Variable Qd : nat -> arr -> Prop.
Hypothesis Hel : forall d, (d < 3)%nat -> elem_dir fd zd Qd d.
Hypothesis Hux : length (ux fd) = 3%nat.
Hypothesis Hx : forall d, (d < 3)%nat -> (nn fd 0 * nn fd 1 * nn fd 2 <= length (arr_at (ux fd) d))%nat.
Variable tol : R.
Notation e := (sh3 fd zd).
Notation ok3 := (ok3 DBL_MAX fd zd tol (nearest3 DBL_MAX fd)).
Notation moved3 := (moved3 DBL_MAX fd zd tol (nearest3 DBL_MAX fd)).

Lemma reachable_node3 x : reachable3 DBL_MAX e x -> exists i j k, in_range fd i j k /\ D3 fd zd x (nodept zd i j k) < DBL_MAX.
Proof. intros (i & j & k & Hi & H). exists i, j, k. split; [exact Hi|]. rewrite D_sqdist3. exact H. Qed.
Lemma found_ok3 i x p : reachable3 DBL_MAX e x -> px p = x -> index p = i -> ok3 p -> moved3 p -> found3 e tol i x (masked3 p).
Proof.
  intros Hr Ex Ei I M. destruct (seed_ok3 DBL_MAX fd zd Qd Hel Hux Hx x (reachable_node3 x Hr)) as (u & v & w & Huvw & Es & _ & Hmin).
  assert (Nx : nearest3 DBL_MAX fd (px p) = D3 fd zd x (nodept zd u v w)) by (unfold nearest3; rewrite Ex, Es; auto).
  unfold FindptsEl3Proof6.ok3, FindptsEl3Proof6.moved3 in I, M. rewrite Nx in I, M.
  assert (Bst : dist2 p <= D3 fd zd x (nodept zd u v w)) by (destruct M as [M|M]; [apply (s3'_best _ _ _ _ _ M)|apply (r3_best _ _ _ _ _ _ M)]).
  pose proof (i3_box _ _ _ _ _ _ I) as Bx. pose proof Bx as [Lp _].
  assert (Bo : in_box3 (oldr p)) by (destruct M as [M|M]; [apply (s3'_box _ _ _ _ _ M)|apply (r3_box _ _ _ _ _ _ M)]). pose proof Bo as [Lo _].
  assert (Act : (64 <= N.land (flags p) FLAG_MASK3)%N -> ~ active3 p) by (intros H A; pose proof (lt27 _ A) as Q; unfold low3 in Q; lia).
  constructor; cbn [masked3 px pr oldr dist2 dist2p index flags].
  - auto.
  - auto.
  - exact Bx.
  - destruct (i3_fl _ _ _ _ _ _ I) as (f & F1 & F2 & F3). destruct (flags_split3 f F1) as [E1 E2].
    assert (Sd : forall d, (d < 3)%nat -> side (con f d) (nth d (pr p) 0)) by (intros d Hd; destruct (F2 d Hd) as [H|[H|H]]; [left; auto|right; left; auto|right; right; auto]).
    unfold low3 in F3. destruct F3 as [->| ->]; [exists (con f 0), (con f 1), (con f 2), 0%N|exists (con f 0), (con f 1), (con f 2), 1%N].
    + split; [rewrite E1 at 1; lia|]. repeat (split; [apply Sd; lia|]). auto.
    + split; [rewrite E2; lia|]. repeat (split; [apply Sd; lia|]). auto.
  - split; [exact Bo|]. rewrite <- !D_sqdist3, <- Ex. destruct M as [M|M].
    + left. split; [apply (s3'_pred _ _ _ _ _ M)|apply (s3'_dist _ _ _ _ _ M)].
    + right. split; [rewrite (r3_pred _ _ _ _ _ _ M); lra|apply (r3_dist _ _ _ _ _ _ M)].
  - intros Hp. destruct M as [M|M]; [|exfalso; rewrite (r3_pred _ _ _ _ _ _ M) in Hp; lra]. rewrite <- Ex.
    apply (predicted_ok3 fd zd Qd Hel Hux); [exact Bx|]. apply (s3'_model _ _ _ _ _ M).
  - intros a b c Habc. apply Rle_trans with (1 := Bst). change (sqdist3 e x (node3 e a b c)) with (sqdist3 e x (nodept zd a b c)). rewrite <- D_sqdist3. apply Hmin. exact Habc.
  - intros Hc. specialize (Act Hc). destruct M as [M|M].
    + destruct (s3'_conv _ _ _ _ _ M Act) as [H|[H1 H2]].
      * left. split; [apply (s3'_pred _ _ _ _ _ M)|exact H].
      * right; left. split; [auto|]. rewrite <- Ex. apply (corner_ok3 fd zd Qd Hel Hux); auto.
    + right; right. split; [rewrite (r3_pred _ _ _ _ _ _ M); lra|]. destruct (r3_conv _ _ _ _ _ _ M Act) as (pred & H1 & H2). exists pred. rewrite <- Ex. split; [apply (predicted_ok3 fd zd Qd Hel Hux); [exact Bo|auto]|].
      rewrite <- D_sqdist3. auto.
Qed.
End Found.

(** ** Histories *)
Section Hist.
Variable DBL_MAX : R.
Hypothesis HM : 0 < DBL_MAX.
Variable P : products R.
Hypothesis G : good R 0 Rplus Rmult P.
Variable nodes_n : arr -> nat -> res arr.
Variable nr ns nt : nat.
Variable zr zs zt : arr.
Hypothesis Hr : el_points nodes_n nr zr.
Hypothesis Hs : el_points nodes_n ns zs.
Hypothesis Ht : el_points nodes_n nt zt.
Variable npt : nat.
Notation zd := (trip zr zs zt).
Notation history3 := (history3 DBL_MAX P nodes_n nr ns nt zr zs zt npt).
(** What is known of the structure. *)
Record known3 (e : shape3) (fd : el) (s : st3) (Qd : nat -> arr -> Prop) : Prop := {
  k3_dir : forall d, (d < 3)%nat -> elem_dir fd zd Qd d;
  k3_st : good_st fd zd Qd s;
  k3_coords : coords nr ns nt (ux fd);
  k3_n : n fd = [nr; ns; nt];
  k3_npt : npt_max fd = npt;
  k3_sh : sh3 fd zd = e }.
Lemma node_in3 fd d i : n fd = [nr; ns; nt] -> (d < 3)%nat -> (i < nn fd d)%nat -> -1 <= get (zd d) i <= 1.
Proof. unfold nn. intros E Hd Hi. rewrite E in Hi. dim3 d Hd; [apply (ep_in _ _ _ Hr); auto|apply (ep_in _ _ _ Hs); auto|apply (ep_in _ _ _ Ht); auto]. Qed.
Lemma known_x e fd s Qd : known3 e fd s Qd -> length (ux fd) = 3%nat /\ (forall d, (d < 3)%nat -> (nn fd 0 * nn fd 1 * nn fd 2 <= length (arr_at (ux fd) d))%nat).
Proof. intros [_ _ [L C] N _ _]. split; [auto|]. intros d Hd. unfold nn. rewrite N. cbn [nth]. apply C. auto. Qed.
Lemma search_known3 e fd s Qd xs tol : known3 e fd s Qd -> regular3 e -> (length xs <= npt)%nat -> (forall x, In x xs -> reachable3 DBL_MAX e x) ->
  exists out s', findpts_el_3 DBL_MAX P fd s xs tol = Ok (out, s') /\ known3 e fd s' Qd /\ length out = length xs /\
    forall i x, nth_error xs i = Some x -> exists p, nth_error out i = Some (masked3 p) /\ found3 e tol i x (masked3 p) /\ run3 DBL_MAX fd zd tol 50 (first3 DBL_MAX fd i x) = Ok p.
Proof.
  intros K Rg Hn Hx. destruct (known_x _ _ _ _ K) as [Hux HX]. destruct K as [K1 K2 K3 K4 K5 K6]. subst e.
  destruct (el_ok3 DBL_MAX HM P G fd zd Qd K1 Hux HX tol (regular_reg3 fd zd Qd K1 Hux Rg) (nearest3 DBL_MAX fd)) with (s := s) (xs := xs) as (out & s' & E & S' & L & V); auto.
  - intros d i. apply node_in3. auto.
  - intros x b r Es. unfold nearest3. rewrite Es. auto.
  - lia.
  - intros x Hin. apply (reachable_node3 DBL_MAX fd zd). apply Hx. auto.
  - exists out, s'. split; [auto|]. split; [constructor; auto|]. split; [auto|]. intros i x Hi. destruct (V i x Hi) as (p & V1 & V2 & V3 & V4 & V5 & V6). exists p. split; [auto|]. split; [|auto].
    apply (found_ok3 DBL_MAX HM fd zd Qd K1 Hux HX); auto. apply Hx. apply (nth_error_In _ _ Hi).
Qed.
Lemma history_known3 e fd s : history3 e fd s -> exists Qd, known3 e fd s Qd.
Proof.
  induction 1 as [x fd s Cx E|e fd s x H IH Cx|e fd s xs tol out s' H IH Rg Hn Hx E|e fd s rs u out s' H IH Hn Hu E].
  - destruct (setup_ok3 nodes_n nr ns nt zr zs zt npt x Hr Hs Ht Cx) as (fd' & s0 & Qd & E' & K1 & K2 & K3 & K4 & K5). rewrite E' in E. injection E as <- <-.
    exists Qd. constructor; auto; [rewrite K3; auto|]. unfold sh3, nn. rewrite K2, K3. reflexivity.
  - destruct IH as (Qd & [K1 K2 K3 K4 K5 K6]). exists Qd. pose proof (start_ok3 fd zd Qd s nr ns nt x K4 K1 K2 Cx) as Q. unfold findpts_el_start_3 in *. destruct Q as (Q1 & Q2 & Q3 & Q4 & Q5). cbn [fst snd].
    constructor; auto. unfold sh3, nn. rewrite Q2, Q3, K4. reflexivity.
  - destruct IH as (Qd & K). exists Qd. destruct (search_known3 e fd s Qd xs tol K Rg Hn Hx) as (out' & s'' & E' & K' & _). rewrite E' in E. injection E as <- <-. auto.
  - destruct IH as (Qd & K). exists Qd. destruct (known_x _ _ _ _ K) as [Hux _]. destruct K as [K1 K2 K3 K4 K5 K6].
    destruct (eval_ok3 P G fd zd Qd K1 Hux s rs u K2 ltac:(lia) ltac:(unfold nn; rewrite K4; exact Hu)) as (s0 & S0 & E0). rewrite E0 in E. injection E as <- <-. constructor; auto.
Qed.
Lemma search_ok3 e fd s xs tol : history3 e fd s -> regular3 e -> (length xs <= npt)%nat -> (forall x, In x xs -> reachable3 DBL_MAX e x) ->
  exists out s', findpts_el_3 DBL_MAX P fd s xs tol = Ok (out, s') /\ history3 e fd s' /\ length out = length xs /\
    forall i x, nth_error xs i = Some x -> exists p, nth_error out i = Some p /\ found3 e tol i x p.
Proof.
  intros H Rg Hn Hx. destruct (history_known3 _ _ _ H) as (Qd & K). destruct (search_known3 e fd s Qd xs tol K Rg Hn Hx) as (out & s' & E & _ & L & V). exists out, s'.
  split; [auto|]. split; [apply (h3_search _ _ _ _ _ _ _ _ _ _ e fd s xs tol out s'); auto|]. split; [auto|]. intros i x Hi. destruct (V i x Hi) as (p & V1 & V2 & _). exists (masked3 p). auto.
Qed.
Lemma eval_known3 e fd s rs u : history3 e fd s -> (length rs <= npt)%nat -> (nr * ns * nt <= length u)%nat ->
  exists s', findpts_el_eval_3 P fd s rs u = Ok (map (value3 e u) rs, s') /\ history3 e fd s'.
Proof.
  intros H Hn Hu. destruct (history_known3 _ _ _ H) as (Qd & K). destruct (known_x _ _ _ _ K) as [Hux _]. destruct K as [K1 K2 K3 K4 K5 K6].
  destruct (eval_ok3 P G fd zd Qd K1 Hux s rs u K2 ltac:(lia) ltac:(unfold nn; rewrite K4; exact Hu)) as (s0 & S0 & E0).
  assert (E1 : map (inter3 fd zd u) rs = map (value3 e u) rs) by (apply map_ext; intros r; rewrite inter_value3, K6; reflexivity).
  rewrite E1 in E0. exists s0. split; [auto|]. apply (h3_eval _ _ _ _ _ _ _ _ _ _ e fd s rs u _ s0 H Hn Hu E0).
Qed.
End Hist.

(** ** Independence *)
Lemma renum_reject3 M resid i p tol : reject_prior_step_q3 M resid (renum i p) tol = let '(q, b) := reject_prior_step_q3 M resid p tol in (renum i q, b).
Proof. unfold reject_prior_step_q3. cbn [px pr oldr dist2 dist2p tr index flags renum]. destruct (Rle_dec _ _); [destruct (Rle_dec _ _)|]; reflexivity. Qed.
Lemma renum_vol out jac resid i p tol : newton_vol (renum i out) jac resid (renum i p) tol = rmap (renum i) (newton_vol out jac resid p tol).
Proof.
  unfold newton_vol. cbn [px pr oldr dist2 dist2p tr index flags renum]. destruct (vol_bounds (pr p) (tr p)) as [bnd mask]. destruct (lin_solve_3 jac resid) as [dr| | |]; cbn [bind rmap]; auto.
  destruct (vol_first (pr p) dr bnd) as [[fac fl]| | |]; cbn [bind rmap]; auto.
  destruct (if (fl =? 0)%N then Ok (dr, fl) else vol_loop 21 jac resid (pr p) bnd true (map (fun d => ent dr d * fac) dims) fl) as [[dr' fl']| | |]; cbn [bind rmap]; auto.
Qed.
Lemma renum_face out jac rh resid d1 d2 dn fl i p tol : newton_face (renum i out) jac rh resid d1 d2 dn fl (renum i p) tol = rmap (renum i) (newton_face out jac rh resid d1 d2 dn fl p tol).
Proof.
  unfold newton_face. cbn [px pr oldr dist2 dist2p tr index flags renum].
  destruct (face_bound (tr p) (ent (pr p) d1) 1 63) as [[b0 b1] m1]. destruct (face_bound (tr p) (ent (pr p) d2) 4 m1) as [[b2 b3] m2].
  match goal with |- context [face_best ?A ?y b0 b1 b2 b3 0 0] => set (A' := A); set (y' := y) end.
  assert (Cn : forall a b, (a' <- face_best A' y' b0 b1 b2 b3 a b ;; (let '(v, i0, e0, e1) := a' in let '(r0, nf) := face_set (tr p) i0 m2 0 d1 (ent (pr p) d1) e0 fl in let '(r1, nf0) := face_set (tr p) i0 m2 1 d2 (ent (pr p) d2) e1 nf in
     Ok (set_step (renum i out) (upd (upd (upd [0; 0; 0] dn (ent (pr p) dn)) d1 r0) d2 r1) (-2 * v) (N.lor (if Rlt_dec (Rabs (r0 - ent (pr p) d1) + Rabs (r1 - ent (pr p) d2)) tol then N.lor nf0 CONVERGED_FLAG3 else nf0) (shl (flags p) 7))))) =
    rmap (renum i) (a' <- face_best A' y' b0 b1 b2 b3 a b ;; (let '(v, i0, e0, e1) := a' in let '(r0, nf) := face_set (tr p) i0 m2 0 d1 (ent (pr p) d1) e0 fl in let '(r1, nf0) := face_set (tr p) i0 m2 1 d2 (ent (pr p) d2) e1 nf in
     Ok (set_step out (upd (upd (upd [0; 0; 0] dn (ent (pr p) dn)) d1 r0) d2 r1) (-2 * v) (N.lor (if Rlt_dec (Rabs (r0 - ent (pr p) d1) + Rabs (r1 - ent (pr p) d2)) tol then N.lor nf0 CONVERGED_FLAG3 else nf0) (shl (flags p) 7)))))).
  { intros a b. destruct (face_best A' y' b0 b1 b2 b3 a b) as [[[[v i0] e0] e1]| | |]; cbn [bind rmap]; auto. destruct (face_set (tr p) i0 m2 0 d1 (ent (pr p) d1) e0 fl) as [r0 nf]. destruct (face_set (tr p) i0 m2 1 d2 (ent (pr p) d2) e1 nf) as [r1 nf1]. reflexivity. }
  destruct (Rle_dec (ent A' 0 + ent A' 2) 0); [apply Cn|]. destruct (Rle_dec (ent A' 0 * ent A' 2) (ent A' 1 * ent A' 1)); [apply Cn|].
  destruct (lin_solve_sym_2 A' y') as [[c1 c2]| | |]; cbn [bind rmap]; auto. destruct (Rle_dec _ _); [destruct (Rle_dec _ _)|]; [reflexivity|apply Cn|apply Cn].
Qed.
Lemma renum_edge3 out jac rh resid de d1 d2 fl i p tol : newton_edge3 (renum i out) jac rh resid de d1 d2 fl (renum i p) tol = rmap (renum i) (newton_edge3 out jac rh resid de d1 d2 fl p tol).
Proof.
  unfold newton_edge3. cbn [px pr oldr dist2 dist2p tr index flags renum].
  repeat match goal with |- context [Rlt_dec ?a ?b] => destruct (Rlt_dec a b); cbn [bind rmap]; auto | |- context [dv ?a ?b] => destruct (dv a b); cbn [bind rmap]; auto end.
Qed.
Lemma renum_after M fd zd tol i p k : (forall out, k (renum i out) = rmap (renum i) (k out)) -> forall k', (forall out, k' out = k out) -> after M fd zd (renum i p) tol k' = rmap (renum i) (after M fd zd p tol k').
Proof.
  intros H k' Hk. unfold after. change (residual fd zd (renum i p)) with (residual fd zd p). rewrite renum_reject3. destruct (reject_prior_step_q3 M (residual fd zd p) p tol) as [q b]. destruct b; [reflexivity|]. rewrite !Hk. apply H.
Qed.
Lemma renum_vstep fd zd out i p tol : vstep fd zd (renum i out) (renum i p) tol = rmap (renum i) (vstep fd zd out p tol).
Proof. apply renum_vol. Qed.
Lemma renum_fstep fd zd out i p tol d1 d2 dn fl : fstep fd zd (renum i out) (renum i p) tol d1 d2 dn fl = rmap (renum i) (fstep fd zd out p tol d1 d2 dn fl).
Proof. apply renum_face. Qed.
Lemma renum_estep fd zd out i p tol de d1 d2 fl : estep fd zd (renum i out) (renum i p) tol de d1 d2 fl = rmap (renum i) (estep fd zd out p tol de d1 d2 fl).
Proof. apply renum_edge3. Qed.
Lemma renum_step3 M fd zd tol f i p : step3 M fd zd tol f (renum i p) = rmap (renum i) (step3 M fd zd tol f p).
Proof.
  assert (St : forall d, steep fd zd (renum i p) d = steep fd zd p d) by reflexivity.
  unfold step3, vol1, face1, edge1, pt1, after. change (residual fd zd (renum i p)) with (residual fd zd p). rewrite !renum_reject3.
  destruct (reject_prior_step_q3 M (residual fd zd p) p tol) as [q b]. rewrite !St.
  destruct (num_constrained3 f =? 0)%N; [|destruct (num_constrained3 f =? 1)%N; [|destruct (num_constrained3 f =? 2)%N]]; (destruct b; [reflexivity|]);
  repeat match goal with |- context [Rlt_dec ?a ?b] => destruct (Rlt_dec a b) end; auto using renum_vstep, renum_fstep, renum_estep.
Qed.
Lemma renum_run3 M fd zd tol i : forall k p, run3 M fd zd tol k (renum i p) = rmap (renum i) (run3 M fd zd tol k p).
Proof.
  induction k as [|k IH]; intros p; [reflexivity|]. rewrite !run3_S. change (activeb3 (renum i p)) with (activeb3 p). destruct (activeb3 p); [|reflexivity].
  change (low3 (renum i p)) with (low3 p). rewrite renum_step3. destruct (step3 M fd zd tol (low3 p) p) as [q| | |]; cbn [bind rmap]; auto.
Qed.
Lemma renum_first3 M fd i j x : first3 M fd j x = renum j (first3 M fd i x).
Proof. unfold first3. destruct (seed3 M fd x) as [[b [r|]]| | |]; reflexivity. Qed.
Lemma zz_eq3 nr ns nt zr zs zt npt npt' e fd fd' s s' Q Q' : known3 nr ns nt zr zs zt npt e fd s Q -> known3 nr ns nt zr zs zt npt' e fd' s' Q' -> forall d, (d < 3)%nat -> arr_at (zz fd) d = arr_at (zz fd') d.
Proof.
  intros [K1 _ _ K4 _ _] [K1' _ _ K4' _ _] d Hd. destruct (K1 d Hd) as [_ _ _ _ L V _ _ _ _]. destruct (K1' d Hd) as [_ _ _ _ L' V' _ _ _ _].
  assert (En : nn fd d = nn fd' d) by (unfold nn; rewrite K4, K4'; auto). apply (nth_ext _ _ 0 0); [lia|]. intros i Hi. fold (get (arr_at (zz fd) d) i) (get (arr_at (zz fd') d) i). rewrite V, V' by lia. auto.
Qed.
Lemma step_T M fd fd' zd tol f p : T fd zd = T fd' zd -> step3 M fd zd tol f p = step3 M fd' zd tol f p.
Proof. intros E. unfold step3, vol1, face1, edge1, pt1, after, vstep, fstep, estep, steep, hess, residual, jacobian. rewrite E. reflexivity. Qed.
Lemma same_run3 M nr ns nt zr zs zt npt npt' e fd fd' s s' Q Q' tol m i x : known3 nr ns nt zr zs zt npt e fd s Q -> known3 nr ns nt zr zs zt npt' e fd' s' Q' ->
  run3 M fd (trip zr zs zt) tol m (first3 M fd i x) = run3 M fd' (trip zr zs zt) tol m (first3 M fd' i x).
Proof.
  intros K K'. pose proof (zz_eq3 _ _ _ _ _ _ _ _ _ _ _ _ _ _ _ K K') as Z. pose proof (k3_sh _ _ _ _ _ _ _ _ _ _ _ K) as E1. pose proof (k3_sh _ _ _ _ _ _ _ _ _ _ _ K') as E2.
  destruct K as [_ _ _ N1 _ _]. destruct K' as [_ _ _ N2 _ _].
  assert (U : ux fd = ux fd') by (rewrite <- E2 in E1; injection E1; auto). clear E1 E2.
  assert (F : first3 M fd i x = first3 M fd' i x).
  { unfold first3. replace (seed3 M fd x) with (seed3 M fd' x); [auto|]. unfold seed3, nn. rewrite N1, N2, U. apply foldM_ext. intros [b r] [j [k l]]. rewrite <- !Z by lia. auto. }
  rewrite F. generalize (first3 M fd' i x). clear F. destruct fd as [k0 n0 z0 l0 w0 u0], fd' as [k1 n1 z1 l1 w1 u1]. cbn [n ux zz] in *. subst n0 n1 u0. revert m.
  induction m as [|m IH]; intros p; [reflexivity|]. rewrite !run3_S. rewrite (step_T M (El k0 [nr; ns; nt] z0 l0 w0 u1) (El k1 [nr; ns; nt] z1 l1 w1 u1)) by reflexivity. destruct (activeb3 p); [|reflexivity].
  destruct (step3 M _ _ tol (low3 p) p); cbn [bind]; auto.
Qed.
Lemma independent3 M P P' nodes_n nodes_n' nr ns nt zr zs zt npt npt' e fd fd' s s' xs xs' tol out out' t t' i i' x : 0 < M -> good R 0 Rplus Rmult P -> good R 0 Rplus Rmult P' ->
  el_points nodes_n nr zr -> el_points nodes_n ns zs -> el_points nodes_n nt zt -> el_points nodes_n' nr zr -> el_points nodes_n' ns zs -> el_points nodes_n' nt zt ->
  history3 M P nodes_n nr ns nt zr zs zt npt e fd s -> history3 M P' nodes_n' nr ns nt zr zs zt npt' e fd' s' -> regular3 e ->
  (length xs <= npt)%nat -> (length xs' <= npt')%nat -> (forall x, In x xs -> reachable3 M e x) -> (forall x, In x xs' -> reachable3 M e x) ->
  findpts_el_3 M P fd s xs tol = Ok (out, t) -> findpts_el_3 M P' fd' s' xs' tol = Ok (out', t') -> nth_error xs i = Some x -> nth_error xs' i' = Some x ->
  exists p, nth_error out i = Some p /\ nth_error out' i' = Some (renum i' p).
Proof.
  intros HM G G' Hr Hs Ht Hr' Hs' Ht' H H' Rg Ln Ln' Hx Hx' E E' Hi Hi'.
  destruct (history_known3 M HM P G nodes_n nr ns nt zr zs zt Hr Hs Ht npt e fd s H) as (Q & K). destruct (history_known3 M HM P' G' nodes_n' nr ns nt zr zs zt Hr' Hs' Ht' npt' e fd' s' H') as (Q' & K').
  destruct (search_known3 M HM P G nodes_n nr ns nt zr zs zt Hr Hs Ht npt e fd s Q xs tol K Rg Ln Hx) as (o & u & E1 & _ & _ & V). rewrite E1 in E. injection E as -> ->.
  destruct (search_known3 M HM P' G' nodes_n' nr ns nt zr zs zt Hr' Hs' Ht' npt' e fd' s' Q' xs' tol K' Rg Ln' Hx') as (o' & u' & E1' & _ & _ & V'). rewrite E1' in E'. injection E' as -> ->.
  destruct (V i x Hi) as (p & V1 & _ & R1). destruct (V' i' x Hi') as (p' & V1' & _ & R1'). exists (masked3 p). split; [auto|]. rewrite V1'. f_equal.
  rewrite <- (same_run3 M nr ns nt zr zs zt npt npt' e fd fd' s s' Q Q' tol 50 i' x K K'), (renum_first3 M fd i i' x), renum_run3, R1 in R1'. cbn [rmap] in R1'. injection R1' as <-. reflexivity.
Qed.
