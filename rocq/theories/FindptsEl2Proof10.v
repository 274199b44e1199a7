(** The searches of findpts_el_2 in any history; they do not depend on it. *)
From Verif Require Import Base BaseLemmas Tensor TensorSpec TensorProof Poly PolySpec PolyProof1 PolyProof2 PolyProof3 LobBndSpec FindptsEl2 FindptsEl2Spec FindptsEl2Proof1 FindptsEl2Proof2 FindptsEl2Proof3 FindptsEl2Proof4 FindptsEl2Proof5 FindptsEl2Proof6 FindptsEl2Proof7 FindptsEl2Proof9.
From Coq Require Import Reals Lra Psatz NArith.
Open Scope R_scope.

Definition nearest (DBL_MAX : R) (fd : el) (x : list R) : R := match seed1 DBL_MAX fd x with Ok (b, _) => b | _ => 0 end.

Lemma flags_split f : In f nine -> f = (con f 0 + 4 * con f 1)%N /\ N.lor f CONVERGED_FLAG = (con f 0 + 4 * con f 1 + 16)%N.
Proof. intros H. nines H; vm_compute; auto. Qed.

Section Found.
Variable DBL_MAX : R.
Hypothesis HM : 0 < DBL_MAX.
Variable fd : el.
Variable zd : nat -> arr.
Variable Qd : nat -> arr -> Prop.
Hypothesis Hel : forall d, (d < 2)%nat -> elem_dir fd zd Qd d.
Hypothesis Hux : length (ux fd) = 2%nat.
Variable tol : R.
Notation e := (sh fd zd).
Notation ok := (ok DBL_MAX fd zd tol (nearest DBL_MAX fd)).
Notation moved := (moved DBL_MAX fd zd tol (nearest DBL_MAX fd)).

Lemma reachable_node x : reachable DBL_MAX e x -> exists i j, (i < nn fd 0)%nat /\ (j < nn fd 1)%nat /\ D fd zd x (node zd i j) < DBL_MAX.
Proof. intros (i & j & Hi & Hj & H). exists i, j. split; [auto|]. split; [auto|]. rewrite (D_sqdist fd zd Hux). exact H. Qed.
Lemma found_ok i x p : reachable DBL_MAX e x -> px p = x -> index p = i -> ok p -> moved p -> found e tol i x (masked p).
Proof.
  intros Hr Ex Ei I M. destruct (seed_ok DBL_MAX fd zd Qd Hel Hux x (reachable_node x Hr)) as (u & v & Hu & Hv & Es & _ & Hmin).
  assert (Nx : nearest DBL_MAX fd (px p) = D fd zd x (node zd u v)) by (unfold nearest; rewrite Ex, Es; auto).
  unfold FindptsEl2Proof5.ok, FindptsEl2Proof5.moved in I, M. rewrite Nx in I, M.
  assert (Bst : dist2 p <= D fd zd x (node zd u v)) by (destruct M as [M|M]; [apply (s_best _ _ _ _ _ M)|apply (r_best _ _ _ _ _ _ M)]).
  pose proof (i_box _ _ _ _ _ _ I) as Bx. pose proof Bx as [Lp _].
  assert (Bo : in_box (oldr p)) by (destruct M as [M|M]; [apply (s_box _ _ _ _ _ M)|apply (r_box _ _ _ _ _ _ M)]). pose proof Bo as [Lo _].
  assert (Act : (16 <= N.land (flags p) FLAG_MASK)%N -> ~ active p) by (intros H A; pose proof (nine_lt _ A) as Q; unfold low in Q; lia).
  constructor; cbn [masked px pr oldr dist2 dist2p index flags].
  - auto.
  - auto.
  - apply (box_square fd Hux). auto.
  - destruct (i_fl _ _ _ _ _ _ I) as (f & F1 & F2 & F3). destruct (flags_split f F1) as [E1 E2].
    assert (Sd : forall d, (d < 2)%nat -> side (con f d) (nth d (pr p) 0)) by (intros d Hd; destruct (F2 d Hd) as [H|[H|H]]; [left; auto|right; left; auto|right; right; auto]).
    unfold low in F3. destruct F3 as [->| ->]; [exists (con f 0), (con f 1), 0%N|exists (con f 0), (con f 1), 1%N].
    + split; [rewrite E1 at 1; lia|]. split; [apply (Sd 0%nat); lia|]. split; [apply (Sd 1%nat); lia|auto].
    + split; [rewrite E2; lia|]. split; [apply (Sd 0%nat); lia|]. split; [apply (Sd 1%nat); lia|auto].
  - split; [apply (box_square fd Hux); auto|]. unfold sqdist_at. rewrite <- !(D_sqdist fd zd Hux), <- Ex. destruct M as [M|M].
    + left. split; [apply (s_pred _ _ _ _ _ M)|apply (s_dist _ _ _ _ _ M)].
    + right. split; [rewrite (r_pred _ _ _ _ _ _ M); lra|apply (r_dist _ _ _ _ _ _ M)].
  - intros Hp. destruct M as [M|M]; [|exfalso; rewrite (r_pred _ _ _ _ _ _ M) in Hp; lra]. rewrite <- Ex.
    split; [apply (predicted_ok fd zd Qd Hel Hux); auto; apply (s_model _ _ _ _ _ M)|apply (optimal_ok fd zd Qd Hel Hux); auto; apply (s_min _ _ _ _ _ M)].
  - intros a b Ha Hb. apply Rle_trans with (1 := Bst). change (sqdist e x (get (s_zr e) a) (get (s_zs e) b)) with (sqdist e x (nth 0 (node zd a b) 0) (nth 1 (node zd a b) 0)). rewrite <- (D_sqdist fd zd Hux). apply Hmin; auto.
  - intros Hc. specialize (Act Hc). destruct M as [M|M].
    + destruct (s_conv _ _ _ _ _ M Act) as [H|[H1 H2]].
      * left. split; [apply (s_pred _ _ _ _ _ M)|exact H].
      * right; left. split; [auto|]. rewrite <- Ex. apply (corner_ok fd zd Qd Hel Hux); auto.
    + right; right. split; [rewrite (r_pred _ _ _ _ _ _ M); lra|]. destruct (r_conv _ _ _ _ _ _ M Act) as (pred & H1 & H2). exists pred. rewrite <- Ex. split; [apply (predicted_ok fd zd Qd Hel Hux); auto|].
      unfold sqdist_at. rewrite <- (D_sqdist fd zd Hux). auto.
Qed.
End Found.

(** ** Histories *)
Section Hist.
Variable DBL_MAX : R.
Hypothesis HM : 0 < DBL_MAX.
Variable P : products R.
Hypothesis G : good R 0 Rplus Rmult P.
Variable nodes_n : arr -> nat -> res arr.
Variable nr ns : nat.
Variable zr zs : arr.
Hypothesis Hr : el_points nodes_n nr zr.
Hypothesis Hs : el_points nodes_n ns zs.
Variable npt : nat.
Notation zd := (pair2 zr zs).
Notation history := (history DBL_MAX P nodes_n nr ns zr zs npt).
(** What is known of the structure. *)
Record known (e : shape) (fd : el) (s : st) (Qd : nat -> arr -> Prop) : Prop := {
  k_dir : forall d, (d < 2)%nat -> elem_dir fd zd Qd d;
  k_st : good_st fd zd Qd s;
  k_ux : ux fd = [s_x e; s_y e];
  k_n : n fd = [nr; ns];
  k_npt : npt_max fd = npt;
  k_sh : sh fd zd = e }.
Lemma node_in fd d i : n fd = [nr; ns] -> (d < 2)%nat -> (i < nn fd d)%nat -> -1 <= get (zd d) i <= 1.
Proof. unfold nn. intros E Hd Hi. rewrite E in Hi. destruct d as [|[|d]]; [apply (ep_in _ _ _ Hr); auto|apply (ep_in _ _ _ Hs); auto|lia]. Qed.
Lemma search_known e fd s Qd xs tol : known e fd s Qd -> regular e -> (length xs <= npt)%nat -> (forall x, In x xs -> reachable DBL_MAX e x) ->
  exists out s', findpts_el_2 DBL_MAX P fd s xs tol = Ok (out, s') /\ known e fd s' Qd /\ length out = length xs /\
    forall i x, nth_error xs i = Some x -> exists p, nth_error out i = Some (masked p) /\ found e tol i x (masked p) /\ run1 DBL_MAX fd zd tol 50 (first DBL_MAX fd i x) = Ok p.
Proof.
  intros [K1 K2 K3 K4 K5 K6] Rg Hn Hx. subst e. assert (Hux : length (ux fd) = 2%nat) by (rewrite K3; auto).
  destruct (el_ok DBL_MAX HM P G fd zd Qd K1 Hux tol (regular_reg fd zd Qd K1 Hux Rg) (nearest DBL_MAX fd)) with (s := s) (xs := xs) as (out & s' & E & S' & L & V); auto.
  - intros d i. apply node_in. auto.
  - intros x b r Es. unfold nearest. rewrite Es. auto.
  - lia.
  - intros x Hin. apply (reachable_node DBL_MAX fd zd Hux). apply Hx. auto.
  - exists out, s'. split; [auto|]. split; [constructor; auto|]. split; [auto|]. intros i x Hi. destruct (V i x Hi) as (p & V1 & V2 & V3 & V4 & V5 & V6). exists p. split; [auto|]. split; [|auto].
    apply (found_ok DBL_MAX HM fd zd Qd K1 Hux); auto. apply Hx. apply (nth_error_In _ _ Hi).
Qed.
Lemma history_known e fd s : history e fd s -> exists Qd, known e fd s Qd.
Proof.
  induction 1 as [x y fd s Lx Ly E|e fd s x y H IH Lx Ly|e fd s xs tol out s' H IH Rg Hn Hx E|e fd s rs u out s' H IH Hn Hu E].
  - destruct (setup_ok nodes_n nr ns zr zs npt x y Hr Hs Lx Ly) as (fd' & s0 & Qd & E' & K1 & K2 & K3 & K4 & K5). rewrite E' in E. injection E as <- <-.
    assert (Nf : n fd' = [nr; ns]). { clear - E'. unfold findpts_el_setup_2 in E'. destruct (setup_dir nodes_n nr) as [[[[? ?] ?] ?]| | |]; try discriminate. cbn [bind] in E'. destruct (setup_dir nodes_n ns) as [[[[? ?] ?] ?]| | |]; try discriminate. cbn [bind] in E'. injection E' as <- <-. auto. }
    exists Qd. destruct K5 as [K5 K6]. constructor; auto. unfold sh. rewrite K2, K3, K4. reflexivity.
  - destruct IH as (Qd & [K1 K2 K3 K4 K5 K6]). exists Qd. assert (N0 : nn fd 0 = nr) by (unfold nn; rewrite K4; auto). assert (N1 : nn fd 1 = ns) by (unfold nn; rewrite K4; auto).
    pose proof (start_ok fd zd Qd s x y K1 K2 ltac:(rewrite N0, N1; auto) ltac:(rewrite N0, N1; auto)) as Q. unfold findpts_el_start_2 in *. destruct Q as (Q1 & Q2 & Q3 & Q4 & Q5 & Q6). cbn [fst snd].
    constructor; auto. unfold sh. rewrite Q2, Q3, Q4, N0, N1. reflexivity.
  - destruct IH as (Qd & K). exists Qd. destruct (search_known e fd s Qd xs tol K Rg Hn Hx) as (out' & s'' & E' & K' & _). rewrite E' in E. injection E as <- <-. auto.
  - destruct IH as (Qd & [K1 K2 K3 K4 K5 K6]). exists Qd. assert (N0 : nn fd 0 = nr) by (unfold nn; rewrite K4; auto). assert (N1 : nn fd 1 = ns) by (unfold nn; rewrite K4; auto).
    destruct (eval_ok P G fd zd Qd K1 ltac:(rewrite K3; auto) s rs u K2 ltac:(lia) ltac:(rewrite N0, N1; auto)) as (s0 & S0 & E0). rewrite E0 in E. injection E as <- <-. constructor; auto.
Qed.
Lemma search_ok e fd s xs tol : history e fd s -> regular e -> (length xs <= npt)%nat -> (forall x, In x xs -> reachable DBL_MAX e x) ->
  exists out s', findpts_el_2 DBL_MAX P fd s xs tol = Ok (out, s') /\ history e fd s' /\ length out = length xs /\
    forall i x, nth_error xs i = Some x -> exists p, nth_error out i = Some p /\ found e tol i x p.
Proof.
  intros H Rg Hn Hx. destruct (history_known _ _ _ H) as (Qd & K). destruct (search_known e fd s Qd xs tol K Rg Hn Hx) as (out & s' & E & _ & L & V). exists out, s'.
  split; [auto|]. split; [apply (h_search _ _ _ _ _ _ _ _ e fd s xs tol out s'); auto|]. split; [auto|]. intros i x Hi. destruct (V i x Hi) as (p & V1 & V2 & _). exists (masked p). auto.
Qed.
Lemma eval_known e fd s rs u : history e fd s -> (length rs <= npt)%nat -> (nr * ns <= length u)%nat ->
  exists s', findpts_el_eval_2 P fd s rs u = Ok (map (fun r => value e u (nth 0 r 0) (nth 1 r 0)) rs, s') /\ history e fd s'.
Proof.
  intros H Hn Hu. destruct (history_known _ _ _ H) as (Qd & [K1 K2 K3 K4 K5 K6]). assert (N0 : nn fd 0 = nr) by (unfold nn; rewrite K4; auto). assert (N1 : nn fd 1 = ns) by (unfold nn; rewrite K4; auto).
  destruct (eval_ok P G fd zd Qd K1 ltac:(rewrite K3; auto) s rs u K2 ltac:(lia) ltac:(rewrite N0, N1; auto)) as (s0 & S0 & E0).
  assert (E1 : map (inter fd zd u) rs = map (fun r => value e u (nth 0 r 0) (nth 1 r 0)) rs) by (apply map_ext; intros r; rewrite (inter_value fd zd ltac:(rewrite K3; auto)), K6; reflexivity).
  rewrite E1 in E0. exists s0. split; [auto|]. apply (h_eval _ _ _ _ _ _ _ _ e fd s rs u _ s0 H Hn Hu E0).
Qed.
End Hist.

(** ** Independence *)
Definition renum (i : nat) (p : pt) : pt := Pt (px p) (pr p) (oldr p) (dist2 p) (dist2p p) (tr p) i (flags p).
Definition rmap {A B} (f : A -> B) (r : res A) : res B := match r with Ok a => Ok (f a) | UB => UB | Abort => Abort | OutOfFuel => OutOfFuel end.
Lemma renum_reject M resid i p tol : reject_prior_step_q M resid (renum i p) tol = let '(q, b) := reject_prior_step_q M resid p tol in (renum i q, b).
Proof. unfold reject_prior_step_q. cbn [px pr oldr dist2 dist2p tr index flags renum]. destruct (Rle_dec _ _); [destruct (Rle_dec _ _)|]; reflexivity. Qed.
Lemma renum_set i q r d f : set_step (renum i q) r d f = renum i (set_step q r d f).
Proof. reflexivity. Qed.
Lemma renum_area out jac resid i p tol : newton_area (renum i out) jac resid (renum i p) tol = rmap (renum i) (newton_area out jac resid p tol).
Proof.
  unfold newton_area. cbn [px pr oldr dist2 dist2p tr index flags renum]. destruct (area_bounds (pr p) (tr p)) as [bnd mask]. destruct (lin_solve_2 jac resid) as [dr| | |]; cbn [bind rmap]; auto.
  destruct (area_first (pr p) dr bnd) as [[fac fl]| | |]; cbn [bind rmap]; auto.
  destruct (if (fl =? 0)%N then Ok (dr, fl) else area_loop 4 jac resid (pr p) bnd [ent dr 0 * fac; ent dr 1 * fac] fl) as [[dr' fl']| | |]; cbn [bind rmap]; auto.
Qed.
Lemma renum_edge out jac rh resid de dn fl i p tol : newton_edge (renum i out) jac rh resid de dn fl (renum i p) tol = rmap (renum i) (newton_edge out jac rh resid de dn fl p tol).
Proof.
  unfold newton_edge. cbn [px pr oldr dist2 dist2p tr index flags renum].
  repeat match goal with |- context [Rlt_dec ?a ?b] => destruct (Rlt_dec a b); cbn [bind rmap]; auto | |- context [dv ?a ?b] => destruct (dv a b); cbn [bind rmap]; auto end.
Qed.
Lemma renum_step M fd zd tol f i p : step1 M fd zd tol f (renum i p) = rmap (renum i) (step1 M fd zd tol f p).
Proof.
  unfold step1, area1, edge1, pt1. change (residual fd zd (renum i p)) with (residual fd zd p). rewrite !renum_reject.
  destruct (reject_prior_step_q M (residual fd zd p) p tol) as [q b]. cbn [px pr oldr dist2 dist2p tr index flags renum].
  destruct (num_constrained f =? 0)%N; [|destruct (num_constrained f =? 1)%N].
  - destruct b; [reflexivity|apply renum_area].
  - destruct b; [reflexivity|]. destruct (Rlt_dec _ 0); [apply renum_area|apply renum_edge].
  - destruct b; [reflexivity|]. destruct (Rlt_dec _ 0); destruct (Rlt_dec _ 0); [apply renum_area|apply renum_edge|apply renum_edge|reflexivity].
Qed.
Lemma renum_run M fd zd tol i : forall k p, run1 M fd zd tol k (renum i p) = rmap (renum i) (run1 M fd zd tol k p).
Proof.
  induction k as [|k IH]; intros p; [reflexivity|]. rewrite !run1_S. change (activeb (renum i p)) with (activeb p). destruct (activeb p); [|reflexivity].
  change (low (renum i p)) with (low p). rewrite renum_step. destruct (step1 M fd zd tol (low p) p) as [q| | |]; cbn [bind rmap]; auto.
Qed.
Lemma renum_first M fd i j x : first M fd j x = renum j (first M fd i x).
Proof. unfold first. destruct (seed1 M fd x) as [[b [r|]]| | |]; reflexivity. Qed.

Definition recast (fd : el) (k : nat) (l : list lagrange_fun) (w : list arr) : el := El k (n fd) (zz fd) l w (ux fd).
Lemma recast_step M fd k l w zd tol f p : step1 M (recast fd k l w) zd tol f p = step1 M fd zd tol f p.
Proof. reflexivity. Qed.
Lemma recast_run M fd k l w zd tol : forall m p, run1 M (recast fd k l w) zd tol m p = run1 M fd zd tol m p.
Proof. induction m as [|m IH]; intros p; [reflexivity|]. rewrite !run1_S, recast_step. destruct (activeb p); [|reflexivity]. destruct (step1 M fd zd tol (low p) p); cbn [bind]; auto. Qed.
Lemma recast_first M fd k l w i x : first M (recast fd k l w) i x = first M fd i x.
Proof. reflexivity. Qed.
Lemma zz_eq nr ns zr zs npt npt' e fd fd' s s' Q Q' : known nr ns zr zs npt e fd s Q -> known nr ns zr zs npt' e fd' s' Q' -> forall d, (d < 2)%nat -> arr_at (zz fd) d = arr_at (zz fd') d.
Proof.
  intros [K1 _ _ K4 _ _] [K1' _ _ K4' _ _] d Hd. destruct (K1 d Hd) as [_ _ _ _ L V _ _ _ _]. destruct (K1' d Hd) as [_ _ _ _ L' V' _ _ _ _].
  assert (En : nn fd d = nn fd' d) by (unfold nn; rewrite K4, K4'; auto). apply (nth_ext _ _ 0 0); [lia|]. intros i Hi. fold (get (arr_at (zz fd) d) i) (get (arr_at (zz fd') d) i). rewrite V, V' by lia. auto.
Qed.
Lemma foldM_ext {A B} (f g : A -> B -> res A) l : (forall a b, f a b = g a b) -> forall a, foldM f l a = foldM g l a.
Proof. intros H. induction l as [|b l IH]; intros a; cbn [foldM]; [auto|]. rewrite H. destruct (g a b); cbn [bind]; auto. Qed.
Lemma same_run M nr ns zr zs npt npt' e fd fd' s s' Q Q' tol m i x : known nr ns zr zs npt e fd s Q -> known nr ns zr zs npt' e fd' s' Q' ->
  run1 M fd (pair2 zr zs) tol m (first M fd i x) = run1 M fd' (pair2 zr zs) tol m (first M fd' i x).
Proof.
  intros K K'. pose proof (zz_eq _ _ _ _ _ _ _ _ _ _ _ _ _ K K') as Z. destruct K as [_ _ U1 N1 _ _]. destruct K' as [_ _ U2 N2 _ _].
  assert (F : first M fd i x = first M fd' i x).
  { unfold first. replace (seed1 M fd x) with (seed1 M fd' x); [auto|]. unfold seed1, nn. rewrite N1, N2, U1, U2. apply foldM_ext. intros [b r] [j k]. rewrite <- !Z by lia. auto. }
  rewrite F. generalize (first M fd' i x). clear F. destruct fd as [k0 n0 z0 l0 w0 u0], fd' as [k1 n1 z1 l1 w1 u1]. cbn [n ux zz] in *. subst n0 n1 u0 u1. revert m.
  induction m as [|m IH]; intros p; [reflexivity|]. rewrite !run1_S. change (step1 M (El k0 [nr; ns] z0 l0 w0 [s_x e; s_y e])) with (step1 M (El k1 [nr; ns] z1 l1 w1 [s_x e; s_y e])). destruct (activeb p); [|reflexivity].
  destruct (step1 M _ _ tol (low p) p); cbn [bind]; auto.
Qed.
Lemma independent M P P' nodes_n nodes_n' nr ns zr zs npt npt' e fd fd' s s' xs xs' tol out out' t t' i i' x : 0 < M -> good R 0 Rplus Rmult P -> good R 0 Rplus Rmult P' -> el_points nodes_n nr zr -> el_points nodes_n ns zs -> el_points nodes_n' nr zr -> el_points nodes_n' ns zs ->
  history M P nodes_n nr ns zr zs npt e fd s -> history M P' nodes_n' nr ns zr zs npt' e fd' s' -> regular e ->
  (length xs <= npt)%nat -> (length xs' <= npt')%nat -> (forall x, In x xs -> reachable M e x) -> (forall x, In x xs' -> reachable M e x) ->
  findpts_el_2 M P fd s xs tol = Ok (out, t) -> findpts_el_2 M P' fd' s' xs' tol = Ok (out', t') -> nth_error xs i = Some x -> nth_error xs' i' = Some x ->
  exists p, nth_error out i = Some p /\ nth_error out' i' = Some (renum i' p).
Proof.
  intros HM G G' Hr Hs Hr' Hs' H H' Rg Ln Ln' Hx Hx' E E' Hi Hi'.
  destruct (history_known M HM P G nodes_n nr ns zr zs Hr Hs npt e fd s H) as (Q & K). destruct (history_known M HM P' G' nodes_n' nr ns zr zs Hr' Hs' npt' e fd' s' H') as (Q' & K').
  destruct (search_known M HM P G nodes_n nr ns zr zs Hr Hs npt e fd s Q xs tol K Rg Ln Hx) as (o & u & E1 & _ & _ & V). rewrite E1 in E. injection E as -> ->.
  destruct (search_known M HM P' G' nodes_n' nr ns zr zs Hr' Hs' npt' e fd' s' Q' xs' tol K' Rg Ln' Hx') as (o' & u' & E1' & _ & _ & V'). rewrite E1' in E'. injection E' as -> ->.
  destruct (V i x Hi) as (p & V1 & _ & R1). destruct (V' i' x Hi') as (p' & V1' & _ & R1'). exists (masked p). split; [auto|]. rewrite V1'. f_equal.
  rewrite <- (same_run M nr ns zr zs npt npt' e fd fd' s s' Q Q' tol 50 i' x K K'), (renum_first M fd i i' x), renum_run, R1 in R1'. cbn [rmap] in R1'. injection R1' as <-. reflexivity.
Qed.
