(** The parts of obbox_calc_2 and obbox_calc_3: copies, transformations, bounds. *)
From Verif Require Import Base BaseLemmas Poly PolySpec PolyProof1 PolyProof2 PolyProof3 LobBnd LobBndSpec LobBndProof1 LobBndProof3 LobBndProof5 LobBndProof6 Obbox ObboxSpec ObboxMax ObboxProof1 ObboxProof2.
From Coq Require Import Reals Lra Psatz.
Open Scope R_scope.

Definition sv (w : arr) (x : src) (i : nat) : R := get (src_arr w x) (src_off x + i).
(** n numbers from x on, in front of w[wo]. *)
Definition safe (x : src) (n wo : nat) : Prop := match x with Fixed a o => (o + n <= length a)%nat | Work o => (o + n <= wo)%nat end.
(** Only w[wo...] changes. *)
Definition after (wo : nat) (w w' : arr) : Prop := length w' = length w /\ forall k, (k < wo)%nat -> get w' k = get w k.
Lemma after_refl wo w : after wo w w. Proof. split; auto. Qed.
Lemma after_trans wo wo' w w' w'' : (wo <= wo')%nat -> after wo w w' -> after wo' w' w'' -> after wo w w''.
Proof. intros H [A B] [C D]. split; [congruence|]. intros k Hk. rewrite D, B by lia. auto. Qed.
Lemma after_less wo wo' w w' : (wo <= wo')%nat -> after wo' w w' -> after wo w w'.
Proof. intros H [A B]. split; [auto|]. intros k Hk. apply B. lia. Qed.
Lemma sv_after wo w w' x n i : after wo w w' -> safe x n wo -> (i < n)%nat -> sv w' x i = sv w x i.
Proof. intros [_ K] S Hi. destruct x; cbn [safe sv src_arr src_off] in *; [auto|]. unfold sv. cbn [src_arr src_off]. apply K. lia. Qed.
Lemma safe_rd wo w x n i : safe x n wo -> (wo <= length w)%nat -> (i < n)%nat -> rd (src_arr w x) (src_off x + i) = Ok (sv w x i).
Proof. intros S Hw Hi. unfold sv. apply rd_get. destruct x; cbn [safe src_arr src_off] in *; lia. Qed.
Lemma put_after wo (w wk : arr) : (wo <= length w)%nat -> length wk = length (skipn wo w) -> after wo w (firstn wo w ++ wk).
Proof.
  intros H L. rewrite skipn_length in L. split; [rewrite app_length, firstn_length; lia|]. intros k Hk. unfold get. rewrite app_nth1 by (rewrite firstn_length; lia).
  rewrite <- (firstn_skipn wo w) at 2. rewrite app_nth1 by (rewrite firstn_length; lia). auto.
Qed.
Lemma pv1_ext z n u v r : (forall i, (i < n)%nat -> u i = v i) -> pv1 z n u r = pv1 z n v r.
Proof. intros H. unfold pv1. apply rsum_ext. intros i Hi. rewrite H by auto. auto. Qed.
Lemma pv2_ext zr nr zs ns u v r s : (forall i, (i < nr * ns)%nat -> u i = v i) -> pv2 zr nr zs ns u r s = pv2 zr nr zs ns v r s.
Proof. intros H. unfold pv2. apply rsum_ext. intros j Hj. f_equal. apply pv1_ext. intros i Hi. apply H. nia. Qed.
Lemma pv3_ext zr nr zs ns zt nt u v r s t : (forall i, (i < nr * ns * nt)%nat -> u i = v i) -> pv3 zr nr zs ns zt nt u r s t = pv3 zr nr zs ns zt nt v r s t.
Proof. intros H. unfold pv3. apply rsum_ext. intros j Hj. f_equal. apply pv2_ext. intros i Hi. apply H. nia. Qed.
Lemma pv1_aff z n u v a b c r : distinct z n -> (2 <= n)%nat -> pv1 z n (fun i => a * u i + b * v i + c) r = a * pv1 z n u r + b * pv1 z n v r + c.
Proof.
  intros D Hn. transitivity (a * pv1 z n u r + b * pv1 z n v r + pv1 z n (fun _ => c) r); [|rewrite pv1_const by auto; auto]. unfold pv1. rewrite <- !rsum_scal, <- !rsum_plus. apply rsum_ext. intros. ring.
Qed.
Lemma pv2_const zr nr zs ns c r s : distinct zr nr -> (2 <= nr)%nat -> distinct zs ns -> (2 <= ns)%nat -> pv2 zr nr zs ns (fun _ => c) r s = c.
Proof. intros. transitivity (pv1 zs ns (fun _ => c) s); [|apply pv1_const; auto]. unfold pv2. unfold pv1 at 2. apply rsum_ext. intros. rewrite pv1_const by auto. auto. Qed.
Lemma pv2_aff zr nr zs ns u v w a b c k r s : distinct zr nr -> (2 <= nr)%nat -> distinct zs ns -> (2 <= ns)%nat ->
  pv2 zr nr zs ns (fun i => a * u i + b * v i + c * w i + k) r s = a * pv2 zr nr zs ns u r s + b * pv2 zr nr zs ns v r s + c * pv2 zr nr zs ns w r s + k.
Proof.
  intros D Hn D' Hn'. transitivity (pv2 zr nr zs ns (fun i => 1 * (1 * (a * u i + b * v i) + c * w i) + 1 * k) r s); [apply pv2_ext; intros; ring|].
  rewrite (pv2_lin zr nr zs ns (fun i => 1 * (a * u i + b * v i) + c * w i) (fun _ => k)), (pv2_lin zr nr zs ns (fun i => a * u i + b * v i) w), pv2_lin, pv2_const by auto. ring.
Qed.

(** copy_strided from another array. *)
Lemma copy_ok w o v i g s n : (1 <= g)%nat -> (o + n * g <= length w)%nat -> (forall k l, (k < n)%nat -> (l < g)%nat -> (i + k * (s * g) + l < length v)%nat) ->
  exists w', copy_strided w o v i g s n = Ok w' /\ keeps w w' (rng o (n * g)) /\ forall k l, (k < n)%nat -> (l < g)%nat -> get w' (o + k * g + l) = get v (i + k * (s * g) + l).
Proof.
  intros Hg Hw Hv. unfold copy_strided. destruct (Nat.eqb_spec g 1) as [G|G].
  - subst g. destruct (foldM_inv (fun k w' => keeps w w' (rng o (n * 1)) /\ forall k', (k' < k)%nat -> get w' (o + k') = get v (i + k' * s)) (fun w k => x <- rd v (i + k * s) ;; wr w (o + k) x) n w) as (w' & E & K & V).
    + split; [apply keeps_refl|]. intros; lia.
    + intros k s0 Hk [K V]. pose proof (Hv k 0%nat Hk ltac:(lia)) as B. rewrite Nat.mul_1_r, Nat.add_0_r in B. destruct K as [L O].
      rewrite rd_get by auto. cbn [bind]. rewrite wr_get by (rewrite L; lia). eexists. split; [reflexivity|]. split.
      * apply (keeps_trans w s0 _ (rng o (n * 1)) (rng o (n * 1))); auto; [split; auto|]. apply keeps_upd. unfold rng. lia.
      * intros k' Hk'. rewrite get_upd by (rewrite L; lia). destruct (Nat.eqb_spec (o + k') (o + k)); [f_equal; nia|apply V; lia].
    + exists w'. split; [auto|]. split; [auto|]. intros k l Hk Hl. assert (l = 0)%nat by lia. subst. rewrite !Nat.mul_1_r, !Nat.add_0_r. auto.
  - set (sg := (s * g)%nat) in *.
    destruct (foldM_inv (fun k w' => keeps w w' (rng o (n * g)) /\ forall k' l, (k' < k)%nat -> (l < g)%nat -> get w' (o + k' * g + l) = get v (i + k' * sg + l))
      (fun w k => foldM (fun w l => x <- rd v (i + k * sg + l) ;; wr w (o + k * g + l) x) (seq 0 g) w) n w) as (w' & E & K & V).
    + split; [apply keeps_refl|]. intros; lia.
    + intros k s0 Hk [K V]. destruct K as [L O].
      destruct (foldM_inv (fun l w' => keeps s0 w' (rng (o + k * g) g) /\ forall l', (l' < l)%nat -> get w' (o + k * g + l') = get v (i + k * sg + l')) (fun w l => x <- rd v (i + k * sg + l) ;; wr w (o + k * g + l) x) g s0) as (w' & E & K & V').
      * split; [apply keeps_refl|]. intros; lia.
      * intros l s1 Hl [[L1 O1] V1]. assert (o + k * g + l < length s1)%nat by (rewrite L1, L; nia). rewrite rd_get by (apply Hv; auto). cbn [bind]. rewrite wr_get by auto. eexists. split; [reflexivity|]. split.
        -- apply (keeps_trans s0 s1 _ (rng (o + k * g) g) (rng (o + k * g) g)); auto; [split; auto|]. apply keeps_upd. unfold rng. lia.
        -- intros l' Hl'. rewrite get_upd by auto. destruct (Nat.eqb_spec (o + k * g + l') (o + k * g + l)); [f_equal; lia|apply V1; lia].
      * exists w'. split; [auto|]. split.
        -- apply (keeps_trans w s0 w' (rng o (n * g)) (rng (o + k * g) g)); auto; [split; auto|]. unfold rng. intros; nia.
        -- intros k' l Hk' Hl. destruct (Nat.eq_dec k' k) as [->|N]; [apply V'; auto|]. destruct K as [_ K]. rewrite K by (unfold rng; nia). apply V; lia.
    + exists w'. split; [auto|]. split; [auto|]. auto.
Qed.

Lemma tfm_2_ok w o x0 Ji x y n : safe x n o -> safe y n o -> (o + 2 * n <= length w)%nat ->
  exists w', bbox_2_tfm w o x0 Ji x y n = Ok w' /\ after o w w' /\
    forall i, (i < n)%nat -> get w' (o + i) = T0_2 x0 Ji (sv w x i) (sv w y i) /\ get w' (o + (n + i)) = T1_2 x0 Ji (sv w x i) (sv w y i).
Proof.
  intros Sx Sy Hw. unfold bbox_2_tfm.
  destruct (foldM_inv (fun k w' => after o w w' /\ forall i, (i < k)%nat -> get w' (o + i) = T0_2 x0 Ji (sv w x i) (sv w y i) /\ get w' (o + (n + i)) = T1_2 x0 Ji (sv w x i) (sv w y i))
    (fun w i => xi <- rd (src_arr w x) (src_off x + i) ;; yi <- rd (src_arr w y) (src_off y + i) ;;
    w <- wr w (o + i) (ent Ji 0 * (xi - ent x0 0) + ent Ji 1 * (yi - ent x0 1)) ;;
    wr w (o + (n + i)) (ent Ji 2 * (xi - ent x0 0) + ent Ji 3 * (yi - ent x0 1))) n w) as (w' & E & A & V).
  - split; [apply after_refl|]. intros; lia.
  - intros i s Hi [A V]. pose proof A as [L O]. rewrite (safe_rd o s x n i), (safe_rd o s y n i) by (auto; lia). cbn [bind]. rewrite (sv_after o w s x n i), (sv_after o w s y n i) by auto.
    rewrite wr_get by lia. cbn [bind]. rewrite wr_get by (rewrite upd_length'; lia). eexists. split; [reflexivity|]. split.
    + split; [rewrite !upd_length'; auto|]. intros k Hk. rewrite !get_upd by (rewrite ?upd_length'; lia). destruct (Nat.eqb_spec k (o + (n + i))); [lia|]. destruct (Nat.eqb_spec k (o + i)); [lia|]. auto.
    + intros i' Hi'. rewrite !get_upd by (rewrite ?upd_length'; lia). destruct (Nat.eqb_spec (o + i') (o + (n + i))); [lia|]. destruct (Nat.eqb_spec (o + (n + i')) (o + i)); [lia|].
      destruct (Nat.eq_dec i' i) as [->|N]; [rewrite !Nat.eqb_refl; auto|]. destruct (Nat.eqb_spec (o + i') (o + i)); [lia|]. destruct (Nat.eqb_spec (o + (n + i')) (o + (n + i))); [lia|]. apply V. lia.
  - exists w'. auto.
Qed.
Lemma tfm_3_ok w o x0 Ji x y z n : safe x n o -> safe y n o -> safe z n o -> (o + 3 * n <= length w)%nat ->
  exists w', bbox_3_tfm w o x0 Ji x y z n = Ok w' /\ after o w w' /\
    forall l i, (l < 3)%nat -> (i < n)%nat -> get w' (o + (l * n + i)) = T_3 x0 Ji l (sv w x i) (sv w y i) (sv w z i).
Proof.
  intros Sx Sy Sz Hw. unfold bbox_3_tfm.
  match goal with |- context [foldM ?f _ _] => destruct (foldM_inv (fun k w' => after o w w' /\ forall l i, (l < 3)%nat -> (i < k)%nat -> get w' (o + (l * n + i)) = T_3 x0 Ji l (sv w x i) (sv w y i) (sv w z i)) f n w) as (w' & E & A & V) end.
  - split; [apply after_refl|]. intros; lia.
  - intros i s Hi [A V]. pose proof A as [L O]. rewrite (safe_rd o s x n i), (safe_rd o s y n i), (safe_rd o s z n i) by (auto; lia). cbn [bind]. rewrite (sv_after o w s x n i), (sv_after o w s y n i), (sv_after o w s z n i) by auto.
    rewrite wr_get by lia. cbn [bind]. rewrite wr_get by (rewrite upd_length'; lia). cbn [bind]. rewrite wr_get by (rewrite !upd_length'; lia). eexists. split; [reflexivity|]. split.
    + split; [rewrite !upd_length'; auto|]. intros k Hk. rewrite !get_upd by (rewrite ?upd_length'; lia). destruct (Nat.eqb_spec k (o + (2 * n + i))); [lia|]. destruct (Nat.eqb_spec k (o + (n + i))); [lia|]. destruct (Nat.eqb_spec k (o + i)); [lia|]. auto.
    + intros l i' Hl Hi'. rewrite !get_upd by (rewrite ?upd_length'; lia). destruct (Nat.eq_dec i' i) as [->|N].
      * destruct l as [|[|[|l]]]; [| | |lia]; repeat (match goal with |- context [Nat.eqb ?a ?b] => destruct (Nat.eqb_spec a b); try lia end); reflexivity.
      * assert (Q : forall l', (l' < 3)%nat -> (o + (l * n + i') =? o + (l' * n + i))%nat = false).
        { intros l' Hl'. apply Nat.eqb_neq. intros Q. destruct (Nat.lt_trichotomy l l') as [?|[?|?]]; nia. }
        pose proof (Q 0%nat ltac:(lia)) as Q0. pose proof (Q 1%nat ltac:(lia)) as Q1. rewrite (Q 2%nat) by lia. rewrite Nat.mul_1_l in Q1. rewrite Q1. cbn [Nat.mul Nat.add] in Q0. rewrite Q0. apply V; lia.
  - exists w'. auto.
Qed.

(** The bounds. *)
Definition joined (merge : bool) (old : option range) (b : range) : Prop := merge = true -> exists a, old = Some a /\ sub_range a b.
Lemma join_ok merge old b : (merge = true -> old <> None) -> exists c, join merge old b = Ok c /\ sub_range b c /\ joined merge old c.
Proof.
  intros H. unfold join, joined. destruct merge.
  - destruct old as [a|]; [|exfalso; apply H; auto]. eexists. split; [reflexivity|]. split; [apply merge_r|]. intros _. exists a. split; [auto|]. apply merge_l.
  - exists b. split; [auto|]. split; [split; lra|discriminate].
Qed.
(** How far from 0 the bounds of lob_bnd_1 can be. *)
Definition within (K : R) (a : range) : Prop := - K <= rmin a /\ rmax a <= K.
Definition grid_lo (d : arr) n m (v : nat -> R) j : R :=
  let a0 := rsum n (fun i => func0 d n i * v i) in let a1 := rsum n (fun i => func1 d n i * v i) in
  a0 + a1 * point d n j + rsum n (fun i => tlo (v i - (a0 + a1 * node d i)) (lower d n m i j) (upper d n m i j)).
Definition grid_up (d : arr) n m (v : nat -> R) j : R :=
  let a0 := rsum n (fun i => func0 d n i * v i) in let a1 := rsum n (fun i => func1 d n i * v i) in
  a0 + a1 * point d n j + rsum n (fun i => tup (v i - (a0 + a1 * node d i)) (lower d n m i j) (upper d n m i j)).
Definition far (d : arr) n m (v : nat -> R) : R := rsum m (fun j => Rabs (grid_lo d n m v j) + Rabs (grid_up d n m v j)).
Lemma rsum_one n f k : (k < n)%nat -> (forall i, (i < n)%nat -> 0 <= f i) -> f k <= rsum n f.
Proof.
  intros Hk. induction n as [|n IH]; intros H; [lia|]. cbn [rsum]. assert (0 <= rsum n f) by (clear IH Hk; induction n as [|n IH]; cbn [rsum]; [lra|]; specialize (IH ltac:(intros; apply H; lia)); pose proof (H n ltac:(lia)); lra).
  pose proof (H n ltac:(lia)). destruct (Nat.eq_dec k n) as [->|]; [lra|]. specialize (IH ltac:(lia) ltac:(intros; apply H; lia)). lra.
Qed.
Lemma lob_1_within d n m u uo (wk : arr) mn mx w' : bound_data d n m -> (2 * m <= length wk)%nat -> (uo + n <= length u)%nat -> lob_bnd_1 d n m u uo wk = Ok (mn, mx, w') ->
  within (far d n m (fun i => get u (uo + i))) (Range mn mx).
Proof.
  intros B Hw Hu E. unfold lob_bnd_1 in E. cbn [lob_bnd_lin_1] in E.
  destruct (fst_ok d n m (bd_size _ _ _ B) wk 0 u uo) as (w1 & E1 & [L1 _] & a0 & a1 & A0 & A1 & V); [lia|lia|]. rewrite E1 in E. cbn [bind] in E.
  pose proof (bd_m _ _ _ B). destruct (minmax_ok w1 0 m) as (mn' & mx' & E2 & _ & (j1 & Hj1 & M1) & (j2 & Hj2 & M2)); [lia|lia|]. rewrite E2 in E. cbn [bind] in E. injection E as <- <- <-.
  destruct (V j1 Hj1) as [X1 _]. destruct (V j2 Hj2) as [_ X2]. rewrite X1 in M1. rewrite X2 in M2. rewrite A0, A1 in M1, M2.
  change (mn' = grid_lo d n m (fun i => get u (uo + i)) j1) in M1. change (mx' = grid_up d n m (fun i => get u (uo + i)) j2) in M2.
  assert (P : forall j, (j < m)%nat -> Rabs (grid_lo d n m (fun i => get u (uo + i)) j) + Rabs (grid_up d n m (fun i => get u (uo + i)) j) <= far d n m (fun i => get u (uo + i))).
  { intros j Hj. unfold far. apply (rsum_one m (fun j => Rabs (grid_lo d n m (fun i => get u (uo + i)) j) + Rabs (grid_up d n m (fun i => get u (uo + i)) j)) j Hj).
    intros i _. pose proof (Rabs_pos (grid_lo d n m (fun i => get u (uo + i)) i)). pose proof (Rabs_pos (grid_up d n m (fun i => get u (uo + i)) i)). lra. }
  split; cbn [rmin rmax].
  - specialize (P j1 Hj1). rewrite <- M1 in P. pose proof (Rabs_pos (grid_up d n m (fun i => get u (uo + i)) j1)). pose proof (Rle_abs (- mn')). rewrite Rabs_Ropp in *. lra.
  - specialize (P j2 Hj2). rewrite <- M2 in P. pose proof (Rabs_pos (grid_lo d n m (fun i => get u (uo + i)) j2)). pose proof (Rle_abs mx'). lra.
Qed.
Lemma join_within merge old b c K : join merge old b = Ok c -> (merge = true -> exists a, old = Some a /\ within K a) -> within K b -> within K c.
Proof.
  unfold join. intros E H [B1 B2]. destruct merge; [|injection E as <-; split; auto]. destruct (H eq_refl) as (a & -> & A1 & A2). injection E as <-.
  unfold within, dbl_range_merge. cbn [rmin rmax]. destruct (Rlt_dec _ _), (Rgt_dec _ _); lra.
Qed.
Lemma bound_2_ok old merge d n m x w wo : bound_data d n m -> (merge = true -> old <> None) -> safe x n wo -> (wo + 2 * m <= length w)%nat ->
  exists b w', do_bound_2 old merge d n m x w wo = Ok (Some b, w') /\ after wo w w' /\ joined merge old b /\ (forall r, I1 r -> in_range (pv1 d n (sv w x) r) b) /\
    forall K, (merge = true -> exists a, old = Some a /\ within K a) -> far d n m (sv w x) <= K -> within K b.
Proof.
  intros B Ho Sx Hw. unfold do_bound_2.
  assert (Hl : (2 * m <= length (skipn wo w))%nat) by (rewrite skipn_length; lia). assert (Hu : (src_off x + n <= length (src_arr w x))%nat) by (destruct x; cbn [safe src_arr src_off] in *; lia).
  destruct (interval_1 d n m B (src_arr w x) (src_off x) (skipn wo w) Hl Hu) as (mn & mx & wk & E & L & F).
  rewrite E. cbn [bind]. destruct (join_ok merge old (Range mn mx) Ho) as (b & E2 & S & Jn). rewrite E2. cbn [bind]. exists b, (firstn wo w ++ wk). split; [auto|]. split; [apply put_after; auto; lia|]. split; [auto|]. split.
  - intros r Hr. apply (sub_in _ _ _ S). apply F. exact Hr.
  - intros K HK Hf. apply (join_within _ _ _ _ _ E2 HK). destruct (lob_1_within d n m _ _ _ _ _ _ B Hl Hu E) as [W1 W2].
    unfold sv in Hf. split; lra.
Qed.
Lemma bound_3_ok old merge dr nr mr ds ns ms x w wo : bound_data dr nr mr -> bound_data ds ns ms -> (merge = true -> old <> None) -> safe x (nr * ns) wo -> (wo + 2 * mr * (ns + ms + 1) <= length w)%nat ->
  exists b w', do_bound_3 old merge dr nr mr ds ns ms x w wo = Ok (Some b, w') /\ after wo w w' /\ joined merge old b /\ forall r s, I1 r -> I1 s -> in_range (pv2 dr nr ds ns (sv w x) r s) b.
Proof.
  intros B B' Ho Sx Hw. unfold do_bound_3.
  destruct (interval_2 dr ds nr mr ns ms B B' (src_arr w x) (src_off x) (skipn wo w)) as (mn & mx & wk & E & L & F); [rewrite skipn_length; lia|destruct x; cbn [safe src_arr src_off] in *; lia|].
  rewrite E. cbn [bind]. destruct (join_ok merge old (Range mn mx) Ho) as (b & E2 & S & Jn). rewrite E2. cbn [bind]. exists b, (firstn wo w ++ wk). split; [auto|]. split; [apply put_after; auto; lia|]. split; [auto|].
  intros r s Hr Hs. apply (sub_in _ _ _ S). replace (pv2 dr nr ds ns (sv w x) r s) with (poly_2 dr nr ds ns (src_arr w x) (src_off x) r s); [apply F; auto|].
  unfold poly_2, pv2, pv1. apply rsum_ext. intros j _. rewrite Rmult_comm, <- rsum_scal. apply rsum_ext. intros i _. unfold sv. ring.
Qed.
