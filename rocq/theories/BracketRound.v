(** Rounding error of a bracketing. *)
From Coq Require Import Reals Lra Permutation.
From Verif Require Import Base BracketSpec.
Local Open Scope R_scope.

Definition rsum (l : list R) : R := fold_right Rplus 0 l.
Lemma rsum_app a b : rsum (a ++ b) = rsum a + rsum b.
Proof. unfold rsum. induction a; cbn; lra. Qed.
Lemma rsum_perm a b : Permutation a b -> rsum a = rsum b.
Proof. unfold rsum. induction 1; cbn; lra. Qed.
Lemma rsum_abs l : Rabs (rsum l) <= rsum (map Rabs l).
Proof. unfold rsum. induction l as [|x l IH]; cbn; [rewrite Rabs_R0; lra|]. eapply Rle_trans; [apply Rabs_triang|]. lra. Qed.
Lemma rsum_pos l : 0 <= rsum (map Rabs l).
Proof. eapply Rle_trans; [apply Rabs_pos|apply rsum_abs]. Qed.

Section Round.
Variable op : R -> R -> R.
Variable eps : R.
Hypothesis eps_pos : 0 <= eps.
Hypothesis op_err : forall a b, Rabs (op a b - (a + b)) <= eps * Rabs (a + b).
Hypothesis op_0l : forall x, op 0 x = x.
Hypothesis op_0r : forall x, op x 0 = x.
Variable v : nat -> nat -> nat -> R.
Definition lv (x : expr) : list R := map (fun c => v (fst (fst c)) (snd (fst c)) (snd c)) (leaves x).

Lemma pow_ge1 n : 1 <= (1 + eps) ^ n.
Proof. apply pow_R1_Rle. lra. Qed.
Lemma bracket_err x : (lv x = [] -> eval op 0 v x = 0) /\
  (lv x <> [] -> Rabs (eval op 0 v x - rsum (lv x)) <= ((1 + eps) ^ (length (lv x) - 1) - 1) * rsum (map Rabs (lv x))).
Proof.
  induction x as [q j k| |a [A0 A1] b [B0 B1]].
  - split; [discriminate|]. intros _. cbn. replace (v q j k - (v q j k + 0)) with 0 by ring. rewrite Rabs_R0. pose proof (Rabs_pos (v q j k)). lra.
  - split; auto. intros H. exfalso. apply H. reflexivity.
  - assert (E : lv (Combine a b) = lv a ++ lv b) by (unfold lv; cbn; apply map_app). rewrite E. cbn [eval].
    destruct (lv a) as [|xa la] eqn:Ea.
    { rewrite (A0 eq_refl), op_0l. cbn [app]. split; auto. }
    destruct (lv b) as [|xb lb] eqn:Eb.
    { rewrite (B0 eq_refl), op_0r, app_nil_r. split; [discriminate|auto]. }
    split; [discriminate|]. intros _. rewrite <- Ea, <- Eb in *. assert (Na : lv a <> []) by congruence. assert (Nb : lv b <> []) by congruence.
    specialize (A1 Na). specialize (B1 Nb). clear A0 B0.
    set (ea := eval op 0 v a) in *. set (eb := eval op 0 v b) in *.
    rewrite rsum_app, map_app, rsum_app, app_length.
    pose proof (rsum_pos (lv a)) as Pa. pose proof (rsum_pos (lv b)) as Pb. pose proof (rsum_abs (lv a)) as Qa. pose proof (rsum_abs (lv b)) as Qb.
    set (sa := rsum (lv a)) in *. set (sb := rsum (lv b)) in *. set (aa := rsum (map Rabs (lv a))) in *. set (ab := rsum (map Rabs (lv b))) in *.
    assert (La : (1 <= length (lv a))%nat) by (rewrite Ea; cbn; lia). assert (Lb : (1 <= length (lv b))%nat) by (rewrite Eb; cbn; lia).
    set (m := (length (lv a) + length (lv b) - 2)%nat). set (g := (1 + eps) ^ m).
    replace (length (lv a) + length (lv b) - 1)%nat with (S m) by (unfold m; lia). cbn [pow]. fold g.
    assert (Ga : (1 + eps) ^ (length (lv a) - 1) <= g) by (apply Rle_pow; [lra|unfold m; lia]).
    assert (Gb : (1 + eps) ^ (length (lv b) - 1) <= g) by (apply Rle_pow; [lra|unfold m; lia]).
    assert (G1 : 1 <= g) by apply pow_ge1.
    assert (A2 : Rabs (ea - sa) <= (g - 1) * aa) by (eapply Rle_trans; [exact A1|apply Rmult_le_compat_r; [auto|lra]]).
    assert (B2 : Rabs (eb - sb) <= (g - 1) * ab) by (eapply Rle_trans; [exact B1|apply Rmult_le_compat_r; [auto|lra]]).
    assert (D : Rabs (ea + eb - (sa + sb)) <= (g - 1) * (aa + ab)).
    { replace (ea + eb - (sa + sb)) with ((ea - sa) + (eb - sb)) by ring. eapply Rle_trans; [apply Rabs_triang|]. lra. }
    assert (S : Rabs (ea + eb) <= g * (aa + ab)).
    { replace (ea + eb) with ((ea + eb - (sa + sb)) + (sa + sb)) by ring. eapply Rle_trans; [apply Rabs_triang|].
      pose proof (Rabs_triang sa sb). lra. }
    replace (op ea eb - (sa + sb)) with ((op ea eb - (ea + eb)) + (ea + eb - (sa + sb))) by ring.
    eapply Rle_trans; [apply Rabs_triang|]. pose proof (op_err ea eb) as O.
    assert (eps * Rabs (ea + eb) <= eps * (g * (aa + ab))) by (apply Rmult_le_compat_l; auto). lra.
Qed.

Lemma bracket_bound x V : Permutation (leaves x) V ->
  Rabs (eval op 0 v x - rsum (map (fun c => v (fst (fst c)) (snd (fst c)) (snd c)) V))
  <= ((1 + eps) ^ (length V - 1) - 1) * rsum (map (fun c => Rabs (v (fst (fst c)) (snd (fst c)) (snd c))) V).
Proof.
  intros P. destruct (bracket_err x) as [B0 B1]. set (f := fun c : nat * nat * nat => v (fst (fst c)) (snd (fst c)) (snd c)) in *.
  assert (E1 : rsum (map f V) = rsum (lv x)) by (apply rsum_perm, Permutation_map, Permutation_sym; auto).
  assert (E2 : rsum (map (fun c => Rabs (f c)) V) = rsum (map Rabs (lv x))).
  { unfold lv. rewrite map_map. apply rsum_perm, Permutation_map, Permutation_sym; auto. }
  assert (E3 : length V = length (lv x)) by (unfold lv; rewrite map_length; symmetry; apply Permutation_length; auto).
  change (Rabs (eval op 0 v x - rsum (map f V)) <= ((1 + eps) ^ (length V - 1) - 1) * rsum (map (fun c => Rabs (f c)) V)).
  rewrite E1, E2, E3. destruct (lv x) as [|r l] eqn:E; [|apply B1; congruence]. rewrite B0 by auto. cbn. replace (0 - 0) with 0 by ring. rewrite Rabs_R0. lra.
Qed.
End Round.
