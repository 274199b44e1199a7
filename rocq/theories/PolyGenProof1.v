(** The functions printed for n points pass the check of PolyImpProof.v, for every n. *)
From Verif Require Import Base BaseLemmas PolyImpSyntax PolyImp PolyImpProof PolyGen.
Open Scope nat_scope.

Lemma ex_eqb_refl e : ex_eqb e e = true.
Proof. induction e; cbn; auto using Z.eqb_refl, Nat.eqb_refl, var_eqb_refl; rewrite IHe1, IHe2; auto. Qed.

Section Gen.
Variable n : nat.
Hypothesis Hn : 2 <= n.
Variable gl : nat.
Hypothesis Hgl : gl = n / 2 - 1.

Lemma p_u0 i : print_u0 i = eu0 i. Proof. reflexivity. Qed.
Lemma p_u1 i : print_u1 i = eu1 i. Proof. destruct i as [|[|i]]; reflexivity. Qed.
Lemma p_u2 i : print_u2 i = eu2 i. Proof. destruct i as [|[|[|i]]]; reflexivity. Qed.
Ltac cases := repeat match goal with
  | |- context [(?a =? ?b)%nat] => destruct (Nat.eqb_spec a b); try lia
  | |- context [(?a <=? ?b)%nat] => destruct (Nat.leb_spec a b); try lia
  | |- context [(?a <? ?b)%nat] => destruct (Nat.ltb_spec a b); try lia
  end.
Lemma p_v0 i : i < n -> print_v0 n i = ev0 n i.
Proof. intros H. unfold print_v0, ev0. cases; auto. Qed.
Lemma p_v1 i : i < n -> print_v1 n i = ev1 n i.
Proof. intros H. unfold print_v1, ev1. cases; auto; f_equal; lia. Qed.
Lemma p_v2 i : i < n -> print_v2 n i = ev2 n i.
Proof. intros H. unfold print_v2, ev2. cases; auto. Qed.
Lemma p_d i : i < n -> print_d n i = dex (zform n i).
Proof. intros H. unfold print_d, zform. cases; auto. Qed.

(** Lists of statements. *)
Definition has (defs : list var) (v : var) : Prop := existsb (var_eqb v) defs = true.
Lemma has_in defs v : In v defs -> has defs v.
Proof. intros H. apply existsb_exists. exists v. split; auto. apply var_eqb_refl. Qed.
Lemma chk_lets v e : forall m a defs outs rest, 
  (forall k, k < m -> range n (v (a + k)) = true /\ okx n gl (rev (map v (seq a k)) ++ defs) (e (a + k)) = true /\
     ex_eqb (simp (e (a + k))) (simp (intend n (v (a + k)))) = true) ->
  chk n gl defs outs (map (fun i => Let (v i) (e i)) (seq a m) ++ rest) = chk n gl (rev (map v (seq a m)) ++ defs) outs rest.
Proof.
  induction m as [|m IH]; intros a defs outs rest H; [reflexivity|]. cbn [seq map app chk]. destruct (H 0 ltac:(lia)) as (R & O & E). rewrite Nat.add_0_r in *. cbn [seq map rev app] in O.
  rewrite R, O, E. cbn [andb]. rewrite IH.
  - cbn [rev]. rewrite <- app_assoc. reflexivity.
  - intros k Hk. destruct (H (S k) ltac:(lia)) as (R' & O' & E'). replace (S a + k) with (a + S k) by lia. split; [auto|]. split; [|auto].
    cbn [seq map rev] in O'. rewrite <- app_assoc in O'. exact O'.
Qed.
Lemma chk_outs off f e defs rest : 
  (forall k, k < n -> okx n gl defs (e k) = true /\ ex_eqb (simp (e k)) (simp (f k)) = true) ->
  chk n gl defs (outs_of n off f) (map (fun i => Out (off + i) (e i)) (seq 0 n) ++ rest) = chk n gl defs [] rest.
Proof.
  unfold outs_of. assert (G : forall m a, (forall k, a <= k < a + m -> okx n gl defs (e k) = true /\ ex_eqb (simp (e k)) (simp (f k)) = true) ->
    chk n gl defs (map (fun i => (off + i, f i)) (seq a m)) (map (fun i => Out (off + i) (e i)) (seq a m) ++ rest) = chk n gl defs [] rest).
  { induction m as [|m IH]; intros a H; [reflexivity|]. cbn [seq map app chk]. destruct (H a ltac:(lia)) as (O & E). rewrite Nat.eqb_refl, O, E. cbn [andb]. apply IH. intros k Hk. apply H. lia. }
  intros H. apply G. intros k Hk. apply H. lia.
Qed.

(** What is defined after the first two blocks. *)
Definition D0 (defs : list var) : Prop := (forall i, i < n -> has defs (d i)) /\ (forall i, 1 <= i < n -> has defs (u0 i)) /\ (forall i, i + 1 < n -> has defs (v0 i)).
Definition D1 (defs : list var) : Prop := D0 defs /\ (forall i, 2 <= i < n -> has defs (u1 i)) /\ (forall i, i + 2 < n -> has defs (v1 i)).
Definition D2 (defs : list var) : Prop := D1 defs /\ (forall i, 3 <= i < n -> has defs (u2 i)) /\ (forall i, i + 3 < n -> has defs (v2 i)).
Lemma has_app a b v : has b v -> has (a ++ b) v.
Proof. unfold has. intros H. rewrite existsb_app, H. apply orb_true_r. Qed.
Lemma has_rev f a m i b : a <= i < a + m -> has (rev (map f (seq a m)) ++ b) (f i).
Proof. intros H. apply has_in, in_or_app. left. apply -> in_rev. apply in_map, in_seq. lia. Qed.
Lemma D0_app a b : D0 b -> D0 (a ++ b).
Proof. intros (A & B & C). repeat split; intros; apply has_app; auto. Qed.
Lemma D1_app a b : D1 b -> D1 (a ++ b).
Proof. intros (A & B & C). split; [apply D0_app; auto|]. split; intros; apply has_app; auto. Qed.
Section O.
Variable defs : list var.
Lemma o_u0 i : (forall j, 1 <= j < n -> has defs (u0 j)) -> i < n -> okx n gl defs (eu0 i) = true.
Proof. intros H Hi. unfold eu0. cases; auto. apply H. lia. Qed.
Lemma o_v0 i : (forall j, j + 1 < n -> has defs (v0 j)) -> i < n -> okx n gl defs (ev0 n i) = true.
Proof. intros H Hi. unfold ev0. cases; auto. apply H. lia. Qed.
Lemma o_u1 i : (forall j, 2 <= j < n -> has defs (u1 j)) -> i < n -> okx n gl defs (eu1 i) = true.
Proof. intros H Hi. unfold eu1. cases; auto. apply H. lia. Qed.
Lemma o_v1 i : (forall j, j + 2 < n -> has defs (v1 j)) -> i < n -> okx n gl defs (ev1 n i) = true.
Proof. intros H Hi. unfold ev1. cases; auto. apply H. lia. Qed.
Lemma o_u2 i : (forall j, 3 <= j < n -> has defs (u2 j)) -> i < n -> okx n gl defs (eu2 i) = true.
Proof. intros H Hi. unfold eu2. cases; auto. apply H. lia. Qed.
Lemma o_v2 i : (forall j, j + 3 < n -> has defs (v2 j)) -> i < n -> okx n gl defs (ev2 n i) = true.
Proof. intros H Hi. unfold ev2. cases; auto. apply H. lia. Qed.
End O.
Lemma o_d defs i : i < n -> okx n gl defs (dex (zform n i)) = true.
Proof.
  intros Hi. assert (DV : n = 2 * (n / 2) + n mod 2) by (apply Nat.div_mod; lia). assert (MB := Nat.mod_upper_bound n 2 ltac:(lia)).
  unfold zform. cases; cbn [dex okx andb]; auto; rewrite ?andb_true_r; apply Nat.ltb_lt; lia.
Qed.
Lemma sub_1 i : 1 <= i -> i < n -> n - (n - 1 - i) - 1 = i. Proof. lia. Qed.

Lemma check_b0 t : exists defs, chk n gl [] (outs_of n 0 (eo0 n)) (b0 (print_gll_lag_fix n t)) = Some defs /\ D0 defs.
Proof.
  cbn [print_gll_lag_fix b0]. unfold print_list.
  rewrite (chk_lets (fun i => d i) (print_d n)).
  2:{ intros k Hk. cbn [Nat.add range intend]. rewrite p_d by lia. split; [apply Nat.ltb_lt; lia|]. split; [apply o_d; lia|apply ex_eqb_refl]. }
  set (E1 := rev _ ++ []). assert (H1 : forall i, i < n -> has E1 (d i)) by (intros i Hi; apply has_rev; lia). clearbody E1.
  rewrite (chk_lets (fun i => u0 i) (fun i => (print_u0 (i - 1) * d (i - 1))%ex)).
  2:{ intros k Hk. cbn [range intend]. rewrite p_u0. split; [apply andb_true_intro; split; [apply Nat.leb_le|apply Nat.ltb_lt]; lia|]. split; [|apply ex_eqb_refl].
      cbn [okx]. apply andb_true_intro. split; [|apply has_app, H1; lia]. unfold eu0. cases; auto. apply (has_rev (fun i => u0 i)). lia. }
  set (E2 := rev _ ++ E1). assert (H2 : (forall i, i < n -> has E2 (d i)) /\ forall i, 1 <= i < n -> has E2 (u0 i)).
  { split; intros i Hi; [apply has_app; auto|apply (has_rev (fun i => u0 i)); lia]. } clearbody E2.
  rewrite (chk_lets (fun i => v0 (n - 1 - i)) (fun i => (d (n - i) * print_v0 n (n - i))%ex)).
  2:{ intros k Hk. cbn [range intend]. replace (n - 1 - (1 + k) + 1) with (n - (1 + k)) by lia. rewrite p_v0 by lia. split; [apply Nat.ltb_lt; lia|]. split; [|apply ex_eqb_refl].
      cbn [okx]. apply andb_true_intro. split; [apply has_app, H2; lia|]. unfold ev0. cases; auto. cbn [okx].
      replace (n - (1 + k)) with (n - 1 - k) by lia. apply (has_rev (fun i => v0 (n - 1 - i))). lia. }
  set (E3 := rev _ ++ E2). assert (H3 : D0 E3).
  { split; [|split]; intros i Hi; [apply has_app, H2; auto|apply has_app, H2; auto|]. unfold E3. replace i with (n - 1 - (n - 1 - i)) by lia. apply (has_rev (fun i => v0 (n - 1 - i))). lia. } clearbody E3.
  rewrite Nat.sub_0_r, <- (app_nil_r (map _ (seq 0 n))). rewrite (chk_outs 0 (eo0 n) (fun i => (W i * print_u0 i * print_v0 n i)%ex)).
  - exists E3. auto.
  - intros k Hk. rewrite p_u0, p_v0 by auto. split; [|apply ex_eqb_refl]. cbn [okx]. destruct H3 as (A & B & C). rewrite (o_u0 _ k B), (o_v0 _ k C) by auto. rewrite (proj2 (Nat.ltb_lt k n)) by auto. reflexivity.
Qed.
Lemma check_b1 t defs : D0 defs -> exists defs', chk n gl defs (outs_of n n (eo1 n)) (b1 (print_gll_lag_fix n t)) = Some defs' /\ D1 defs'.
Proof.
  intros H0. cbn [print_gll_lag_fix b1]. unfold print_list.
  assert (G : exists E, (forall outs rest, chk n gl defs outs ((if 2 <? n then map (fun i => Let (u1 i) (print_u1 (i - 1) * d (i - 1) + print_u0 (i - 1))) (seq 2 (n - 2)) ++
      map (fun i => Let (v1 (n - 1 - i)) (d (n - i) * print_v1 n (n - i) + print_v0 n (n - i))) (seq 2 (n - 2)) else []) ++ rest) = chk n gl E outs rest) /\ D1 E).
  { destruct (Nat.ltb_spec 2 n) as [H2|H2].
    2:{ exists defs. split; [auto|]. split; [auto|]. split; intros; lia. }
    eexists. split.
    - intros outs rest. rewrite <- app_assoc. rewrite (chk_lets (fun i => u1 i) (fun i => (print_u1 (i - 1) * d (i - 1) + print_u0 (i - 1))%ex)).
      2:{ intros k Hk. cbn [range intend]. rewrite p_u0, p_u1. split; [apply andb_true_intro; split; [apply Nat.leb_le|apply Nat.ltb_lt]; lia|]. split; [|apply ex_eqb_refl].
          cbn [okx]. destruct (D0_app (rev (map (fun i => u1 i) (seq 2 k))) defs H0) as (A & B & C). rewrite (o_u0 _ _ B) by lia. rewrite (A (2 + k - 1)) by lia. rewrite !andb_true_r.
          unfold eu1. cases; auto. apply (has_rev (fun i => u1 i)). lia. }
      rewrite (chk_lets (fun i => v1 (n - 1 - i)) (fun i => (d (n - i) * print_v1 n (n - i) + print_v0 n (n - i))%ex)); [reflexivity|].
      intros k Hk. cbn [range intend]. replace (n - 1 - (2 + k) + 1) with (n - (2 + k)) by lia. rewrite p_v0, p_v1 by lia. split; [apply Nat.ltb_lt; lia|]. split; [|apply ex_eqb_refl].
      cbn [okx]. match goal with |- context [okx n gl (?a ++ ?b ++ defs)] => destruct (D0_app a _ (D0_app b defs H0)) as (A & B & C) end.
      rewrite (o_v0 _ _ C) by lia. rewrite (A (n - (2 + k))) by lia. rewrite andb_true_r. cbn [andb]. unfold ev1. cases; auto. cbn [okx].
      replace (n - (2 + k)) with (n - 1 - (1 + k)) by lia. apply (has_rev (fun i => v1 (n - 1 - i))). lia.
    - split; [apply D0_app, D0_app; auto|]. split; intros i Hi.
      + apply has_app, (has_rev (fun i => u1 i)). lia.
      + replace i with (n - 1 - (n - 1 - i)) by lia. apply (has_rev (fun i => v1 (n - 1 - i))). lia. }
  destruct G as (E & G & HE). rewrite G. clear G. exists E. split; [|auto].
  rewrite Nat.sub_0_r, <- (app_nil_r (map _ (seq 0 n))).
  match goal with |- context [fun i => Out (n + i) (@?e i)] => rewrite (chk_outs n (eo1 n) e) end; [reflexivity|]. cbv beta.
  destruct HE as ((A & B & C) & BB & CC). intros k Hk. rewrite !p_u0, !p_u1, !p_v0, !p_v1 by lia. split.
  - cbn [okx]. rewrite (proj2 (Nat.ltb_lt k n)) by auto. cbn [andb]. destruct (k =? 0); [apply o_v1; auto; lia|]. destruct (k =? n - 1); [apply o_u1; auto|].
    cbn [okx]. rewrite (o_u0 _ k B), (o_u1 _ k BB), (o_v0 _ k C), (o_v1 _ k CC) by auto. reflexivity.
  - unfold eo1, eu0, eu1, ev0, ev1. cases; cbn [simp smul sadd ex_eqb var_eqb andb Z.eqb Pos.eqb]; rewrite ?Nat.eqb_refl; try reflexivity; subst; cbn [simp smul sadd ex_eqb var_eqb andb Z.eqb Pos.eqb]; rewrite ?Nat.eqb_refl; try reflexivity.
Qed.
Lemma check_b2 t defs : D1 defs -> exists defs', chk n gl defs (outs_of n (2 * n) (eo2 n)) (b2 (print_gll_lag_fix n t)) = Some defs'.
Proof.
  intros H1. cbn [print_gll_lag_fix b2]. unfold print_list.
  assert (G : exists E, (forall outs rest, chk n gl defs outs ((if 3 <? n then map (fun i => Let (u2 i) (print_u2 (i - 1) * d (i - 1) + 2 * print_u1 (i - 1))) (seq 3 (n - 3)) ++
      map (fun i => Let (v2 (n - 1 - i)) (d (n - i) * print_v2 n (n - i) + 2 * print_v1 n (n - i))) (seq 3 (n - 3)) else []) ++ rest) = chk n gl E outs rest) /\ D2 E).
  { destruct (Nat.ltb_spec 3 n) as [H2|H2].
    2:{ exists defs. split; [auto|]. split; [auto|]. split; intros; lia. }
    eexists. split.
    - intros outs rest. rewrite <- app_assoc. rewrite (chk_lets (fun i => u2 i) (fun i => (print_u2 (i - 1) * d (i - 1) + 2 * print_u1 (i - 1))%ex)).
      2:{ intros k Hk. cbn [range intend]. rewrite p_u1, p_u2. split; [apply andb_true_intro; split; [apply Nat.leb_le|apply Nat.ltb_lt]; lia|]. split; [|apply ex_eqb_refl].
          cbn [okx]. destruct (D1_app (rev (map (fun i => u2 i) (seq 3 k))) defs H1) as ((A & _) & B & _). rewrite (o_u1 _ _ B) by lia. rewrite (A (3 + k - 1)) by lia. rewrite !andb_true_r.
          unfold eu2. cases; auto. apply (has_rev (fun i => u2 i)). lia. }
      rewrite (chk_lets (fun i => v2 (n - 1 - i)) (fun i => (d (n - i) * print_v2 n (n - i) + 2 * print_v1 n (n - i))%ex)); [reflexivity|].
      intros k Hk. cbn [range intend]. replace (n - 1 - (3 + k) + 1) with (n - (3 + k)) by lia. rewrite p_v1, p_v2 by lia. split; [apply Nat.ltb_lt; lia|]. split; [|apply ex_eqb_refl].
      cbn [okx]. match goal with |- context [okx n gl (?a ++ ?b ++ defs)] => destruct (D1_app a _ (D1_app b defs H1)) as ((A & _) & _ & C) end.
      rewrite (o_v1 _ _ C) by lia. rewrite (A (n - (3 + k))) by lia. rewrite andb_true_r. cbn [andb]. unfold ev2. cases; auto. cbn [okx].
      replace (n - (3 + k)) with (n - 1 - (2 + k)) by lia. apply (has_rev (fun i => v2 (n - 1 - i))). lia.
    - split; [apply D1_app, D1_app; auto|]. split; intros i Hi.
      + apply has_app, (has_rev (fun i => u2 i)). lia.
      + replace i with (n - 1 - (n - 1 - i)) by lia. apply (has_rev (fun i => v2 (n - 1 - i))). lia. }
  destruct G as (E & G & HE). rewrite G. clear G. exists E.
  rewrite Nat.sub_0_r. destruct HE as (((A & B & C) & B1 & C1) & B2 & C2). destruct (Nat.ltb_spec n 3) as [H3|H3].
  { rewrite <- (app_nil_r (map _ (seq 0 n))). rewrite (chk_outs (2 * n) (eo2 n) (fun _ => 0%ex)); [reflexivity|]. intros k Hk. split; [reflexivity|].
    unfold eo2, eu0, eu1, eu2, ev0, ev1, ev2. cases; reflexivity. }
  rewrite <- (app_nil_r (map _ (seq 0 n))).
  match goal with |- context [fun i => Out (2 * n + i) (@?e i)] => rewrite (chk_outs (2 * n) (eo2 n) e) end; [reflexivity|]. cbv beta.
  intros k Hk. rewrite !p_u0, !p_u1, !p_u2, !p_v0, !p_v1, !p_v2 by lia. split.
  - cbn [okx]. rewrite (proj2 (Nat.ltb_lt k n)) by auto. cbn [andb].
    destruct (1 <? k), (0 <? k), (k <? n - 1), (k <? n - 2); cbn [andb app print_sum fold_left okx]; auto;
      rewrite ?(o_u0 _ k B), ?(o_u1 _ k B1), ?(o_u2 _ k B2), ?(o_v0 _ k C), ?(o_v1 _ k C1), ?(o_v2 _ k C2) by auto; reflexivity.
  - unfold eo2, eu0, eu1, eu2, ev0, ev1, ev2. cases; cbn [print_sum app fold_left andb simp smul sadd ex_eqb var_eqb Z.eqb Pos.eqb]; rewrite ?Nat.eqb_refl; try reflexivity; subst; cbn [print_sum app fold_left simp smul sadd ex_eqb var_eqb andb Z.eqb Pos.eqb]; rewrite ?Nat.eqb_refl; try reflexivity.
Qed.
End Gen.
Theorem printed_checked n t : 2 <= n -> length t = n / 2 - 1 -> check n (print_gll_lag_fix n t) = true.
Proof.
  intros Hn Ht. unfold check. change (nodes (print_gll_lag_fix n t)) with t.
  destruct (check_b0 n Hn _ Ht t) as (d0 & E0 & H0). rewrite E0. destruct (check_b1 n Hn _ Ht t d0 H0) as (d1 & E1 & H1). rewrite E1.
  destruct (check_b2 n Hn _ Ht t d1 H1) as (d2 & E2). rewrite E2. reflexivity.
Qed.
