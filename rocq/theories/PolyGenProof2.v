(** The number of operations in the functions printed for n points, for every n. *)
From Verif Require Import Base BaseLemmas PolyImpSyntax PolyImp PolyImpProof PolyGllRoundProof1 PolyGen PolyGenProof1.
Open Scope nat_scope.

Section Gen.
Variable n : nat.
Hypothesis Hn : 2 <= n.
Variables gl kw : nat.
Hypothesis Hgl : gl = n / 2 - 1.
Ltac cases := repeat match goal with
  | |- context [(?a =? ?b)%nat] => destruct (Nat.eqb_spec a b); try lia
  | |- context [(?a <=? ?b)%nat] => destruct (Nat.leb_spec a b); try lia
  | |- context [(?a <? ?b)%nat] => destruct (Nat.ltb_spec a b); try lia
  end.

Definition tab (v : nat -> var) (c : nat -> nat) (a m : nat) : list (var * nat) := rev (map (fun i => (v i, c i)) (seq a m)).
Lemma tab_snoc v c a m cs : tab v c a (S m) ++ cs = (v (a + m), c (a + m)) :: tab v c a m ++ cs.
Proof. unfold tab. rewrite seq_S, map_app, rev_app_distr. reflexivity. Qed.
Lemma lookc_hit v c a m cs j : a <= j < a + m -> (forall i, a <= i < a + m -> v i = v j -> i = j) -> lookc (tab v c a m ++ cs) (v j) = Some (c j).
Proof.
  induction m as [|m IH]; intros Hj I; [lia|]. rewrite tab_snoc. cbn [lookc]. destruct (var_eqb (v j) (v (a + m))) eqn:E.
  - apply var_eqb_eq in E. rewrite (I (a + m)) by (auto; lia). auto.
  - destruct (Nat.eq_dec j (a + m)) as [->|]; [rewrite var_eqb_refl in E; discriminate|]. apply IH; [lia|]. intros i Hi. apply I. lia.
Qed.
Lemma lookc_miss v c a m cs u : (forall i, a <= i < a + m -> u <> v i) -> lookc (tab v c a m ++ cs) u = lookc cs u.
Proof.
  induction m as [|m IH]; intros Hj; [reflexivity|]. rewrite tab_snoc. cbn [lookc]. destruct (var_eqb u (v (a + m))) eqn:E.
  - apply var_eqb_eq in E. destruct (Hj (a + m)); auto. lia.
  - apply IH. intros i Hi. apply Hj. lia.
Qed.
Lemma fchk_lets B pr v c e : forall m a cs outs rest,
  (forall k, k < m -> letc n gl kw (tab v c a k ++ cs) (v (a + k)) (e (a + k)) = Some (c (a + k))) ->
  fchk n gl kw B pr cs outs (map (fun i => Let (v i) (e i)) (seq a m) ++ rest) = fchk n gl kw B pr (tab v c a m ++ cs) outs rest.
Proof.
  induction m as [|m IH]; intros a cs outs rest H; [reflexivity|]. cbn [seq map app fchk]. pose proof (H 0 ltac:(lia)) as E. rewrite Nat.add_0_r in E. cbn [tab seq map rev app] in E. rewrite E.
  rewrite IH.
  - unfold tab. cbn [seq map rev]. rewrite <- app_assoc. reflexivity.
  - intros k Hk. specialize (H (S k) ltac:(lia)). replace (S a + k) with (a + S k) by lia.
    unfold tab in H. cbn [seq map rev] in H. rewrite <- app_assoc in H. exact H.
Qed.
Lemma fchk_outs B (pr : bool) off f e cs rest :
  (forall k, k < n -> (exists c, cost n kw cs (e k) = Some c /\ c <= B) /\ (pr = true -> prod (e k) = true /\ prod (f k) = true) /\ ex_eqb (simp (e k)) (simp (f k)) = true) ->
  fchk n gl kw B pr cs (outs_of n off f) (map (fun i => Out (off + i) (e i)) (seq 0 n) ++ rest) = fchk n gl kw B pr cs [] rest.
Proof.
  unfold outs_of. assert (G : forall m a, (forall k, a <= k < a + m -> (exists c, cost n kw cs (e k) = Some c /\ c <= B) /\ (pr = true -> prod (e k) = true /\ prod (f k) = true) /\ ex_eqb (simp (e k)) (simp (f k)) = true) ->
    fchk n gl kw B pr cs (map (fun i => (off + i, f i)) (seq a m)) (map (fun i => Out (off + i) (e i)) (seq a m) ++ rest) = fchk n gl kw B pr cs [] rest).
  { induction m as [|m IH]; intros a H; [reflexivity|]. cbn [seq map app fchk]. destruct (H a ltac:(lia)) as ((c & Ec & L) & P & E). rewrite Ec, Nat.eqb_refl, E, (proj2 (Nat.leb_le c B)) by auto.
    destruct pr; [destruct (P eq_refl) as [-> ->]|]; cbn [andb]; (apply IH; intros k Hk; apply H; lia). }
  intros H. apply G. intros k Hk. apply H. lia.
Qed.

Definition c0 (i : nat) : nat := 2 * i.
Definition c1 (i : nat) : nat := 3 * (i - 1).
Definition c2 (i : nat) : nat := if i <? 3 then 0 else 3 * i - 4.
Definition K0 (cs : list (var * nat)) : Prop := (forall i, i < n -> lookc cs (d i) = Some 1) /\ (forall i, 1 <= i < n -> lookc cs (u0 i) = Some (c0 i)) /\
  (forall i, i + 1 < n -> lookc cs (v0 i) = Some (c0 (n - 1 - i))).
Definition K1 (cs : list (var * nat)) : Prop := K0 cs /\ (forall i, 2 <= i < n -> lookc cs (u1 i) = Some (c1 i)) /\ (forall i, i + 2 < n -> lookc cs (v1 i) = Some (c1 (n - 1 - i))).
Definition K2 (cs : list (var * nat)) : Prop := K1 cs /\ (forall i, 3 <= i < n -> lookc cs (u2 i) = Some (c2 i)) /\ (forall i, i + 3 < n -> lookc cs (v2 i) = Some (c2 (n - 1 - i))).
Definition low (v : var) : bool := match v with d _ | u0 _ | v0 _ => true | _ => false end.
Definition low1 (v : var) : bool := match v with u2 _ | v2 _ => false | _ => true end.
Lemma K0_tab v c a m cs : (forall i, low (v i) = false) -> K0 cs -> K0 (tab v c a m ++ cs).
Proof.
  intros L (A & B & C). assert (G : forall u, low u = true -> lookc (tab v c a m ++ cs) u = lookc cs u).
  { intros u Hu. apply lookc_miss. intros i _ E. rewrite E, L in Hu. discriminate. }
  repeat split; intros i Hi; rewrite G; auto.
Qed.
Lemma K1_tab v c a m cs : (forall i, low1 (v i) = false) -> K1 cs -> K1 (tab v c a m ++ cs).
Proof.
  intros L (A & B & C). assert (G : forall u, low1 u = true -> lookc (tab v c a m ++ cs) u = lookc cs u).
  { intros u Hu. apply lookc_miss. intros i _ E. rewrite E, L in Hu. discriminate. }
  split; [apply K0_tab; auto; intros i; specialize (L i); destruct (v i); auto|]. split; intros i Hi; rewrite G; auto.
Qed.
Section O.
Variable cs : list (var * nat).
Lemma k_u0 i : (forall j, 1 <= j < n -> lookc cs (u0 j) = Some (c0 j)) -> i < n -> cost n kw cs (eu0 i) = Some (c0 i).
Proof. intros H Hi. unfold eu0. cases; [subst; reflexivity|]. apply H. lia. Qed.
Lemma k_v0 i : (forall j, j + 1 < n -> lookc cs (v0 j) = Some (c0 (n - 1 - j))) -> i < n -> cost n kw cs (ev0 n i) = Some (c0 (n - 1 - i)).
Proof. intros H Hi. unfold ev0. cases; [replace (n - 1 - i) with 0 by lia; reflexivity|]. apply H. lia. Qed.
Lemma k_u1 i : (forall j, 2 <= j < n -> lookc cs (u1 j) = Some (c1 j)) -> i < n -> cost n kw cs (eu1 i) = Some (c1 i).
Proof. intros H Hi. unfold eu1. cases; [subst; reflexivity|subst; reflexivity|]. apply H. lia. Qed.
Lemma k_v1 i : (forall j, j + 2 < n -> lookc cs (v1 j) = Some (c1 (n - 1 - j))) -> i < n -> cost n kw cs (ev1 n i) = Some (c1 (n - 1 - i)).
Proof. intros H Hi. unfold ev1. cases; [replace (n - 1 - i) with 0 by lia; reflexivity|replace (n - 1 - i) with 1 by lia; reflexivity|]. apply H. lia. Qed.
Lemma k_u2 i : (forall j, 3 <= j < n -> lookc cs (u2 j) = Some (c2 j)) -> i < n -> cost n kw cs (eu2 i) = Some (c2 i).
Proof. intros H Hi. unfold eu2. cases; [cbn [cost]; unfold c2; cases; reflexivity|cbn [cost]; unfold c2; cases; reflexivity|]. apply H. lia. Qed.
Lemma k_v2 i : (forall j, j + 3 < n -> lookc cs (v2 j) = Some (c2 (n - 1 - j))) -> i < n -> cost n kw cs (ev2 n i) = Some (c2 (n - 1 - i)).
Proof. intros H Hi. unfold ev2. cases; [cbn [cost]; unfold c2; cases; reflexivity|cbn [cost]; unfold c2; cases; reflexivity|]. apply H. lia. Qed.
End O.
Lemma prod_u0 i : prod (eu0 i) = true. Proof. destruct i; reflexivity. Qed.
Lemma prod_v0 i : prod (ev0 n i) = true. Proof. unfold ev0. destruct (i + 1 =? n); reflexivity. Qed.
Lemma inG_ok i : i < n -> inG gl (zform n i) = true.
Proof.
  intros Hi. assert (DV : n = 2 * (n / 2) + n mod 2) by (apply Nat.div_mod; lia). assert (MB := Nat.mod_upper_bound n 2 ltac:(lia)).
  unfold zform. cases; cbn [inG]; auto; apply Nat.ltb_lt; lia.
Qed.

Lemma fcheck_b0 B t : kw + 2 * n <= B -> exists cs, fchk n gl kw B true [] (outs_of n 0 (eo0 n)) (b0 (print_gll_lag_fix n t)) = Some cs /\ K0 cs.
Proof.
  intros HB. cbn [print_gll_lag_fix b0]. unfold print_list.
  rewrite (fchk_lets B true (fun i => d i) (fun _ => 1) (print_d n)).
  2:{ intros k Hk. cbn [Nat.add letc]. rewrite (p_d n Hn gl Hgl) by lia. rewrite inG_ok, ex_eqb_refl, (proj2 (Nat.ltb_lt k n)) by lia. reflexivity. }
  set (E1 := tab _ _ _ _ ++ []). assert (H1 : forall i, i < n -> lookc E1 (d i) = Some 1).
  { intros i Hi. apply (lookc_hit (fun i => d i) (fun _ => 1)); [lia|]. intros j _ E. congruence. } clearbody E1.
  rewrite (fchk_lets B true (fun i => u0 i) c0 (fun i => (print_u0 (i - 1) * d (i - 1))%ex)).
  2:{ intros k Hk. cbn [letc intend is0 range prod]. rewrite p_u0, ex_eqb_refl, prod_u0. rewrite (proj2 (Nat.leb_le 1 (1 + k))), (proj2 (Nat.ltb_lt (1 + k) n)) by lia. cbn [andb cost].
      rewrite lookc_miss, H1 by (discriminate || lia). replace (1 + k - 1) with k by lia. unfold eu0. destruct (Nat.eqb_spec k 0) as [->|]; [reflexivity|].
      cbn [cost]. rewrite (lookc_hit (fun i => u0 i) c0) by (try lia; intros; congruence). f_equal. unfold c0. lia. }
  set (E2 := tab _ _ _ _ ++ E1). assert (H2 : (forall i, i < n -> lookc E2 (d i) = Some 1) /\ forall i, 1 <= i < n -> lookc E2 (u0 i) = Some (c0 i)).
  { split; intros i Hi; unfold E2; [rewrite lookc_miss by discriminate; auto|apply (lookc_hit (fun i => u0 i)); [lia|intros; congruence]]. } clearbody E2.
  rewrite (fchk_lets B true (fun i => v0 (n - 1 - i)) c0 (fun i => (d (n - i) * print_v0 n (n - i))%ex)).
  2:{ intros k Hk. cbn [letc intend is0 range prod]. replace (n - 1 - (1 + k) + 1) with (n - (1 + k)) by lia. rewrite (p_v0 n Hn gl Hgl) by lia. rewrite ex_eqb_refl, prod_v0. rewrite (proj2 (Nat.ltb_lt _ n)) by lia. cbn [andb cost].
      rewrite lookc_miss, (proj1 H2) by (discriminate || lia). unfold ev0. destruct (Nat.eqb_spec (n - (1 + k) + 1) n); [replace k with 0 by lia; reflexivity|]. cbn [cost].
      replace (n - (1 + k)) with (n - 1 - k) by lia. rewrite (lookc_hit (fun i => v0 (n - 1 - i)) c0 1 k E2 k); [|lia|intros i Hi E; injection E; lia]. f_equal. unfold c0. lia. }
  set (E3 := tab _ _ _ _ ++ E2). assert (H3 : K0 E3).
  { split; [|split]; intros i Hi; unfold E3.
    - rewrite lookc_miss by discriminate. apply H2. auto.
    - rewrite lookc_miss by discriminate. apply H2. auto.
    - replace i with (n - 1 - (n - 1 - i)) at 1 by lia. apply (lookc_hit (fun i => v0 (n - 1 - i))); [lia|]. intros j Hj E. injection E. lia. } clearbody E3.
  rewrite Nat.sub_0_r, <- (app_nil_r (map _ (seq 0 n))). rewrite (fchk_outs B true 0 (eo0 n) (fun i => (W i * print_u0 i * print_v0 n i)%ex)).
  - exists E3. auto.
  - intros k Hk. rewrite p_u0, (p_v0 n Hn gl Hgl) by auto. destruct H3 as (A & B' & C). split; [|split; [|apply ex_eqb_refl]].
    + cbn [cost]. rewrite (proj2 (Nat.ltb_lt k n)) by auto. rewrite (k_u0 _ k B'), (k_v0 _ k C) by auto. eexists. split; [reflexivity|]. unfold c0. lia.
    + intros _. unfold eo0. cbn [prod]. rewrite prod_u0, prod_v0. auto.
Qed.
Lemma fcheck_b1 B t cs : K0 cs -> kw + 3 * n + 1 <= B -> exists cs', fchk n gl kw B false cs (outs_of n n (eo1 n)) (b1 (print_gll_lag_fix n t)) = Some cs' /\ K1 cs'.
Proof.
  intros H0 HB. cbn [print_gll_lag_fix b1]. unfold print_list.
  assert (G : exists E, (forall outs rest, fchk n gl kw B false cs outs ((if 2 <? n then map (fun i => Let (u1 i) (print_u1 (i - 1) * d (i - 1) + print_u0 (i - 1))) (seq 2 (n - 2)) ++
      map (fun i => Let (v1 (n - 1 - i)) (d (n - i) * print_v1 n (n - i) + print_v0 n (n - i))) (seq 2 (n - 2)) else []) ++ rest) = fchk n gl kw B false E outs rest) /\ K1 E).
  { destruct (Nat.ltb_spec 2 n) as [H2|H2].
    2:{ exists cs. split; [auto|]. split; [auto|]. split; intros; lia. }
    eexists. split.
    - intros outs rest. rewrite <- app_assoc. rewrite (fchk_lets B false (fun i => u1 i) c1 (fun i => (print_u1 (i - 1) * d (i - 1) + print_u0 (i - 1))%ex)).
      2:{ intros k Hk. cbn [letc range intend is0]. rewrite p_u0, p_u1, ex_eqb_refl. rewrite (proj2 (Nat.leb_le 1 (2 + k))), (proj2 (Nat.ltb_lt (2 + k) n)) by lia. cbn [andb cost].
          destruct (K0_tab (fun i => u1 i) c1 2 k cs (fun _ => eq_refl) H0) as (A & B' & C). rewrite (k_u0 _ _ B'), A by lia.
          assert (E : cost n kw (tab (fun i => u1 i) c1 2 k ++ cs) (eu1 (2 + k - 1)) = Some (c1 (2 + k - 1))).
          { unfold eu1. cases; [replace (2 + k - 1) with 1 by lia; reflexivity|]. apply (lookc_hit (fun i => u1 i)); [lia|intros; congruence]. }
          rewrite E. f_equal. unfold c0, c1. lia. }
      rewrite (fchk_lets B false (fun i => v1 (n - 1 - i)) c1 (fun i => (d (n - i) * print_v1 n (n - i) + print_v0 n (n - i))%ex)); [reflexivity|].
      intros k Hk. cbn [letc range intend is0]. replace (n - 1 - (2 + k) + 1) with (n - (2 + k)) by lia. rewrite (p_v0 n Hn gl Hgl), (p_v1 n Hn gl Hgl) by lia. rewrite ex_eqb_refl. rewrite (proj2 (Nat.ltb_lt _ n)) by lia. cbn [andb cost].
      match goal with |- context [lookc ?E _] => set (EE := E) end.
      assert (H1 : K0 EE) by (apply K0_tab, K0_tab; auto). destruct H1 as (A & B' & C). rewrite (k_v0 _ _ C), A by lia.
      assert (E : cost n kw EE (ev1 n (n - (2 + k))) = Some (c1 (1 + k))).
      { unfold ev1. cases; [replace k with 0 by lia; reflexivity|]. cbn [cost]. replace (n - (2 + k)) with (n - 1 - (1 + k)) by lia.
        apply (lookc_hit (fun i => v1 (n - 1 - i))); [lia|]. intros i Hi E. injection E. lia. }
      rewrite E. replace (n - 1 - (n - (2 + k))) with (1 + k) by lia. f_equal. unfold c0, c1. lia.
    - split; [apply K0_tab, K0_tab; auto|]. split; intros i Hi.
      + rewrite lookc_miss by discriminate. apply (lookc_hit (fun i => u1 i)); [lia|intros; congruence].
      + replace i with (n - 1 - (n - 1 - i)) at 1 by lia. apply (lookc_hit (fun i => v1 (n - 1 - i))); [lia|]. intros j Hj E. injection E. lia. }
  destruct G as (E & G & HE). rewrite G. clear G. exists E. split; [|auto].
  rewrite Nat.sub_0_r, <- (app_nil_r (map _ (seq 0 n))).
  match goal with |- context [fun i => Out (n + i) (@?e i)] => rewrite (fchk_outs B false n (eo1 n) e) end; [reflexivity|]. cbv beta.
  destruct HE as ((A & B' & C) & BB & CC). intros k Hk. rewrite !p_u0, !p_u1, !(p_v0 n Hn gl Hgl), !(p_v1 n Hn gl Hgl) by lia. split; [|split; [discriminate|]].
  - cbn [cost Z.leb Z.compare]. rewrite (proj2 (Nat.ltb_lt k n)) by auto. destruct (Nat.eqb_spec k 0) as [->|N0]; [|destruct (Nat.eqb_spec k (n - 1)) as [->|N1]].
    + rewrite (k_v1 _ 0 CC) by lia. eexists. split; [reflexivity|]. unfold c1. lia.
    + rewrite (k_u1 _ _ BB) by lia. eexists. split; [reflexivity|]. unfold c1. lia.
    + cbn [cost]. rewrite (k_u0 _ k B'), (k_u1 _ k BB), (k_v0 _ k C), (k_v1 _ k CC) by auto. eexists. split; [reflexivity|]. unfold c0, c1. lia.
  - unfold eo1, eu0, eu1, ev0, ev1. cases; cbn [simp smul sadd ex_eqb var_eqb andb Z.eqb Pos.eqb]; rewrite ?Nat.eqb_refl; try reflexivity; subst; cbn [simp smul sadd ex_eqb var_eqb andb Z.eqb Pos.eqb]; rewrite ?Nat.eqb_refl; try reflexivity.
Qed.
Lemma fcheck_b2 B t cs : K1 cs -> kw + 3 * n + 3 <= B -> exists cs', fchk n gl kw B false cs (outs_of n (2 * n) (eo2 n)) (b2 (print_gll_lag_fix n t)) = Some cs'.
Proof.
  intros H1 HB. cbn [print_gll_lag_fix b2]. unfold print_list.
  assert (G : exists E, (forall outs rest, fchk n gl kw B false cs outs ((if 3 <? n then map (fun i => Let (u2 i) (print_u2 (i - 1) * d (i - 1) + 2 * print_u1 (i - 1))) (seq 3 (n - 3)) ++
      map (fun i => Let (v2 (n - 1 - i)) (d (n - i) * print_v2 n (n - i) + 2 * print_v1 n (n - i))) (seq 3 (n - 3)) else []) ++ rest) = fchk n gl kw B false E outs rest) /\ K2 E).
  { destruct (Nat.ltb_spec 3 n) as [H2|H2].
    2:{ exists cs. split; [auto|]. split; [auto|]. split; intros; lia. }
    eexists. split.
    - intros outs rest. rewrite <- app_assoc. rewrite (fchk_lets B false (fun i => u2 i) c2 (fun i => (print_u2 (i - 1) * d (i - 1) + 2 * print_u1 (i - 1))%ex)).
      2:{ intros k Hk. cbn [letc range intend is0]. rewrite p_u1, p_u2, ex_eqb_refl. rewrite (proj2 (Nat.leb_le 1 (3 + k))), (proj2 (Nat.ltb_lt (3 + k) n)) by lia. cbn [andb cost Z.leb Z.compare].
          destruct (K1_tab (fun i => u2 i) c2 3 k cs (fun _ => eq_refl) H1) as ((A & _) & B' & C). rewrite (k_u1 _ _ B'), A by lia.
          assert (E : cost n kw (tab (fun i => u2 i) c2 3 k ++ cs) (eu2 (3 + k - 1)) = Some (c2 (3 + k - 1))).
          { unfold eu2. cases; [replace (3 + k - 1) with 2 by lia; reflexivity|]. apply (lookc_hit (fun i => u2 i)); [lia|intros; congruence]. }
          rewrite E. f_equal. unfold c2, c1. cases. }
      rewrite (fchk_lets B false (fun i => v2 (n - 1 - i)) c2 (fun i => (d (n - i) * print_v2 n (n - i) + 2 * print_v1 n (n - i))%ex)); [reflexivity|].
      intros k Hk. cbn [letc range intend is0]. replace (n - 1 - (3 + k) + 1) with (n - (3 + k)) by lia. rewrite (p_v1 n Hn gl Hgl), (p_v2 n Hn gl Hgl) by lia. rewrite ex_eqb_refl. rewrite (proj2 (Nat.ltb_lt _ n)) by lia. cbn [andb cost Z.leb Z.compare].
      match goal with |- context [lookc ?E _] => set (EE := E) end.
      assert (HE : K1 EE) by (apply K1_tab, K1_tab; auto). destruct HE as ((A & _) & B' & C). rewrite (k_v1 _ _ C), A by lia.
      assert (E : cost n kw EE (ev2 n (n - (3 + k))) = Some (c2 (2 + k))).
      { unfold ev2. cases; [replace k with 0 by lia; reflexivity|]. cbn [cost]. replace (n - (3 + k)) with (n - 1 - (2 + k)) by lia.
        apply (lookc_hit (fun i => v2 (n - 1 - i))); [lia|]. intros i Hi E. injection E. lia. }
      rewrite E. replace (n - 1 - (n - (3 + k))) with (2 + k) by lia. f_equal. unfold c2, c1. cases.
    - split; [apply K1_tab, K1_tab; auto|]. split; intros i Hi.
      + rewrite lookc_miss by discriminate. apply (lookc_hit (fun i => u2 i)); [lia|intros; congruence].
      + replace i with (n - 1 - (n - 1 - i)) at 1 by lia. apply (lookc_hit (fun i => v2 (n - 1 - i))); [lia|]. intros j Hj E. injection E. lia. }
  destruct G as (E & G & HE). rewrite G. clear G. exists E.
  rewrite Nat.sub_0_r. destruct HE as (((A & B' & C) & B1 & C1) & B2 & C2). destruct (Nat.ltb_spec n 3) as [H3|H3].
  { rewrite <- (app_nil_r (map _ (seq 0 n))). rewrite (fchk_outs B false (2 * n) (eo2 n) (fun _ => 0%ex)); [reflexivity|]. intros k Hk. split; [exists 0; split; [reflexivity|lia]|split; [discriminate|]].
    unfold eo2, eu0, eu1, eu2, ev0, ev1, ev2. cases; reflexivity. }
  rewrite <- (app_nil_r (map _ (seq 0 n))).
  match goal with |- context [fun i => Out (2 * n + i) (@?e i)] => rewrite (fchk_outs B false (2 * n) (eo2 n) e) end; [reflexivity|]. cbv beta.
  intros k Hk. rewrite !p_u0, !p_u1, !p_u2, !(p_v0 n Hn gl Hgl), !(p_v1 n Hn gl Hgl), !(p_v2 n Hn gl Hgl) by lia. split; [|split; [discriminate|]].
  - cbn [cost Z.leb Z.compare]. rewrite (proj2 (Nat.ltb_lt k n)) by auto.
    destruct (Nat.ltb_spec 1 k), (Nat.ltb_spec 0 k), (Nat.ltb_spec k (n - 1)), (Nat.ltb_spec k (n - 2)); try lia; cbn [andb app print_sum fold_left cost Z.leb Z.compare];
      rewrite ?(k_u0 _ k B'), ?(k_u1 _ k B1), ?(k_u2 _ k B2), ?(k_v0 _ k C), ?(k_v1 _ k C1), ?(k_v2 _ k C2) by auto; (eexists; split; [reflexivity|]); unfold c0, c1, c2; cases; lia.
  - unfold eo2, eu0, eu1, eu2, ev0, ev1, ev2. cases; cbn [print_sum app fold_left andb simp smul sadd ex_eqb var_eqb Z.eqb Pos.eqb]; rewrite ?Nat.eqb_refl; try reflexivity; subst; cbn [print_sum app fold_left simp smul sadd ex_eqb var_eqb andb Z.eqb Pos.eqb]; rewrite ?Nat.eqb_refl; try reflexivity.
Qed.
End Gen.

Theorem printed_checkf n t : 2 <= n -> length t = n / 2 - 1 -> checkf2 n (print_gll_lag_fix n t) = true.
Proof.
  intros Hn Ht. assert (G : forall kw B0 B1 B2, kw + 2 * n <= B0 -> kw + 3 * n + 1 <= B1 -> kw + 3 * n + 3 <= B2 -> checkf n kw B0 B1 B2 (print_gll_lag_fix n t) = true).
  { intros kw B0 B1 B2 H0 H1 H2. unfold checkf. cbn [nodes print_gll_lag_fix].
    destruct (fcheck_b0 n Hn (length t) kw Ht B0 t H0) as (d0 & -> & K0d). destruct (fcheck_b1 n Hn (length t) kw Ht B1 t d0 K0d H1) as (d1 & -> & K1d).
    destruct (fcheck_b2 n Hn (length t) kw Ht B2 t d1 K1d H2) as (d2 & ->). auto. }
  unfold checkf2. rewrite !G by lia. auto.
Qed.
