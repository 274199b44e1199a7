(** The basis computed by lagrange_setup and lagrange_eval. *)
From Verif Require Import Base BaseLemmas Poly PolySpec PolyProof1.
From Coq Require Import Reals Lra.
Open Scope R_scope.

(** Products. *)
Lemma rprod_ext n f g : (forall i, (i < n)%nat -> f i = g i) -> rprod n f = rprod n g.
Proof. induction n as [|n IH]; intros H; cbn [rprod]; auto. rewrite IH, H by (intros; try apply H; lia). auto. Qed.
Lemma rprod_split a b f : rprod (a + b) f = rprod a f * rprod b (fun k => f (a + k)%nat).
Proof.
  induction b as [|b IH]; [rewrite Nat.add_0_r; cbn [rprod]; ring|]. rewrite Nat.add_succ_r. cbn [rprod]. rewrite IH. ring.
Qed.
Lemma rprod_first n f : rprod (S n) f = f 0%nat * rprod n (fun k => f (S k)).
Proof. change (rprod (1 + n) f = f 0%nat * rprod n (fun k => f (1 + k)%nat)). rewrite rprod_split. cbn [rprod]. ring. Qed.
Lemma rprod_mult n f g : rprod n (fun i => f i * g i) = rprod n f * rprod n g.
Proof. induction n as [|n IH]; cbn [rprod]; [ring|]. rewrite IH. ring. Qed.
Lemma rprod_nonzero n f : (forall i, (i < n)%nat -> f i <> 0) -> rprod n f <> 0.
Proof. induction n as [|n IH]; intros H; cbn [rprod]; [lra|]. apply Rmult_integral_contrapositive_currified; [apply IH; intros; apply H|apply H]; lia. Qed.
Lemma rprod_zero n f i : (i < n)%nat -> f i = 0 -> rprod n f = 0.
Proof. induction n as [|n IH]; intros H E; [lia|]. cbn [rprod]. destruct (Nat.eq_dec i n) as [->|]; [rewrite E; ring|]. rewrite IH by (auto; lia). ring. Qed.
Lemma rsum_ext n f g : (forall i, (i < n)%nat -> f i = g i) -> rsum n f = rsum n g.
Proof. induction n as [|n IH]; intros H; cbn [rsum]; auto. rewrite IH, H by (intros; try apply H; lia). auto. Qed.

Section A.
Variable z : nat -> R.
Variable n : nat.
Lemma U0_prod x i : U0 z x i = rprod i (dd z x).
Proof. induction i as [|i IH]; cbn [U0 rprod]; auto. rewrite IH. auto. Qed.
Lemma W0_prod x k : (k <= n - 1)%nat -> W0 z n x k = rprod k (fun j => dd z x (n - k + j)).
Proof.
  induction k as [|k IH]; intros H; [reflexivity|]. cbn [W0]. rewrite IH, rprod_first by lia. f_equal.
  - f_equal. lia.
  - apply rprod_ext. intros j Hj. f_equal. lia.
Qed.
Lemma L0_prod x i : (i < n)%nat -> L0 z n x i = rprod n (fun j => if (j =? i)%nat then 1 else dd z x j).
Proof.
  intros H. unfold L0, V0. rewrite U0_prod, W0_prod by lia.
  replace (rprod n (fun j => if (j =? i)%nat then 1 else dd z x j)) with (rprod (i + S (n - 1 - i)) (fun j => if (j =? i)%nat then 1 else dd z x j)) by (f_equal; lia).
  rewrite rprod_split, rprod_first. rewrite Nat.add_0_r, Nat.eqb_refl, Rmult_1_l. f_equal.
  - apply rprod_ext. intros j Hj. destruct (Nat.eqb_spec j i); [lia|auto].
  - apply rprod_ext. intros j Hj. destruct (Nat.eqb_spec (i + S j) i); [lia|]. f_equal. lia.
Qed.

(** Derivatives. *)
Lemma der_eq f x a b : derivable_pt_lim f x a -> a = b -> derivable_pt_lim f x b.
Proof. intros H ->. auto. Qed.
Lemma der_mul f g x a b : derivable_pt_lim f x a -> derivable_pt_lim g x b -> derivable_pt_lim (fun x => f x * g x) x (a * g x + f x * b).
Proof. intros. apply (derivable_pt_lim_mult f g); auto. Qed.
Lemma der_add f g x a b : derivable_pt_lim f x a -> derivable_pt_lim g x b -> derivable_pt_lim (fun x => f x + g x) x (a + b).
Proof. intros. apply (derivable_pt_lim_plus f g); auto. Qed.
Lemma der_scal c f x a : derivable_pt_lim f x a -> derivable_pt_lim (fun x => c * f x) x (c * a).
Proof. intros. apply (derivable_pt_lim_scal f); auto. Qed.
Lemma dd_der i x : derivable_pt_lim (fun x => dd z x i) x 2.
Proof.
  unfold dd. eapply der_eq; [apply der_scal, (derivable_pt_lim_minus (fun x => x) (fun _ => z i)); [apply derivable_pt_lim_id|apply derivable_pt_lim_const]|]. cbv beta. ring.
Qed.
Lemma U0_der i x : derivable_pt_lim (fun x => U0 z x i) x (2 * U1 z x i).
Proof.
  induction i as [|i IH]; cbn [U0 U1]; [eapply der_eq; [apply derivable_pt_lim_const|ring]|].
  eapply der_eq; [apply der_mul; [apply IH|apply dd_der]|]. cbv beta. ring.
Qed.
Lemma U1_der i x : derivable_pt_lim (fun x => U1 z x i) x (2 * U2 z x i).
Proof.
  induction i as [|i IH]; cbn [U1 U2]; [eapply der_eq; [apply derivable_pt_lim_const|ring]|].
  eapply der_eq; [apply der_add; [apply der_mul; [apply IH|apply dd_der]|apply U0_der]|]. cbv beta. ring.
Qed.
Lemma W0_der i x : derivable_pt_lim (fun x => W0 z n x i) x (2 * W1 z n x i).
Proof.
  induction i as [|i IH]; cbn [W0 W1]; [eapply der_eq; [apply derivable_pt_lim_const|ring]|].
  eapply der_eq; [apply der_mul; [apply dd_der|apply IH]|]. cbv beta. ring.
Qed.
Lemma W1_der i x : derivable_pt_lim (fun x => W1 z n x i) x (2 * W2 z n x i).
Proof.
  induction i as [|i IH]; cbn [W1 W2]; [eapply der_eq; [apply derivable_pt_lim_const|ring]|].
  eapply der_eq; [apply der_add; [apply der_mul; [apply dd_der|apply IH]|apply W0_der]|]. cbv beta. ring.
Qed.
Lemma L0_der i x : derivable_pt_lim (fun x => L0 z n x i) x (L1 z n x i).
Proof. unfold L0, L1, V0, V1. eapply der_eq; [apply der_mul; [apply U0_der|apply W0_der]|]. cbv beta. ring. Qed.
Lemma L1_der i x : derivable_pt_lim (fun x => L1 z n x i) x (L2 z n x i).
Proof.
  unfold L1, L2, V0, V1, V2. eapply der_eq.
  - apply der_scal, der_add; apply der_mul; [apply U1_der|apply W0_der|apply U0_der|apply W1_der].
  - cbv beta. ring.
Qed.
End A.

(** The weights. *)
Definition wt (z : arr) (n i : nat) : R := 1 / L0 (get z) n (get z i) i.
Lemma L0_ext f g n x i : (i < n)%nat -> (forall j, (j < n)%nat -> f j = g j) -> L0 f n x i = L0 g n x i.
Proof. intros H E. rewrite !L0_prod by auto. apply rprod_ext. intros j Hj. unfold dd. rewrite (E j Hj). auto. Qed.
Lemma L0_nz z n i : distinct z n -> (i < n)%nat -> L0 (get z) n (get z i) i <> 0.
Proof.
  intros D Hi. rewrite L0_prod by auto. apply rprod_nonzero. intros j Hj. destruct (Nat.eqb_spec j i); [lra|].
  unfold dd. assert (get z i <> get z j) by (intros E; apply n0; symmetry; apply D; auto). lra.
Qed.
Lemma basis_L0 z n i x : distinct z n -> (i < n)%nat -> basis z n i x = wt z n i * L0 (get z) n x i.
Proof.
  intros D Hi. assert (NZ := L0_nz z n i D Hi). apply (Rmult_eq_reg_r (L0 (get z) n (get z i) i)); auto.
  unfold wt. replace (1 / L0 (get z) n (get z i) i * L0 (get z) n x i * L0 (get z) n (get z i) i) with (L0 (get z) n x i) by (field; auto).
  rewrite !L0_prod by auto. unfold basis. rewrite <- rprod_mult. apply rprod_ext. intros j Hj. destruct (Nat.eqb_spec j i); [ring|].
  unfold dd. assert (get z i <> get z j) by (intros E; apply n0; symmetry; apply D; auto). field. lra.
Qed.

(** data is ready for evaluations. *)
Definition ready (z data : arr) (n : nat) : Prop := (9 * n <= length data)%nat /\ reg data 0 n (get z) /\ reg data n n (wt z n).

Lemma setup_ok data z n : (1 <= n)%nat -> (9 * n <= length data)%nat -> (n <= length z)%nat -> distinct z n ->
  exists data', lagrange_setup data z n = Ok data' /\ length data' = length data /\
    (forall k, (9 * n <= k)%nat -> get data' k = get data k) /\ ready z data' n.
Proof.
  intros Hn Hd Hz D. unfold lagrange_setup, copy.
  lazymatch goal with |- context [fill ?a ?o ?k ?f] => destruct (fill_ok a o k f (get z)) as (m1 & E1 & S1 & R1) end; [lia| |rewrite E1; cbn [bind]; clear E1].
  { intros m' i Hi _ _. rewrite rd_get by lia. auto. }
  unfold lagrange_coef.
  lazymatch goal with |- context [fill ?a ?o ?k ?f] => destruct (fill_ok a o k f (fun _ => 1)) as (m2 & E2 & S2 & R2) end; [destruct S1; lia|auto|rewrite E2; cbn [bind]; clear E2].
  assert (T2 : same_out data m2 0 (9 * n)).
  { pose proof (same_out_trans _ _ _ _ _ _ _ 0 (9 * n) S1 S2 ltac:(lia) ltac:(lia) ltac:(lia) ltac:(lia)) as T. rewrite Nat.sub_0_r in T. auto. }
  pose proof (same_out_reg _ _ _ _ _ _ _ S2 R1 ltac:(lia)) as Rz2.
  match goal with |- context [foldM ?f (seq 0 n) (repeat 0 n, m2)] => set (F := f) end.
  assert (G : forall k, (k <= n)%nat -> exists p m, foldM F (seq 0 k) (repeat 0 n, m2) = Ok (p, m) /\ length p = n /\ same_out data m 0 (9 * n) /\ reg m 0 n (get z) /\
            reg m n n (fun i => if (i <? k)%nat then wt z n i else 1)).
  { induction k as [|k IH]; intros Hk.
    - exists (repeat 0 n), m2. split; [auto|]. split; [apply repeat_length|]. auto.
    - destruct IH as (p & m & E & Lp & Sm & Rz & Rw); [lia|]. rewrite seq_S, foldM_snoc, E. cbn [bind Nat.add]. unfold F. rewrite rd_get by lia. cbn [bind].
      assert (Lm : length m = length data) by apply Sm.
      destruct (eval_ok (get z) n (get z k) (fun i => if (i <? k)%nat then wt z n i else 1) p m 0) as (p' & m' & E' & S' & Sp & Rp & _); try lia; auto.
      rewrite E'. cbn [bind]. rewrite rd_get by (destruct Sp; lia). cbn [bind]. pose proof (Rp k ltac:(lia)) as Ek. cbn [Nat.add] in Ek. rewrite Ek.
      rewrite Nat.ltb_irrefl. assert (Lm' : length m' = length data) by (destruct S'; lia).
      rewrite wr_get by lia. cbn [bind]. eexists; eexists. split; [reflexivity|]. split; [destruct Sp; lia|]. split; [split|split].
      + rewrite upd_length'. auto.
      + intros j Hj. rewrite get_upd by lia. destruct (Nat.eqb_spec j (n + k)); [lia|]. destruct S' as [_ S']. destruct Sm as [_ Sm]. rewrite S', Sm by lia. auto.
      + intros j Hj. rewrite get_upd by lia. destruct (Nat.eqb_spec (0 + j) (n + k)); [lia|]. destruct S' as [_ S']. rewrite S' by lia. apply Rz. auto.
      + intros j Hj. rewrite get_upd by lia. destruct (Nat.eqb_spec (n + j) (n + k)) as [Q|Q].
        * replace j with k by lia. rewrite (proj2 (Nat.ltb_lt k (S k))) by lia. unfold wt. f_equal. ring.
        * destruct S' as [_ S']. rewrite S' by lia. rewrite (Rw j Hj). destruct (Nat.ltb_spec j k), (Nat.ltb_spec j (S k)); try lia; auto. }
  destruct (G n ltac:(lia)) as (p & m & E & Lp & Sm & Rz & Rw). rewrite E. cbn [bind]. exists m. split; [auto|]. split; [apply Sm|].
  split; [intros k Hk; apply Sm; lia|]. split; [destruct Sm; lia|]. split; [auto|]. intros i Hi. rewrite (Rw i Hi).
  rewrite (proj2 (Nat.ltb_lt i n)) by lia. auto.
Qed.

Lemma eval_ready z data n p der x : (1 <= n)%nat -> ready z data n -> distinct z n -> (der <= 2)%nat -> (n * (der + 1) <= length p)%nat ->
  exists p' data', lagrange_eval p data n der x = Ok (p', data') /\ ready z data' n /\ evaluates z n der x p p'.
Proof.
  intros Hn (Ld & Rz & Rw) D Hder Hp.
  destruct (eval_ok (get z) n x (wt z n) p data der) as (p' & data' & E & S & Sp & R0 & R1 & R2); auto.
  exists p', data'. split; [auto|]. split.
  { split; [destruct S; lia|]. split; eapply same_out_reg; eauto; lia. }
  destruct Sp as [Lp Sp]. split; [auto|]. split; [intros k Hk; apply Sp; lia|]. intros i Hi.
  assert (B : forall y, basis z n i y = wt z n i * L0 (get z) n y i) by (intros; apply basis_L0; auto).
  assert (D1 : forall y, derivable_pt_lim (basis z n i) y (wt z n i * L1 (get z) n y i)).
  { intros y. apply (derivable_pt_lim_ext (fun y => wt z n i * L0 (get z) n y i)); [intros; symmetry; apply B|]. apply der_scal, L0_der. }
  split; [rewrite <- (Nat.add_0_l i), (R0 i Hi), B; auto|]. split.
  - intros H. rewrite (R1 H i Hi). apply D1.
  - intros H. rewrite (R2 H i Hi). exists (fun y => wt z n i * L1 (get z) n y i). split; [apply D1|]. apply der_scal, L1_der.
Qed.

Lemma evals_ok z n calls : (1 <= n)%nat -> distinct z n -> forall data, ready z data n -> Forall (valid_call n) calls ->
  exists outs, evals lagrange_eval data n calls = Ok outs /\ Forall2 (fun '(p, der, x) p' => evaluates z n der x p p') calls outs.
Proof.
  intros Hn D. induction calls as [|[[p der] x] calls IH]; intros data Hr HF.
  - exists []. split; [reflexivity|constructor].
  - apply Forall_cons_iff in HF. destruct HF as [Hv HF']. assert (Hv1 : (der <= 2)%nat) by apply Hv. assert (Hv2 : (n * (der + 1) <= length p)%nat) by apply Hv. destruct (eval_ready z data n p der x) as (p' & d' & E & Hr' & Ev); auto.
    destruct (IH d' Hr' HF') as (outs & E' & F). cbn [evals]. rewrite E. cbn [bind]. rewrite E'. cbn [bind]. eexists. split; [reflexivity|]. constructor; auto.
Qed.

(** Polynomials. *)
Lemma peval_factor c a : exists q, length q = (length c - 1)%nat /\ forall x, peval c x - peval c a = (x - a) * peval q x.
Proof.
  induction c as [|c0 c IH]; [exists []; split; auto; intros; cbn [peval]; ring|]. destruct IH as (q & Lq & Hq).
  destruct c as [|c1 c]; [exists []; split; auto; intros; cbn [peval]; ring|].
  exists (peval (c1 :: c) a :: q). split; [cbn [length] in *; lia|]. intros x. specialize (Hq x).
  change (c0 + x * peval (c1 :: c) x - (c0 + a * peval (c1 :: c) a) = (x - a) * (peval (c1 :: c) a + x * peval q x)).
  replace ((x - a) * (peval (c1 :: c) a + x * peval q x)) with ((x - a) * peval (c1 :: c) a + x * ((x - a) * peval q x)) by ring. rewrite <- Hq. ring.
Qed.
Lemma peval_roots n z : distinct z n -> forall c, (length c <= n)%nat -> (forall i, (i < n)%nat -> peval c (get z i) = 0) -> forall x, peval c x = 0.
Proof.
  induction n as [|n IH]; intros D c Hc H0 x; [destruct c; [reflexivity|cbn [length] in Hc; lia]|].
  destruct (peval_factor c (get z n)) as (q & Lq & Hq). rewrite (H0 n) in Hq by lia.
  assert (Q : forall x, peval q x = 0).
  { apply IH; [intros i j Hi Hj; apply D; lia|lia|]. intros i Hi. specialize (Hq (get z i)). rewrite (H0 i) in Hq by lia.
    assert (get z i - get z n <> 0) by (intros E; assert (i = n) by (apply D; try lia; lra); lia). 
    apply (Rmult_eq_reg_l (get z i - get z n)); auto. rewrite <- Hq. ring. }
  specialize (Hq x). rewrite Q in Hq. lra.
Qed.
Fixpoint padd (a b : list R) : list R := match a, b with [], _ => b | _, [] => a | x :: a', y :: b' => (x + y) :: padd a' b' end.
Lemma peval_padd a b x : peval (padd a b) x = peval a x + peval b x.
Proof. revert b. induction a as [|u a IH]; intros [|v b]; cbn [padd peval]; try ring. rewrite IH. ring. Qed.
Lemma length_padd a b m : (length a <= m)%nat -> (length b <= m)%nat -> (length (padd a b) <= m)%nat.
Proof. revert b m. induction a as [|u a IH]; intros [|v b] m Ha Hb; cbn [padd length] in *; auto. destruct m; [lia|]. specialize (IH b m). lia. Qed.
Lemma peval_map k a x : peval (map (Rmult k) a) x = k * peval a x.
Proof. induction a as [|u a IH]; cbn [map peval]; [ring|]. rewrite IH. ring. Qed.
(** (s x + t) * a *)
Lemma peval_lin s t a : exists c, (length c <= length a + 1)%nat /\ forall x, peval c x = (s * x + t) * peval a x.
Proof.
  exists (padd (map (Rmult t) a) (0 :: map (Rmult s) a)). split.
  - apply length_padd; cbn [length]; rewrite map_length; lia.
  - intros x. rewrite peval_padd. cbn [peval]. rewrite !peval_map. ring.
Qed.
Lemma basis_peval z n i : (i < n)%nat -> exists c, (length c <= n)%nat /\ forall x, peval c x = basis z n i x.
Proof.
  intros Hi. unfold basis.
  assert (G : forall k, exists c, (length c <= k + (if (i <? k)%nat then 0 else 1))%nat /\ forall x, peval c x = rprod k (fun j => if (j =? i)%nat then 1 else (x - get z j) / (get z i - get z j))).
  { induction k as [|k (c & Lc & Hc)].
    - exists [1]. cbn [length Nat.ltb Nat.leb]. split; [destruct (i <? 0)%nat eqn:E; [apply Nat.ltb_lt in E; lia|lia]|]. intros x. cbn [peval rprod]. ring.
    - destruct (Nat.eqb_spec k i) as [->|Hne].
      + exists c. rewrite Nat.ltb_irrefl in Lc. rewrite (proj2 (Nat.ltb_lt i (S i))) by lia. split; [lia|]. intros x. cbn [rprod]. rewrite Nat.eqb_refl, Hc. ring.
      + destruct (peval_lin (/ (get z i - get z k)) (- get z k * / (get z i - get z k)) c) as (c' & Lc' & Hc'). exists c'. split.
        * destruct (Nat.ltb_spec i k), (Nat.ltb_spec i (S k)); lia.
        * intros x. rewrite Hc', Hc. cbn [rprod]. destruct (Nat.eqb_spec k i); [lia|]. unfold Rdiv. ring. }
  destruct (G n) as (c & Lc & Hc). exists c. rewrite (proj2 (Nat.ltb_lt i n) Hi) in Lc. split; [lia|auto].
Qed.
Lemma basis_node_ z n i k : distinct z n -> (i < n)%nat -> (k < n)%nat -> basis z n i (get z k) = if (k =? i)%nat then 1 else 0.
Proof.
  intros D Hi Hk. destruct (Nat.eqb_spec k i) as [->|Hne].
  - unfold basis. rewrite (rprod_ext n _ (fun _ => 1)); [clear; induction n as [|n IH]; cbn [rprod]; [auto|rewrite IH; ring]|].
    intros j Hj. destruct (Nat.eqb_spec j i); auto. field. intros E. apply n0. symmetry. apply D; auto. lra.
  - unfold basis. apply (rprod_zero n _ k); auto. destruct (Nat.eqb_spec k i); [lia|]. unfold Rdiv. ring.
Qed.
Lemma rsum_delta n k f : (k < n)%nat -> rsum n (fun i => f i * (if (k =? i)%nat then 1 else 0)) = f k.
Proof.
  intros H. induction n as [|n IH]; [lia|]. cbn [rsum]. destruct (Nat.eqb_spec k n) as [->|].
  - replace (rsum n _) with 0; [ring|]. symmetry. clear -n. rewrite (rsum_ext n _ (fun _ => 0)).
    + induction n as [|n IH]; cbn [rsum]; [auto|rewrite IH; ring].
    + intros i Hi. destruct (Nat.eqb_spec n i); [lia|ring].
  - rewrite IH by lia. ring.
Qed.
Lemma interpolation_ z n c x : distinct z n -> (length c <= n)%nat -> rsum n (fun i => peval c (get z i) * basis z n i x) = peval c x.
Proof.
  intros D Hc.
  assert (G : forall m, (m <= n)%nat -> exists q, (length q <= n)%nat /\ forall y, peval q y = rsum m (fun i => peval c (get z i) * basis z n i y)).
  { induction m as [|m IH]; intros Hm; [exists []; split; [cbn; lia|reflexivity]|]. destruct IH as (q & Lq & Hq); [lia|].
    destruct (basis_peval z n m) as (b & Lb & Hb); [lia|]. exists (padd q (map (Rmult (peval c (get z m))) b)). split.
    - apply length_padd; [lia|rewrite map_length; lia].
    - intros y. rewrite peval_padd, peval_map, Hq, Hb. reflexivity. }
  destruct (G n ltac:(lia)) as (q & Lq & Hq).
  assert (Z : forall y, peval (padd q (map (Rmult (-1)) c)) y = 0).
  { apply (peval_roots n z D); [apply length_padd; [lia|rewrite map_length; lia]|]. intros k Hk. rewrite peval_padd, peval_map, Hq.
    rewrite (rsum_ext n _ (fun i => peval c (get z i) * (if (k =? i)%nat then 1 else 0))) by (intros i Hi; rewrite basis_node_; auto).
    rewrite rsum_delta by auto. ring. }
  specialize (Z x). rewrite peval_padd, peval_map, Hq in Z. lra.
Qed.
