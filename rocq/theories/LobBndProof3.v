(** Sums with the computed bounds as coefficients bound the polynomial. *)
From Verif Require Import Base BaseLemmas Poly PolySpec PolyProof1 PolyProof2 LobBnd LobBndSpec LobBndProof1 LobBndProof2.
From Coq Require Import Reals Lra Psatz.
Open Scope R_scope.

Lemma rsum_plus n f g : rsum n (fun i => f i + g i) = rsum n f + rsum n g.
Proof. induction n as [|n IH]; cbn [rsum]; [lra|]. rewrite IH. ring. Qed.
Lemma rsum_scal n c f : rsum n (fun i => c * f i) = c * rsum n f.
Proof. induction n as [|n IH]; cbn [rsum]; [lra|]. rewrite IH. ring. Qed.
Lemma rsum_le n f g : (forall i, (i < n)%nat -> f i <= g i) -> rsum n f <= rsum n g.
Proof. induction n as [|n IH]; intros H; cbn [rsum]; [lra|]. pose proof (H n ltac:(lia)). specialize (IH ltac:(intros; apply H; lia)). lra. Qed.
Lemma rsum_zero n : rsum n (fun _ => 0) = 0.
Proof. induction n as [|n IH]; cbn [rsum]; lra. Qed.
Lemma rsum_swap n m f : rsum n (fun i => rsum m (fun j => f i j)) = rsum m (fun j => rsum n (fun i => f i j)).
Proof.
  induction n as [|n IH]; cbn [rsum]; [rewrite rsum_zero; auto|]. rewrite IH, <- rsum_plus. apply rsum_ext. auto.
Qed.
Lemma rsum_add a b f : rsum (a + b) f = rsum a f + rsum b (fun k => f (a + k)%nat).
Proof. induction b as [|b IH]; [rewrite Nat.add_0_r; cbn [rsum]; lra|]. rewrite Nat.add_succ_r. cbn [rsum]. rewrite IH. ring. Qed.
Lemma rsum_prod r m f : rsum (r * m) f = rsum r (fun i => rsum m (fun k => f (i * m + k)%nat)).
Proof. induction r as [|r IH]; [reflexivity|]. cbn [rsum]. rewrite <- IH. replace (S r * m)%nat with (r * m + m)%nat by lia. apply rsum_add. Qed.
Lemma rsum_nonneg n f : (forall i, (i < n)%nat -> 0 <= f i) -> 0 <= rsum n f.
Proof. intros H. rewrite <- (rsum_zero n). apply rsum_le. auto. Qed.
Lemma rsum_zero_inv n f : (forall i, (i < n)%nat -> 0 <= f i) -> rsum n f = 0 -> forall i, (i < n)%nat -> f i = 0.
Proof.
  induction n as [|n IH]; intros H E i Hi; [lia|]. cbn [rsum] in E. pose proof (H n ltac:(lia)). pose proof (rsum_nonneg n f ltac:(intros; apply H; lia)).
  destruct (Nat.eq_dec i n) as [->|]; [lra|]. apply IH; [intros; apply H; lia|lra|lia].
Qed.

Definition wts (m : nat) (b : nat -> R) : Prop := (forall k, (k < m)%nat -> 0 <= b k) /\ rsum m b = 1.
Lemma wts_prod r m g b : wts r g -> wts m b -> wts (r * m) (fun c => g (c / m)%nat * b (c mod m)%nat).
Proof.
  intros [G1 G2] [B1 B2]. split.
  - intros c Hc. assert (m <> 0)%nat by nia. apply Rmult_le_pos; [apply G1; apply Nat.div_lt_upper_bound; lia|apply B1; apply Nat.mod_upper_bound; auto].
  - rewrite rsum_prod. rewrite <- G2. apply rsum_ext. intros i Hi. rewrite <- (Rmult_1_r (g i)), <- B2, <- rsum_scal. apply rsum_ext. intros k Hk.
    rewrite Nat.div_add_l, Nat.div_small, Nat.add_0_r by lia. rewrite Nat.add_comm, Nat.mod_add, Nat.mod_small by lia. auto.
Qed.
Lemma wts_prod_sum r m g b f : rsum (r * m) (fun c => g (c / m)%nat * b (c mod m)%nat * f c) = rsum r (fun i => g i * rsum m (fun k => b k * f (i * m + k)%nat)).
Proof.
  rewrite rsum_prod. apply rsum_ext. intros i Hi. rewrite <- rsum_scal. apply rsum_ext. intros k Hk.
  rewrite Nat.div_add_l, Nat.div_small, Nat.add_0_r by lia. rewrite (Nat.add_comm (i * m) k) at 1. rewrite Nat.mod_add, Nat.mod_small by lia. ring.
Qed.

(** Linear interpolation as a weighted sum. *)
Definition hat (h : nat -> R) (k : nat) (x : R) (j : nat) : R :=
  if (j =? k)%nat then (h (k + 1)%nat - x) / (h (k + 1)%nat - h k) else if (j =? k + 1)%nat then (x - h k) / (h (k + 1)%nat - h k) else 0.
Lemma rsum_two m k f : (k + 1 < m)%nat -> (forall j, (j < m)%nat -> j <> k -> j <> (k + 1)%nat -> f j = 0) -> rsum m f = f k + f (k + 1)%nat.
Proof.
  induction m as [|m IH]; intros Hk H; [lia|]. cbn [rsum]. destruct (Nat.eq_dec (k + 1) m) as [<-|].
  - replace (rsum (k + 1) f) with (f k); [auto|]. replace (k + 1)%nat with (S k) by lia. cbn [rsum].
    rewrite (rsum_ext k f (fun _ => 0)), rsum_zero by (intros; apply H; lia). lra.
  - rewrite IH; [|lia|intros; apply H; lia]. rewrite (H m) by lia. lra.
Qed.
Section Hat.
Variable h : nat -> R.
Variable m k : nat.
Variable x : R.
Hypothesis C : in_cell h m k x.
Hypothesis I : h k < h (k + 1)%nat.
Lemma lerp_hat v : lerp h k v x = rsum m (fun j => hat h k x j * v j).
Proof.
  destruct C as [C1 C2]. rewrite (rsum_two m k) by (auto; intros j _ N1 N2; unfold hat; rewrite (proj2 (Nat.eqb_neq _ _) N1), (proj2 (Nat.eqb_neq _ _) N2); ring).
  unfold hat. rewrite Nat.eqb_refl, Nat.eqb_refl. destruct (Nat.eqb_spec (k + 1) k); [lia|]. unfold lerp. field. lra.
Qed.
Lemma hat_wts : wts m (hat h k x).
Proof.
  destruct C as [C1 C2]. split.
  - intros j _. unfold hat. destruct (j =? k)%nat; [|destruct (j =? k + 1)%nat; [|lra]]; apply Rle_mult_inv_pos; lra.
  - rewrite (rsum_two m k) by (auto; intros j _ N1 N2; unfold hat; rewrite (proj2 (Nat.eqb_neq _ _) N1), (proj2 (Nat.eqb_neq _ _) N2); ring).
    unfold hat. rewrite Nat.eqb_refl, Nat.eqb_refl. destruct (Nat.eqb_spec (k + 1) k); [lia|]. field. lra.
Qed.
Lemma hat_id : rsum m (fun j => hat h k x j * h j) = x.
Proof. rewrite <- lerp_hat. unfold lerp. field. lra. Qed.
End Hat.

(** A number between two weighted sums is a weighted sum of numbers in between. *)
Lemma between m g A B V : wts m g -> (forall c, (c < m)%nat -> A c <= B c) -> rsum m (fun c => g c * A c) <= V <= rsum m (fun c => g c * B c) ->
  exists v, (forall c, (c < m)%nat -> A c <= v c <= B c) /\ V = rsum m (fun c => g c * v c).
Proof.
  intros [G1 G2] HAB HV. set (SA := rsum m (fun c => g c * A c)) in *. set (SB := rsum m (fun c => g c * B c)) in *.
  destruct (Req_dec SA SB) as [E|N].
  - exists A. split; [intros c Hc; specialize (HAB c Hc); lra|]. fold SA. lra.
  - exists (fun c => A c + (V - SA) / (SB - SA) * (B c - A c)).
    assert (T : 0 <= (V - SA) / (SB - SA) <= 1).
    { split; [apply Rle_mult_inv_pos; lra|]. apply (Rmult_le_reg_r (SB - SA)); [lra|]. unfold Rdiv. rewrite Rmult_assoc, Rinv_l by lra. lra. }
    split.
    + intros c Hc. specialize (HAB c Hc). nra.
    + rewrite (rsum_ext m _ (fun c => g c * A c + (V - SA) / (SB - SA) * (g c * B c + -1 * (g c * A c)))) by (intros; ring).
      rewrite rsum_plus, rsum_scal, rsum_plus, rsum_scal. fold SA SB. field. lra.
Qed.

Lemma prod_fst t lo up l : lo <= l <= up -> tlo t lo up <= t * l <= tup t lo up.
Proof. intros H. unfold tlo, tup. destruct (Rle_dec 0 t); nra. Qed.
Lemma prod_ext w0 w1 W lo up l : w0 <= W <= w1 -> lo <= l <= up ->
  elo w0 w1 (Rmin lo 0) (Rmax lo 0) (Rmin up 0) (Rmax up 0) <= W * l <= eup w0 w1 (Rmin lo 0) (Rmax lo 0) (Rmin up 0) (Rmax up 0).
Proof.
  intros HW Hl. unfold elo, eup. unfold Rmin, Rmax.
  assert (A1 : 0 <= W -> W * lo <= W * l <= W * up) by nra. assert (A2 : W <= 0 -> W * up <= W * l <= W * lo) by nra.
  assert (B1 : forall x, 0 <= x -> w0 * x <= W * x <= w1 * x) by (intros; nra). assert (B2 : forall x, x <= 0 -> w1 * x <= W * x <= w0 * x) by (intros; nra).
  assert (A : 0 <= W /\ W * lo <= W * l <= W * up \/ W <= 0 /\ W * up <= W * l <= W * lo) by (destruct (Rle_lt_dec 0 W); [left|right]; split; try apply A1; try apply A2; lra).
  assert (B : forall x, x <= 0 /\ w1 * x <= W * x <= w0 * x \/ 0 <= x /\ w0 * x <= W * x <= w1 * x) by (intros x; destruct (Rle_lt_dec x 0); [left|right]; split; try apply B1; try apply B2; lra).
  pose proof (B lo) as Blo. pose proof (B up) as Bup. clear A1 A2 B1 B2 B.
  destruct (Rle_dec 0 w0) as [H0|H0]; [|destruct (Rle_dec w1 0) as [H1|H1]];
    destruct (Rle_dec lo 0) as [L|L], (Rle_dec up 0) as [U|U]; rewrite ?Rmult_0_r; destruct A as [A|A], Blo as [Bl|Bl], Bup as [Bu|Bu]; try lra; nra.
Qed.

(** One column. *)
Section Column.
Variable n m : nat.
Variable beta h : nat -> R.
Variable s : R.
Hypothesis Hb : wts m beta.
Hypothesis Hs : rsum m (fun k => beta k * h k) = s.
Variable l z : nat -> R.
Variable lo up : nat -> nat -> R.
Hypothesis Hlu : forall j k, (j < n)%nat -> (k < m)%nat -> lo j k <= up j k.
Hypothesis Hl : forall j, (j < n)%nat -> rsum m (fun k => beta k * lo j k) <= l j <= rsum m (fun k => beta k * up j k).
Hypothesis L0 : rsum n l = 1.
Hypothesis L1 : rsum n (fun j => z j * l j) = s.
Variable V : nat -> R.
Variable a0 a1 : R.
Variable Tl Tu : nat -> nat -> R.
Hypothesis HT : forall j k x, (j < n)%nat -> (k < m)%nat -> lo j k <= x <= up j k -> Tl j k <= (V j - (a0 + a1 * z j)) * x <= Tu j k.

Let split_lin : rsum n (fun j => V j * l j) = a0 + a1 * s + rsum n (fun j => (V j - (a0 + a1 * z j)) * l j).
Proof.
  rewrite (rsum_ext n (fun j => (V j - (a0 + a1 * z j)) * l j) (fun j => V j * l j + ((- a0) * l j + (- a1) * (z j * l j)))) by (intros; ring).
  rewrite rsum_plus, rsum_plus, !rsum_scal, L0, L1. ring.
Qed.
Let split_bnd T : rsum m (fun k => beta k * (a0 + a1 * h k + rsum n (fun j => T j k))) = a0 + a1 * s + rsum n (fun j => rsum m (fun k => beta k * T j k)).
Proof.
  rewrite (rsum_ext m _ (fun k => (a0 * beta k + a1 * (beta k * h k)) + rsum n (fun j => beta k * T j k))) by (intros; rewrite <- rsum_scal || idtac; rewrite rsum_scal; ring).
  rewrite rsum_plus, rsum_plus, !rsum_scal, Hs, (proj2 Hb), rsum_swap. ring.
Qed.
Lemma column : rsum m (fun k => beta k * (a0 + a1 * h k + rsum n (fun j => Tl j k))) <= rsum n (fun j => V j * l j) <=
               rsum m (fun k => beta k * (a0 + a1 * h k + rsum n (fun j => Tu j k))).
Proof.
  rewrite !split_bnd, split_lin.
  assert (G : forall j, (j < n)%nat -> rsum m (fun k => beta k * Tl j k) <= (V j - (a0 + a1 * z j)) * l j <= rsum m (fun k => beta k * Tu j k)).
  { intros j Hj. destruct (between m beta (lo j) (up j) (l j) Hb) as (v & Hv & ->); [intros; apply Hlu; auto|apply Hl; auto|].
    rewrite <- rsum_scal. split; apply rsum_le; intros k Hk; pose proof (proj1 Hb k Hk) as B; pose proof (HT j k (v k) Hj Hk (Hv k Hk)); nra. }
  split; apply Rplus_le_compat_l, rsum_le; intros j Hj; apply G; auto.
Qed.
End Column.

Lemma basis_sum z n x : distinct z n -> (2 <= n)%nat -> rsum n (fun i => basis z n i x) = 1 /\ rsum n (fun i => get z i * basis z n i x) = x.
Proof.
  intros D H. pose proof (interpolation_ z n [1] x D ltac:(cbn; lia)) as A. pose proof (interpolation_ z n [0; 1] x D ltac:(cbn; lia)) as B. cbn [peval] in A, B. split.
  - rewrite (rsum_ext n _ (fun i => (1 + get z i * 0) * basis z n i x)) by (intros; ring). rewrite A. ring.
  - rewrite (rsum_ext n _ (fun i => (0 + get z i * (1 + get z i * 0)) * basis z n i x)) by (intros; ring). rewrite B. ring.
Qed.

Section Data.
Variable d : arr.
Variable n m : nat.
Hypothesis BD : bound_data d n m.
Let h := point d n.

Lemma lower_upper i k : (i < n)%nat -> (k < m)%nat -> lower d n m i k <= upper d n m i k.
Proof.
  intros Hi Hk. destruct BD as [_ _ Hm _ _ _ Inc _ B].
  assert (G : exists c x, in_cell h m c x /\ lerp h c (lower d n m i) x = lower d n m i k /\ lerp h c (upper d n m i) x = upper d n m i k).
  { destruct (Nat.eq_dec (k + 1) m) as [E|E].
    - pose proof (Inc (k - 1)%nat ltac:(lia)) as I. exists (k - 1)%nat, (h k). replace (k - 1 + 1)%nat with k in I by lia. split; [|unfold lerp; replace (k - 1 + 1)%nat with k by lia; split; fold h in I; field; lra].
      split; [lia|]. replace (k - 1 + 1)%nat with k by lia. fold h in I. lra.
    - pose proof (Inc k ltac:(lia)) as I. fold h in I. exists k, (h k). split; [split; [lia|lra]|]. unfold lerp. split; field; lra. }
  destruct G as (c & x & Hc & E1 & E2). pose proof (B i c x Hi Hc) as X. fold h in X. rewrite E1, E2 in X. lra.
Qed.

(** First direction. *)
Definition fst_form (u : arr) (uo : nat) (f g : nat -> R) : Prop :=
  exists a0 a1, forall j, (j < m)%nat ->
      f j = a0 + a1 * point d n j + rsum n (fun i => tlo (get u (uo + i) - (a0 + a1 * node d i)) (lower d n m i j) (upper d n m i j)) /\
      g j = a0 + a1 * point d n j + rsum n (fun i => tup (get u (uo + i) - (a0 + a1 * node d i)) (lower d n m i j) (upper d n m i j)).
Lemma fst_le u uo (f g : nat -> R) : fst_form u uo f g -> forall j, (j < m)%nat -> f j <= g j.
Proof.
  intros (a0 & a1 & V) j Hj. destruct (V j Hj) as [-> ->]. apply Rplus_le_compat_l, rsum_le. intros i Hi. pose proof (lower_upper i j Hi Hj).
  pose proof (prod_fst (get u (uo + i) - (a0 + a1 * node d i)) (lower d n m i j) (upper d n m i j) (lower d n m i j)). lra.
Qed.
Lemma fst_bound u uo r k (f g : nat -> R) : in_cell h m k r ->
  fst_form u uo f g ->
  rsum m (fun j => hat h k r j * f j) <= poly_1 d n u uo r <= rsum m (fun j => hat h k r j * g j).
Proof.
  intros C (a0 & a1 & V). pose proof (bd_inc _ _ _ BD k ltac:(destruct C; lia)) as I. fold h in I.
  rewrite (rsum_ext m (fun j => hat h k r j * f j) (fun j => hat h k r j * (a0 + a1 * h j + rsum n (fun i => tlo (get u (uo + i) - (a0 + a1 * node d i)) (lower d n m i j) (upper d n m i j)))))
    by (intros j Hj; destruct (V j Hj) as [-> _]; reflexivity).
  rewrite (rsum_ext m (fun j => hat h k r j * g j) (fun j => hat h k r j * (a0 + a1 * h j + rsum n (fun i => tup (get u (uo + i) - (a0 + a1 * node d i)) (lower d n m i j) (upper d n m i j)))))
    by (intros j Hj; destruct (V j Hj) as [_ ->]; reflexivity).
  unfold poly_1. destruct (basis_sum d n r (bd_nodes _ _ _ BD) (bd_n _ _ _ BD)) as [B0 B1].
  apply (column n m (hat h k r) h r (hat_wts h m k r C I) (hat_id h m k r C I) (fun i => basis d n i r) (node d) (lower d n m) (upper d n m)); auto.
  - intros; apply lower_upper; auto.
  - intros j Hj. rewrite <- !(lerp_hat h m k r C I). apply (bd_bounds _ _ _ BD); auto.
  - intros i j x Hi Hj Hx. apply prod_fst. auto.
Qed.

(** Later directions. *)
Definition ext_form (w : arr) (br mr : nat) (f f' : nat -> nat -> R) : Prop :=
  forall i k, (i < mr)%nat -> (k < m)%nat ->
    f i k = e0 d n w br mr i + e1 d n w br mr i * point d n k + rsum n (dlo d n m w br mr i k) /\
    f' i k = e0 d n w br mr i + e1 d n w br mr i * point d n k + rsum n (dup d n m w br mr i k).
Lemma ext_le w br mr (f f' : nat -> nat -> R) : ext_form w br mr f f' -> (forall j c, (j < n)%nat -> (c < mr)%nat -> cl w br mr j c <= cu w br mr j c) ->
  forall i k, (i < mr)%nat -> (k < m)%nat -> f i k <= f' i k.
Proof.
  intros Hf Hc i k' Hi Hk. destruct (Hf i k' Hi Hk) as [-> ->]. apply Rplus_le_compat_l, rsum_le. intros j Hj. unfold dlo, dup.
  destruct (bd_split _ _ _ BD j k' Hj Hk) as (-> & -> & -> & ->). pose proof (lower_upper j k' Hj Hk). specialize (Hc j i Hj Hi).
  pose proof (prod_ext (cl w br mr j i - tr d n w br mr i j) (cu w br mr j i - tr d n w br mr i j) (cl w br mr j i - tr d n w br mr i j) (lower d n m j k') (upper d n m j k') (lower d n m j k')). lra.
Qed.
Lemma ext_bound w br mr (g : nat -> R) (V : nat -> R) s k (f f' : nat -> nat -> R) :
  in_cell h m k s -> wts mr g -> (forall j c, (j < n)%nat -> (c < mr)%nat -> cl w br mr j c <= cu w br mr j c) ->
  (forall j, (j < n)%nat -> rsum mr (fun c => g c * cl w br mr j c) <= V j <= rsum mr (fun c => g c * cu w br mr j c)) ->
  ext_form w br mr f f' ->
  rsum mr (fun i => g i * rsum m (fun j => hat h k s j * f i j)) <= rsum n (fun j => V j * basis d n j s) <= rsum mr (fun i => g i * rsum m (fun j => hat h k s j * f' i j)).
Proof.
  intros C Wg Hc HV Hf. pose proof (bd_inc _ _ _ BD k ltac:(destruct C; lia)) as I. fold h in I.
  assert (X : exists v : nat -> nat -> R, forall j, (j < n)%nat -> (forall c, (c < mr)%nat -> cl w br mr j c <= v j c <= cu w br mr j c) /\ V j = rsum mr (fun c => g c * v j c)).
    { assert (Y : forall j, exists v, (j < n)%nat -> (forall c, (c < mr)%nat -> cl w br mr j c <= v c <= cu w br mr j c) /\ V j = rsum mr (fun c => g c * v c)).
      { intros j. destruct (Nat.lt_ge_cases j n) as [Hj|Hj]; [|exists (fun _ => 0); lia].
        destruct (between mr g (cl w br mr j) (cu w br mr j) (V j) Wg) as (v & A & B); [intros; apply Hc; auto|apply HV; auto|]. exists v. auto. }
      clear - Y. enough (G : forall n', exists v : nat -> nat -> R, forall j, (j < n')%nat -> (j < n)%nat -> (forall c, (c < mr)%nat -> cl w br mr j c <= v j c <= cu w br mr j c) /\ V j = rsum mr (fun c => g c * v j c)).
      { destruct (G n) as [v Hv]. exists v. auto. }
      induction n' as [|n' IH]; [exists (fun _ _ => 0); intros; lia|]. destruct IH as [v Hv]. destruct (Y n') as [v' Hv'].
      exists (fun j => if (j =? n')%nat then v' else v j). intros j Hj Hn. destruct (Nat.eqb_spec j n') as [->|]; [apply Hv'; auto|apply Hv; auto; lia]. }
    destruct X as [v Hv].
    assert (E : rsum n (fun j => V j * basis d n j s) = rsum mr (fun c => g c * rsum n (fun j => v j c * basis d n j s))).
    { rewrite (rsum_ext n _ (fun j => rsum mr (fun c => g c * (v j c * basis d n j s)))).
      - rewrite rsum_swap. apply rsum_ext. intros c Hc'. apply rsum_scal.
      - intros j Hj. destruct (Hv j Hj) as [_ ->]. rewrite Rmult_comm, <- rsum_scal. apply rsum_ext. intros; ring. }
    rewrite E. destruct (basis_sum d n s (bd_nodes _ _ _ BD) (bd_n _ _ _ BD)) as [B0 B1].
    assert (G : forall c, (c < mr)%nat -> rsum m (fun j => hat h k s j * f c j) <= rsum n (fun j => v j c * basis d n j s) <= rsum m (fun j => hat h k s j * f' c j)).
    { intros c Hc'.
      rewrite (rsum_ext m (fun j => hat h k s j * f c j) (fun j => hat h k s j * (e0 d n w br mr c + e1 d n w br mr c * h j + rsum n (dlo d n m w br mr c j))))
        by (intros j Hj; destruct (Hf c j Hc' Hj) as [-> _]; reflexivity).
      rewrite (rsum_ext m (fun j => hat h k s j * f' c j) (fun j => hat h k s j * (e0 d n w br mr c + e1 d n w br mr c * h j + rsum n (dup d n m w br mr c j))))
        by (intros j Hj; destruct (Hf c j Hc' Hj) as [_ ->]; reflexivity).
      apply (column n m (hat h k s) h s (hat_wts h m k s C I) (hat_id h m k s C I) (fun i => basis d n i s) (node d) (lower d n m) (upper d n m)) with (Tl := fun j k => dlo d n m w br mr c k j) (Tu := fun j k => dup d n m w br mr c k j); auto.
      + intros; apply lower_upper; auto.
      + intros j Hj. rewrite <- !(lerp_hat h m k s C I). apply (bd_bounds _ _ _ BD); auto.
      + intros j k' x Hj Hk Hx. unfold dlo, dup. destruct (bd_split _ _ _ BD j k' Hj Hk) as (-> & -> & -> & ->). apply prod_ext; auto.
        destruct (Hv j Hj) as [A _]. specialize (A c Hc'). unfold tr. lra. }
    split; apply rsum_le; intros c Hc'; apply Rmult_le_compat_l; try (apply Wg; auto); apply G; auto.
Qed.
End Data.
