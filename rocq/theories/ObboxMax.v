(** Polynomials on the square and the cube; where they are greatest. *)
From Verif Require Import Base BaseLemmas Poly PolySpec PolyProof1 PolyProof2 PolyProof3 LobBnd LobBndSpec LobBndProof3.
From Coq Require Import Reals Lra Psatz.
Open Scope R_scope.

Definition I1 (x : R) : Prop := -1 <= x <= 1.
Definition clip (x : R) : R := Rmax (-1) (Rmin 1 x).
Lemma clip_in x : I1 (clip x).
Proof. unfold clip, I1, Rmax, Rmin. destruct (Rle_dec 1 x); destruct (Rle_dec _ _); lra. Qed.
Lemma clip_id x : I1 x -> clip x = x.
Proof. unfold clip, I1, Rmax, Rmin. intros. destruct (Rle_dec 1 x); destruct (Rle_dec _ _); lra. Qed.
Lemma clip_lip x y : Rabs (clip x - clip y) <= Rabs (x - y).
Proof. unfold clip, Rmax, Rmin. destruct (Rle_dec 1 x), (Rle_dec 1 y); repeat destruct (Rle_dec _ _); unfold Rabs; repeat destruct (Rcase_abs _); lra. Qed.

Lemma max_1 f : (forall x, continuity_pt f x) -> exists m, I1 m /\ forall x, I1 x -> f x <= f m.
Proof. intros C. destruct (continuity_ab_maj f (-1) 1 ltac:(lra) ltac:(auto)) as (m & A & B). exists m. split; auto. Qed.

Section Extend.
Variable A : Type.
Variable D : A -> Prop.
Variable f : A -> R -> R.
Variable om : R -> R -> R.
Hypothesis Hmax : forall s, I1 s -> exists a, D a /\ forall a', D a' -> f a' s <= f a s.
Hypothesis Hom : forall a s s', D a -> I1 s -> I1 s' -> Rabs (f a s - f a s') <= om s s'.
Hypothesis Hcont : forall s eps, I1 s -> 0 < eps -> exists d, 0 < d /\ forall s', Rabs (s' - s) < d -> om s s' < eps.
Definition vals (s v : R) : Prop := exists a, D a /\ v = f a (clip s).
Lemma vals_bound s : bound (vals s).
Proof. destruct (Hmax (clip s) (clip_in s)) as (a & Ha & M). exists (f a (clip s)). intros v (a' & Ha' & ->). auto. Qed.
Lemma vals_some s : exists v, vals s v.
Proof. destruct (Hmax (clip s) (clip_in s)) as (a & Ha & M). exists (f a (clip s)), a. auto. Qed.
Definition g (s : R) : R := proj1_sig (completeness (vals s) (vals_bound s) (vals_some s)).
Lemma g_lub s : is_lub (vals s) (g s). Proof. unfold g. destruct (completeness _ _ _). auto. Qed.
Lemma g_max s : I1 s -> exists a, D a /\ g s = f a s.
Proof.
  intros Hs. destruct (Hmax s Hs) as (a & Ha & M). exists a. split; auto. destruct (g_lub s) as [U L]. apply Rle_antisym.
  - apply L. intros v (a' & Ha' & ->). rewrite clip_id by auto. auto.
  - apply U. exists a. rewrite clip_id by auto. auto.
Qed.
Lemma g_clip s : g s = g (clip s).
Proof.
  apply (is_lub_u (vals s)); [apply g_lub|]. destruct (g_lub (clip s)) as [U L]. split.
  - intros v (a & Ha & ->). apply U. exists a. rewrite (clip_id (clip s)) by apply clip_in. auto.
  - intros b Hb. apply L. intros v (a & Ha & ->). apply Hb. exists a. rewrite (clip_id (clip s)) by apply clip_in. auto.
Qed.
Lemma g_om s s' : I1 s -> I1 s' -> Rabs (g s - g s') <= om s s'.
Proof.
  intros Hs Hs'. destruct (g_max s Hs) as (a & Ha & E). destruct (g_max s' Hs') as (b & Hb & E').
  assert (f b s <= g s) by (destruct (g_lub s) as [U _]; apply U; exists b; rewrite clip_id by auto; auto).
  assert (f a s' <= g s') by (destruct (g_lub s') as [U _]; apply U; exists a; rewrite clip_id by auto; auto).
  pose proof (Hom a s s' Ha Hs Hs') as A1. pose proof (Hom b s s' Hb Hs Hs') as B1.
  revert A1 B1. unfold Rabs. repeat destruct (Rcase_abs _); lra.
Qed.
Lemma g_cont s : continuity_pt g s.
Proof.
  intros eps He. destruct (Hcont (clip s) eps (clip_in s) He) as (d & Hd & Q). exists d. split; [auto|]. intros x [_ Hx]. cbn in *. unfold R_dist in *.
  rewrite (g_clip x), (g_clip s). rewrite Rabs_minus_sym. eapply Rle_lt_trans; [apply g_om; apply clip_in|]. apply Q. eapply Rle_lt_trans; [apply clip_lip|auto].
Qed.
Lemma max_extend : exists a s, D a /\ I1 s /\ forall a' s', D a' -> I1 s' -> f a' s' <= f a s.
Proof.
  destruct (max_1 g g_cont) as (s & Hs & M). destruct (g_max s Hs) as (a & Ha & E). exists a, s. split; [auto|]. split; [auto|]. intros a' s' Ha' Hs'.
  rewrite <- E. eapply Rle_trans; [|apply (M s' Hs')]. destruct (g_lub s') as [U _]. apply U. exists a'. rewrite clip_id by auto. auto.
Qed.
End Extend.

(** Sums of products. *)
Lemma rsum_cont n (h : nat -> R -> R) x : (forall j, (j < n)%nat -> continuity_pt (h j) x) -> continuity_pt (fun x => rsum n (fun j => h j x)) x.
Proof.
  induction n as [|n IH]; intros H; cbn [rsum].
  - apply continuity_pt_const. intros a b. auto.
  - apply (continuity_pt_plus (fun x => rsum n (fun j => h j x)) (h n)); [apply IH; intros; apply H; lia|apply H; lia].
Qed.
Lemma sum_max (A : Type) (D : A -> Prop) n (c : nat -> A -> R) (l : nat -> R -> R) (K : R) :
  (forall s, I1 s -> exists a, D a /\ forall a', D a' -> rsum n (fun j => c j a' * l j s) <= rsum n (fun j => c j a * l j s)) ->
  (forall j a, (j < n)%nat -> D a -> Rabs (c j a) <= K) -> (forall j x, (j < n)%nat -> continuity_pt (l j) x) ->
  exists a s, D a /\ I1 s /\ forall a' s', D a' -> I1 s' -> rsum n (fun j => c j a' * l j s') <= rsum n (fun j => c j a * l j s).
Proof.
  intros Hm Hc Hl. apply (max_extend A D (fun a s => rsum n (fun j => c j a * l j s)) (fun s s' => rsum n (fun j => K * Rabs (l j s - l j s')))); [auto| |].
  - intros a s s' Ha _ _. assert (G : forall k, (k <= n)%nat -> Rabs (rsum k (fun j => c j a * l j s) - rsum k (fun j => c j a * l j s')) <= rsum k (fun j => K * Rabs (l j s - l j s'))); [|apply G; lia].
    induction k as [|k IH]; intros Hk; cbn [rsum]; [rewrite Rminus_0_r, Rabs_R0; lra|].
    replace (rsum k (fun j => c j a * l j s) + c k a * l k s - (rsum k (fun j => c j a * l j s') + c k a * l k s')) with
      (rsum k (fun j => c j a * l j s) - rsum k (fun j => c j a * l j s') + c k a * (l k s - l k s')) by ring.
    eapply Rle_trans; [apply Rabs_triang|]. apply Rplus_le_compat; [apply IH; lia|]. rewrite Rabs_mult. apply Rmult_le_compat_r; [apply Rabs_pos|]. apply Hc; [lia|auto].
  - intros s eps _ He. assert (C : continuity_pt (fun x => rsum n (fun j => K * Rabs (l j s - l j x))) s).
    { apply rsum_cont. intros j Hj. apply (continuity_pt_mult (fun _ => K) (fun x => Rabs (l j s - l j x))); [apply continuity_pt_const; intros a b; auto|].
      apply (continuity_pt_comp (fun x => l j s - l j x) Rabs); [|apply Rcontinuity_abs].
      apply (continuity_pt_minus (fun _ => l j s) (l j)); [apply continuity_pt_const; intros a b; auto|]. apply Hl. auto. }
    destruct (C eps He) as (d & Hd & Q). exists d. split; [auto|]. intros s' Hs'. cbn in Q. unfold R_dist in Q.
    assert (Z : rsum n (fun j => K * Rabs (l j s - l j s)) = 0).
    { rewrite <- (rsum_zero n). apply rsum_ext. intros j _. rewrite Rminus_eq_0, Rabs_R0. ring. }
    destruct (Req_dec s s') as [<-|N]; [rewrite Z; lra|].
    specialize (Q s' (conj (conj I N) Hs')). rewrite Z, Rminus_0_r in Q. eapply Rle_lt_trans; [apply Rle_abs|exact Q].
Qed.

(** Derivatives of the basis functions. *)
Lemma peval_der c x : exists d, derivable_pt_lim (peval c) x d.
Proof.
  induction c as [|a c [d IH]]; cbn [peval].
  - exists 0. apply derivable_pt_lim_const.
  - exists (0 + (1 * peval c x + x * d)). apply (der_add (fun _ => a) (fun y => y * peval c y)); [apply derivable_pt_lim_const|].
    apply (der_mul (fun y => y) (peval c)); [apply der_id|auto].
Qed.
Lemma basis_der z n i x : (i < n)%nat -> exists d, derivable_pt_lim (basis z n i) x d.
Proof.
  intros Hi. destruct (basis_peval z n i Hi) as (c & _ & E). destruct (peval_der c x) as [d Hd]. exists d.
  eapply derivable_pt_lim_ext; [|exact Hd]. intros y. apply E.
Qed.
Lemma basis_cont z n i x : (i < n)%nat -> continuity_pt (basis z n i) x.
Proof. intros Hi. destruct (basis_der z n i x Hi) as [d Hd]. apply derivable_continuous_pt. exists d. auto. Qed.
Lemma rsum_der n (h : nat -> R -> R) x : forall (d : nat -> R), (forall j, (j < n)%nat -> derivable_pt_lim (h j) x (d j)) -> derivable_pt_lim (fun x => rsum n (fun j => h j x)) x (rsum n d).
Proof.
  intros d H. induction n as [|n IH]; cbn [rsum].
  - apply derivable_pt_lim_const.
  - apply (der_add (fun x => rsum n (fun j => h j x)) (h n)); [apply IH; intros; apply H; lia|apply H; lia].
Qed.

(** Polynomials with nodal values v. *)
Definition pv1 (z : arr) (n : nat) (v : nat -> R) (r : R) : R := rsum n (fun i => v i * basis z n i r).
Definition pv2 (zr : arr) (nr : nat) (zs : arr) (ns : nat) (v : nat -> R) (r s : R) : R :=
  rsum ns (fun j => pv1 zr nr (fun i => v (j * nr + i)%nat) r * basis zs ns j s).
Definition pv3 (zr : arr) (nr : nat) (zs : arr) (ns : nat) (zt : arr) (nt : nat) (v : nat -> R) (r s t : R) : R :=
  rsum nt (fun k => pv2 zr nr zs ns (fun i => v (k * (nr * ns) + i)%nat) r s * basis zt nt k t).

Lemma pv1_cont z n v x : continuity_pt (pv1 z n v) x.
Proof. unfold pv1. apply rsum_cont. intros i Hi. apply (continuity_pt_mult (fun _ => v i) (basis z n i)); [apply continuity_pt_const; intros a b; auto|apply basis_cont; auto]. Qed.
Lemma pv1_der z n v x : exists d, derivable_pt_lim (pv1 z n v) x d.
Proof.
  unfold pv1. induction n as [|m IH] using nat_rect.
  - exists 0. cbn [rsum]. apply derivable_pt_lim_const.
  - clear IH. assert (G : forall k, (k <= S m)%nat -> exists d, derivable_pt_lim (fun r => rsum k (fun i => v i * basis z (S m) i r)) x d); [|apply (G (S m)); lia].
    induction k as [|k IH]; intros Hk; cbn [rsum]; [exists 0; apply derivable_pt_lim_const|].
    destruct (IH ltac:(lia)) as [d Hd]. destruct (basis_der z (S m) k x ltac:(lia)) as [e He]. exists (d + v k * e).
    apply (der_add (fun r => rsum k (fun i => v i * basis z (S m) i r)) (fun r => v k * basis z (S m) k r)); [auto|]. apply der_scal. auto.
Qed.
Lemma lin_der n (c : nat -> R) (l : nat -> R -> R) x : (forall j, (j < n)%nat -> exists d, derivable_pt_lim (l j) x d) -> exists d, derivable_pt_lim (fun x => rsum n (fun j => c j * l j x)) x d.
Proof.
  induction n as [|n IH]; intros H; cbn [rsum]; [exists 0; apply derivable_pt_lim_const|].
  destruct IH as [d Hd]; [intros; apply H; lia|]. destruct (H n ltac:(lia)) as [e He]. exists (d + c n * e).
  apply (der_add (fun x => rsum n (fun j => c j * l j x)) (fun x => c n * l n x)); [auto|]. apply der_scal. auto.
Qed.
Lemma abs_bound_all (A : Type) (D : A -> Prop) n (c : nat -> A -> R) : (forall j, (j < n)%nat -> exists K, forall a, D a -> Rabs (c j a) <= K) -> exists K, forall j a, (j < n)%nat -> D a -> Rabs (c j a) <= K.
Proof.
  induction n as [|n IH]; intros H; [exists 0; intros; lia|]. destruct IH as [K HK]; [intros; apply H; lia|]. destruct (H n ltac:(lia)) as [L HL].
  exists (Rmax K L). intros j a Hj Ha. destruct (Nat.eq_dec j n) as [->|N].
  - eapply Rle_trans; [apply HL; auto|apply Rmax_r].
  - eapply Rle_trans; [apply HK; [lia|auto]|apply Rmax_l].
Qed.
Lemma bounded_of_max (A : Type) (D : A -> Prop) (f : A -> R) : (exists M, forall a, D a -> f a <= M) -> (exists M, forall a, D a -> - f a <= M) -> exists K, forall a, D a -> Rabs (f a) <= K.
Proof.
  intros [M HM] [N HN]. exists (Rmax M N). intros a Ha. specialize (HM a Ha). specialize (HN a Ha). pose proof (Rmax_l M N). pose proof (Rmax_r M N). unfold Rabs. destruct (Rcase_abs _); lra.
Qed.
Lemma pv1_neg z n v r : pv1 z n (fun i => - v i) r = - pv1 z n v r.
Proof. unfold pv1. rewrite <- (Rmult_1_l (rsum n (fun i => v i * _))), <- Ropp_mult_distr_l_reverse, <- rsum_scal. apply rsum_ext. intros. ring. Qed.
Lemma pv2_neg zr nr zs ns v r s : pv2 zr nr zs ns (fun i => - v i) r s = - pv2 zr nr zs ns v r s.
Proof. unfold pv2. rewrite <- (Rmult_1_l (rsum ns (fun j => pv1 zr nr (fun i => v _) r * _))), <- Ropp_mult_distr_l_reverse, <- rsum_scal. apply rsum_ext. intros j _. rewrite pv1_neg. ring. Qed.
Lemma pv1_abs z n v : exists K, forall r, I1 r -> Rabs (pv1 z n v r) <= K.
Proof.
  apply (bounded_of_max R I1 (pv1 z n v)).
  - destruct (max_1 (pv1 z n v)) as (m & _ & M); [intros; apply pv1_cont|]. eauto.
  - destruct (max_1 (pv1 z n (fun i => - v i))) as (m & _ & M); [intros; apply pv1_cont|]. eexists. intros a Ha. rewrite <- pv1_neg. apply M. auto.
Qed.
Lemma pv2_max zr nr zs ns v : exists r s, I1 r /\ I1 s /\ forall r' s', I1 r' -> I1 s' -> pv2 zr nr zs ns v r' s' <= pv2 zr nr zs ns v r s.
Proof.
  unfold pv2. destruct (abs_bound_all R I1 ns (fun j r => pv1 zr nr (fun i => v (j * nr + i)%nat) r)) as [K HK]; [intros; apply pv1_abs|].
  apply (sum_max R I1 ns (fun j r => pv1 zr nr (fun i => v (j * nr + i)%nat) r) (basis zs ns) K); [|auto|intros; apply basis_cont; auto].
  intros s _. apply (max_1 (fun a => rsum ns (fun j => pv1 zr nr (fun i => v (j * nr + i)%nat) a * basis zs ns j s))). intros x.
  apply rsum_cont. intros j _. apply (continuity_pt_mult (pv1 zr nr (fun i => v (j * nr + i)%nat)) (fun _ => basis zs ns j s)); [apply pv1_cont|apply continuity_pt_const; intros a b; auto].
Qed.
Lemma pv2_abs zr nr zs ns v : exists K, forall p : R * R, I1 (fst p) /\ I1 (snd p) -> Rabs (pv2 zr nr zs ns v (fst p) (snd p)) <= K.
Proof.
  apply (bounded_of_max (R * R) (fun p => I1 (fst p) /\ I1 (snd p)) (fun p => pv2 zr nr zs ns v (fst p) (snd p))).
  - destruct (pv2_max zr nr zs ns v) as (r & s & _ & _ & M). eexists. intros p [A B]. apply M; auto.
  - destruct (pv2_max zr nr zs ns (fun i => - v i)) as (r & s & _ & _ & M). eexists. intros p [A B]. rewrite <- pv2_neg. apply M; auto.
Qed.
Lemma pv3_swap zr nr zs ns zt nt v r s t : pv3 zr nr zs ns zt nt v r s t = pv2 zr nr zs ns (fun i => rsum nt (fun k => v (k * (nr * ns) + i)%nat * basis zt nt k t)) r s.
Proof.
  unfold pv3, pv2, pv1.
  transitivity (rsum nt (fun k => rsum ns (fun j => rsum nr (fun i => v (k * (nr * ns) + (j * nr + i))%nat * basis zr nr i r) * basis zs ns j s * basis zt nt k t))).
  { apply rsum_ext. intros k _. rewrite Rmult_comm, <- rsum_scal. apply rsum_ext. intros. ring. }
  rewrite rsum_swap. apply rsum_ext. intros j _.
  transitivity (rsum nt (fun k => basis zs ns j s * rsum nr (fun i => v (k * (nr * ns) + (j * nr + i))%nat * basis zr nr i r * basis zt nt k t))).
  { apply rsum_ext. intros k _. transitivity (basis zs ns j s * (basis zt nt k t * rsum nr (fun i => v (k * (nr * ns) + (j * nr + i))%nat * basis zr nr i r))); [ring|]. f_equal. rewrite <- rsum_scal. apply rsum_ext. intros. ring. }
  rewrite rsum_scal, rsum_swap, (Rmult_comm (basis zs ns j s)). f_equal. apply rsum_ext. intros i _. rewrite (Rmult_comm (rsum nt _)), <- rsum_scal. apply rsum_ext. intros. ring.
Qed.
Lemma pv3_max zr nr zs ns zt nt v : exists r s t, I1 r /\ I1 s /\ I1 t /\ forall r' s' t', I1 r' -> I1 s' -> I1 t' -> pv3 zr nr zs ns zt nt v r' s' t' <= pv3 zr nr zs ns zt nt v r s t.
Proof.
  destruct (abs_bound_all (R * R) (fun p => I1 (fst p) /\ I1 (snd p)) nt (fun k p => pv2 zr nr zs ns (fun i => v (k * (nr * ns) + i)%nat) (fst p) (snd p))) as [K HK]; [intros; apply pv2_abs|].
  destruct (sum_max (R * R) (fun p => I1 (fst p) /\ I1 (snd p)) nt (fun k p => pv2 zr nr zs ns (fun i => v (k * (nr * ns) + i)%nat) (fst p) (snd p)) (basis zt nt) K) as (p & t & [A B] & T & M); [|auto|intros; apply basis_cont; auto|].
  - intros t _. destruct (pv2_max zr nr zs ns (fun i => rsum nt (fun k => v (k * (nr * ns) + i)%nat * basis zt nt k t))) as (r & s & A & B & M). exists (r, s). cbn [fst snd]. split; [auto|]. intros [r' s'] [A' B']. cbn [fst snd] in *.
    pose proof (M r' s' A' B') as G. rewrite <- !pv3_swap in G. exact G.
  - exists (fst p), (snd p), t. split; [auto|]. split; [auto|]. split; [auto|]. intros r' s' t' A' B' T'. apply (M (r', s') t'); cbn [fst snd]; auto.
Qed.

(** At an inner maximum all partial derivatives are 0. *)
Lemma inner_max f c d : derivable_pt_lim f c d -> -1 < c < 1 -> (forall x, I1 x -> f x <= f c) -> d = 0.
Proof.
  intros Hd Hc M. pose (pr := exist (fun l => derivable_pt_abs f c l) d Hd : derivable_pt f c). change d with (derive_pt f c pr). apply (deriv_maximum f (-1) 1 c pr); [lra|lra|].
  intros x H1 H2. apply M. unfold I1. lra.
Qed.
Definition edge_2 (r s : R) : Prop := I1 r /\ I1 s /\ (r = -1 \/ r = 1 \/ s = -1 \/ s = 1).
Definition face_3 (r s t : R) : Prop := I1 r /\ I1 s /\ I1 t /\ (r = -1 \/ r = 1 \/ s = -1 \/ s = 1 \/ t = -1 \/ t = 1).
Lemma inner_cases x : I1 x -> x = -1 \/ x = 1 \/ -1 < x < 1. Proof. unfold I1. intros. lra. Qed.

Lemma pv2_der_s zr nr zs ns v r s : exists d, derivable_pt_lim (fun s => pv2 zr nr zs ns v r s) s d.
Proof. unfold pv2. apply lin_der. intros j Hj. apply basis_der. auto. Qed.
Lemma pv2_der_r zr nr zs ns v r s : exists d, derivable_pt_lim (fun r => pv2 zr nr zs ns v r s) r d.
Proof.
  destruct (lin_der ns (fun j => basis zs ns j s) (fun j => pv1 zr nr (fun i => v (j * nr + i)%nat)) r) as [d Hd]; [intros; apply pv1_der|].
  exists d. eapply derivable_pt_lim_ext; [|exact Hd]. intros y. unfold pv2. apply rsum_ext. intros. ring.
Qed.
Lemma pv3_der_t zr nr zs ns zt nt v r s t : exists d, derivable_pt_lim (fun t => pv3 zr nr zs ns zt nt v r s t) t d.
Proof. unfold pv3. apply lin_der. intros j Hj. apply basis_der. auto. Qed.
Lemma pv3_der_s zr nr zs ns zt nt v r s t : exists d, derivable_pt_lim (fun s => pv3 zr nr zs ns zt nt v r s t) s d.
Proof. destruct (pv2_der_s zr nr zs ns (fun i => rsum nt (fun k => v (k * (nr * ns) + i)%nat * basis zt nt k t)) r s) as [d Hd]. exists d. eapply derivable_pt_lim_ext; [|exact Hd]. intros y. symmetry. apply pv3_swap. Qed.
Lemma pv3_der_r zr nr zs ns zt nt v r s t : exists d, derivable_pt_lim (fun r => pv3 zr nr zs ns zt nt v r s t) r d.
Proof. destruct (pv2_der_r zr nr zs ns (fun i => rsum nt (fun k => v (k * (nr * ns) + i)%nat * basis zt nt k t)) r s) as [d Hd]. exists d. eapply derivable_pt_lim_ext; [|exact Hd]. intros y. symmetry. apply pv3_swap. Qed.

Lemma edge_max zr nr zs ns v :
  (forall r s a b, -1 < r < 1 -> -1 < s < 1 -> derivable_pt_lim (fun r => pv2 zr nr zs ns v r s) r a -> derivable_pt_lim (fun s => pv2 zr nr zs ns v r s) s b -> ~ (a = 0 /\ b = 0)) ->
  exists r s, edge_2 r s /\ forall r' s', I1 r' -> I1 s' -> pv2 zr nr zs ns v r' s' <= pv2 zr nr zs ns v r s.
Proof.
  intros H. destruct (pv2_max zr nr zs ns v) as (r & s & Hr & Hs & M). exists r, s. split; [|auto]. split; [auto|]. split; [auto|].
  destruct (inner_cases r Hr) as [?|[?|Ir]]; [auto|auto|]. destruct (inner_cases s Hs) as [?|[?|Is]]; [auto|auto|]. exfalso.
  destruct (pv2_der_r zr nr zs ns v r s) as [a Ha]. destruct (pv2_der_s zr nr zs ns v r s) as [b Hb]. apply (H r s a b Ir Is Ha Hb). split.
  - apply (inner_max _ _ _ Ha Ir). intros x Hx. apply M; auto.
  - apply (inner_max _ _ _ Hb Is). intros x Hx. apply M; auto.
Qed.
Lemma face_max zr nr zs ns zt nt v :
  (forall r s t a b c, -1 < r < 1 -> -1 < s < 1 -> -1 < t < 1 -> derivable_pt_lim (fun r => pv3 zr nr zs ns zt nt v r s t) r a -> derivable_pt_lim (fun s => pv3 zr nr zs ns zt nt v r s t) s b ->
     derivable_pt_lim (fun t => pv3 zr nr zs ns zt nt v r s t) t c -> ~ (a = 0 /\ b = 0 /\ c = 0)) ->
  exists r s t, face_3 r s t /\ forall r' s' t', I1 r' -> I1 s' -> I1 t' -> pv3 zr nr zs ns zt nt v r' s' t' <= pv3 zr nr zs ns zt nt v r s t.
Proof.
  intros H. destruct (pv3_max zr nr zs ns zt nt v) as (r & s & t & Hr & Hs & Ht & M). exists r, s, t. split; [|auto]. split; [auto|]. split; [auto|]. split; [auto|].
  destruct (inner_cases r Hr) as [?|[?|Ir]]; [auto|auto|]. destruct (inner_cases s Hs) as [?|[?|Is]]; [auto|auto|]. destruct (inner_cases t Ht) as [?|[?|It]]; [auto 6|auto 6|]. exfalso.
  destruct (pv3_der_r zr nr zs ns zt nt v r s t) as [a Ha]. destruct (pv3_der_s zr nr zs ns zt nt v r s t) as [b Hb]. destruct (pv3_der_t zr nr zs ns zt nt v r s t) as [c Hc]. apply (H r s t a b c Ir Is It Ha Hb Hc). split; [|split].
  - apply (inner_max _ _ _ Ha Ir). intros x Hx. apply M; auto.
  - apply (inner_max _ _ _ Hb Is). intros x Hx. apply M; auto.
  - apply (inner_max _ _ _ Hc It). intros x Hx. apply M; auto.
Qed.
