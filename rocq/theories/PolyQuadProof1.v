(** Integrals of polynomials and the orthogonality of the Legendre polynomials. *)
From Verif Require Import Base BaseLemmas Poly PolySpec PolyProof1 PolyProof2 PolyProof3 PolyImpSyntax PolyImp PolyGll PolyGllSpec PolyImpProof PolyGllProof PolyGllCheck PolyGllRoots PolyQuadSpec.
From Coq Require Import Reals Lra.
Open Scope R_scope.

(** Functions that are polynomials with at most d coefficients. *)
Definition ispoly (d : nat) (f : R -> R) : Prop := exists c, (length c <= d)%nat /\ forall x, peval c x = f x.
Lemma ip_ext d f g : (forall x, f x = g x) -> ispoly d f -> ispoly d g.
Proof. intros E (c & L & H). exists c. split; [auto|]. intros x. rewrite H. auto. Qed.
Lemma ip_mono d e f : (d <= e)%nat -> ispoly d f -> ispoly e f.
Proof. intros L (c & Lc & H). exists c. split; [lia|auto]. Qed.
Lemma ip_add d f g : ispoly d f -> ispoly d g -> ispoly d (fun x => f x + g x).
Proof. intros (c & L & H) (c' & L' & H'). exists (padd c c'). split; [apply length_padd; auto|]. intros x. rewrite peval_padd, H, H'. auto. Qed.
Lemma ip_scal d k f : ispoly d f -> ispoly d (fun x => k * f x).
Proof. intros (c & L & H). exists (map (Rmult k) c). split; [rewrite map_length; auto|]. intros x. rewrite peval_map, H. auto. Qed.
Lemma ip_sub d f g : ispoly d f -> ispoly d g -> ispoly d (fun x => f x - g x).
Proof. intros A B. apply (ip_ext d (fun x => f x + (-1) * g x)); [intros; ring|]. apply ip_add; [auto|]. apply (ip_scal d (-1) g); auto. Qed.
Lemma ip_const k : ispoly 1 (fun _ => k).
Proof. exists [k]. split; [cbn; lia|]. intros x. cbn [peval]. ring. Qed.
Lemma ip_zero d : ispoly d (fun _ => 0).
Proof. exists []. split; [cbn; lia|]. auto. Qed.
Lemma ip_lin d s t f : ispoly d f -> ispoly (d + 1) (fun x => (s * x + t) * f x).
Proof. intros (c & L & H). destruct (peval_lin s t c) as (c' & L' & H'). exists c'. split; [lia|]. intros x. rewrite H', H. auto. Qed.
Lemma ip_mul d e f g : ispoly d f -> ispoly (S e) g -> ispoly (d + e) (fun x => f x * g x).
Proof.
  intros Hf (c & L & H). apply (ip_ext _ (fun x => f x * peval c x)); [intros; rewrite H; auto|]. clear g H.
  revert e L. induction c as [|a c IH]; intros e L.
  - apply (ip_ext _ (fun _ => 0)); [intros; cbn; ring|]. apply ip_zero.
  - cbn [length] in L. destruct e as [|e].
    + assert (c = []) by (destruct c; [auto|cbn in L; lia]). subst c. apply (ip_ext _ (fun x => a * f x)); [intros; cbn [peval]; ring|]. apply ip_scal. rewrite Nat.add_0_r. auto.
    + specialize (IH e ltac:(lia)). apply (ip_ext _ (fun x => a * f x + (1 * x + 0) * (f x * peval c x))); [intros; cbn [peval]; ring|].
      apply ip_add; [apply (ip_mono d); [lia|]; apply ip_scal; auto|]. replace (d + S e)%nat with (d + e + 1)%nat by lia. apply (ip_lin _ 1 0 (fun x => f x * peval c x)). auto.
Qed.
Lemma ip_pow k : ispoly (k + 1) (fun x => x ^ k).
Proof.
  induction k as [|k IH]; [apply (ip_ext 1 (fun _ => 1)); [auto|apply ip_const]|]. apply (ip_ext _ (fun x => (1 * x + 0) * x ^ k)); [intros; cbn [pow]; ring|].
  replace (S k + 1)%nat with (k + 1 + 1)%nat by lia. apply (ip_lin _ 1 0 (fun x => x ^ k)). auto.
Qed.
Lemma ip_rsum d n f : (forall i, (i < n)%nat -> ispoly d (f i)) -> ispoly d (fun x => rsum n (fun i => f i x)).
Proof. induction n as [|n IH]; intros H; cbn [rsum]; [apply ip_zero|]. apply ip_add; auto. Qed.
Lemma ip_root d f a : ispoly (S d) f -> f a = 0 -> exists g, ispoly d g /\ forall x, f x = (x - a) * g x.
Proof.
  intros (c & L & H) Z0. destruct (peval_factor c a) as (q & Lq & Hq). exists (peval q). split; [exists q; split; [lia|auto]|].
  intros x. rewrite <- Hq, !H, Z0. ring.
Qed.
Lemma ip_roots z n : distinct z n -> forall k f, ispoly (n + k) f -> (forall i, (i < n)%nat -> f (get z i) = 0) ->
  exists g, ispoly k g /\ forall x, f x = rprod n (fun i => x - get z i) * g x.
Proof.
  induction n as [|n IH]; intros D k f Hf Z0.
  - exists f. split; [auto|]. intros x. cbn [rprod]. ring.
  - destruct (IH) with (k := S k) (f := f) as (g & Hg & E).
    + intros i j Hi Hj. apply D; lia.
    + replace (n + S k)%nat with (S n + k)%nat by lia. auto.
    + intros i Hi. apply Z0. lia.
    + destruct (ip_root k g (get z n) Hg) as (h & Hh & E').
      * specialize (Z0 n ltac:(lia)). rewrite E in Z0. apply Rmult_integral in Z0. destruct Z0 as [Z0|Z0]; [|auto].
        exfalso. revert Z0. apply rprod_nonzero. intros i Hi X. assert (n = i) by (apply D; [lia|lia|lra]). lia.
      * exists h. split; [auto|]. intros x. rewrite E, E'. cbn [rprod]. ring.
Qed.

(** Derivatives and antiderivatives. *)
Lemma der_ext f g x a : (forall y, f y = g y) -> derivable_pt_lim f x a -> derivable_pt_lim g x a.
Proof. intros E D eps He. destruct (D eps He) as (d & H). exists d. intros h H0 H1. rewrite <- !E. auto. Qed.
Lemma der_pow k x : derivable_pt_lim (fun x => x ^ S k) x ((INR k + 1) * x ^ k).
Proof. eapply der_eq; [apply (derivable_pt_lim_pow x (S k))|]. rewrite S_INR. cbn [Nat.pred]. auto. Qed.
Lemma ip_der d f : ispoly (S d) f -> exists f', ispoly d f' /\ forall x, derivable_pt_lim f x (f' x).
Proof.
  intros (c & L & H). revert d f L H. induction c as [|a c IH]; intros d f L H.
  - exists (fun _ => 0). split; [apply ip_zero|]. intros x. apply (der_ext (fun _ => 0)); [intros; rewrite <- H; auto|]. apply derivable_pt_lim_const.
  - cbn [length] in L. assert (Hd : ispoly d (peval c)) by (exists c; split; [lia|auto]).
    destruct d as [|d].
    + assert (c = []) by (destruct c; [auto|cbn in L; lia]). subst c. exists (fun _ => 0). split; [apply ip_zero|]. intros x. apply (der_ext (fun _ => a)); [intros; rewrite <- H; cbn [peval]; ring|]. apply derivable_pt_lim_const.
    + destruct (IH d (peval c) ltac:(lia) ltac:(auto)) as (g & Hg & D).
      exists (fun x => peval c x + (1 * x + 0) * g x). split.
      * apply ip_add; [auto|]. replace (S d) with (d + 1)%nat by lia. apply (ip_lin d 1 0 g). auto.
      * intros x. apply (der_ext (fun x => a + x * peval c x)); [intros; apply H|]. eapply der_eq.
        { apply (der_add (fun _ => a) (fun x => x * peval c x)); [apply derivable_pt_lim_const|]. apply (der_mul (fun x => x) (peval c)); [apply der_id|apply D]. }
        ring.
Qed.
Lemma peval_pow c x : peval c x = rsum (length c) (fun k => get c k * x ^ k).
Proof.
  induction c as [|a c IH]; [reflexivity|]. cbn [peval length]. rewrite IH. clear IH.
  assert (X : forall n f, rsum (S n) f = f 0%nat + rsum n (fun k => f (S k))).
  { induction n as [|n IHn]; intros f; [cbn [rsum]; ring|]. replace (rsum (S (S n)) f) with (rsum (S n) f + f (S n)) by reflexivity. rewrite IHn. cbn [rsum]. ring. }
  rewrite X. cbn [get nth pow]. f_equal; [ring|].
  assert (Y : forall n f, x * rsum n f = rsum n (fun k => x * f k)) by (induction n as [|n IHn]; intros f; cbn [rsum]; [ring|rewrite <- IHn; ring]).
  rewrite Y. apply rsum_ext. intros k Hk. unfold get. cbn [nth]. ring.
Qed.
Lemma der_rsum n f f' x : (forall i, (i < n)%nat -> derivable_pt_lim (f i) x (f' i)) -> derivable_pt_lim (fun x => rsum n (fun i => f i x)) x (rsum n f').
Proof.
  induction n as [|n IH]; intros H; cbn [rsum]; [apply derivable_pt_lim_const|]. apply (der_add (fun x => rsum n (fun i => f i x)) (f n)); auto.
Qed.
Lemma int_exists d f : ispoly d f -> exists v, integral f v.
Proof.
  intros (c & L & H). exists (rsum (length c) (fun k => get c k / (INR k + 1) * 1 ^ S k) - rsum (length c) (fun k => get c k / (INR k + 1) * (-1) ^ S k)).
  exists (fun x => rsum (length c) (fun k => get c k / (INR k + 1) * x ^ S k)). split; [|auto].
  intros x. rewrite <- H, peval_pow. apply (der_rsum _ (fun k x => get c k / (INR k + 1) * x ^ S k)). intros k Hk.
  eapply der_eq; [apply (der_scal _ (fun x => x ^ S k)), der_pow|]. field. pose proof (pos_INR k). lra.
Qed.
Lemma int_unique f a b : integral f a -> integral f b -> a = b.
Proof.
  intros (F & HF & ->) (G & HG & ->). assert (D : forall x, derivable_pt_lim (fun x => F x - G x) x 0).
  { intros x. eapply der_eq; [apply (der_sub F G); [apply HF|apply HG]|]. ring. }
  assert (pr : derivable (fun x => F x - G x)) by (intros x; exists 0; apply D).
  assert (C : constant (fun x => F x - G x)). { apply (null_derivative_1 _ pr). intros x. apply derive_pt_eq_0, D. }
  specialize (C 1 (-1)). cbv beta in C. lra.
Qed.
Lemma int_ext f g a : (forall x, f x = g x) -> integral f a -> integral g a.
Proof. intros E (F & H & ->). exists F. split; [|auto]. intros x. rewrite <- E. auto. Qed.
Lemma int_add f g a b : integral f a -> integral g b -> integral (fun x => f x + g x) (a + b).
Proof. intros (F & H & ->) (G & H' & ->). exists (fun x => F x + G x). split; [|ring]. intros x. apply (der_add F G); auto. Qed.
Lemma int_scal k f a : integral f a -> integral (fun x => k * f x) (k * a).
Proof. intros (F & H & ->). exists (fun x => k * F x). split; [|ring]. intros x. apply (der_scal k F); auto. Qed.
Lemma int_val f a b : integral f a -> a = b -> integral f b. Proof. intros H <-. auto. Qed.
Lemma int_sub f g a b : integral f a -> integral g b -> integral (fun x => f x - g x) (a - b).
Proof. intros A B. eapply int_val; [apply (int_ext (fun x => f x + (-1) * g x)); [intros; ring|]; apply int_add; [exact A|apply int_scal; exact B]|]. ring. Qed.
Lemma int_rsum n f a : (forall i, (i < n)%nat -> integral (f i) (a i)) -> integral (fun x => rsum n (fun i => f i x)) (rsum n a).
Proof.
  induction n as [|n IH]; intros H; cbn [rsum]; [exists (fun _ => 0); split; [intros; apply derivable_pt_lim_const|ring]|]. apply int_add; auto.
Qed.
Lemma int_der F f a : (forall x, derivable_pt_lim F x (f x)) -> a = F 1 - F (-1) -> integral f a.
Proof. intros H ->. exists F. auto. Qed.

(** Legendre's differential equation and the values at the ends. *)
Lemma P1_pre n x : (1 - x * x) * P1 (S n) x = (INR n + 1) * (P n x - x * P (S n) x).
Proof. destruct (BC n x) as [A B]. replace (x * x) with (x * (x * 1)) by ring.
  replace ((1 - x * (x * 1)) * P1 (S n) x) with (P1 (S n) x - x * (x * P1 (S n) x)) by ring.
  replace (x * P1 (S n) x) with (P1 n x + (INR n + 1) * P (S n) x) by lra. rewrite A. ring. Qed.
Lemma P1_post n x : (1 - x * x) * P1 n x = (INR n + 1) * (x * P n x - P (S n) x).
Proof. destruct (BC n x) as [A B]. rewrite A in B. replace ((INR n + 1) * (x * P n x - P (S n) x)) with (x * ((INR n + 1) * P n x) - (INR n + 1) * P (S n) x) by ring. rewrite <- B. ring. Qed.
Lemma P_ode n x : (1 - x * x) * P2 n x = 2 * x * P1 n x - INR n * (INR n + 1) * P n x.
Proof.
  destruct n as [|n]; [rewrite P2_0, P1_0; cbn [INR]; ring|].
  assert (E : - (2 * x) * P1 (S n) x + (1 - x * x) * P2 (S n) x = (INR n + 1) * (P1 n x - (P (S n) x + x * P1 (S n) x))).
  { eapply (der_unique (fun x => (1 - x * x) * P1 (S n) x) (fun x => (INR n + 1) * (P n x - x * P (S n) x)) x).
    - intros y. apply P1_pre.
    - eapply der_eq; [apply (der_mul (fun x => 1 - x * x) (P1 (S n))); [apply (der_sub (fun _ => 1) (fun x => x * x)); [apply derivable_pt_lim_const|apply (der_mul (fun x => x) (fun x => x)); apply der_id]|apply P1_der]|]. ring.
    - eapply der_eq; [apply der_scal, (der_sub (P n) (fun x => x * P (S n) x)); [apply P_der|apply (der_mul (fun x => x) (P (S n))); [apply der_id|apply P_der]]|]. ring. }
  destruct (BC n x) as [A B]. rewrite S_INR. rewrite (Rmult_comm _ (P (S n) x)). replace (P1 n x) with (x * P1 (S n) x - (INR n + 1) * P (S n) x) in E by lra. nra.
Qed.
Lemma P_at_1 n : P n 1 = 1.
Proof. revert n. apply two_step; [apply P_0|rewrite P_1; auto|]. intros n A B. rewrite P_SS, A, B. field. pose proof (pos_INR n). lra. Qed.
Lemma P1_at_1 n : P1 n 1 = INR n * (INR n + 1) / 2.
Proof. pose proof (P_ode n 1) as E. rewrite P_at_1 in E. lra. Qed.

Lemma ip_P n : ispoly (n + 1) (P n). Proof. apply P_poly. Qed.
Lemma ip_P1 n : ispoly n (P1 n). Proof. apply P1_poly. Qed.
Lemma ip_P2 n : ispoly (n - 1) (P2 n).
Proof.
  destruct n as [|n]; [apply (ip_ext _ (fun _ => 0)); [intros; rewrite P2_0; auto|apply ip_zero]|]. cbn [Nat.sub]. rewrite Nat.sub_0_r.
  destruct (ip_der n (P1 (S n)) (ip_P1 (S n))) as (f & Hf & D). apply (ip_ext _ f); [|auto]. intros x. eapply (der_unique (P1 (S n)) (P1 (S n))); [auto|apply D|apply P1_der].
Qed.

(** Orthogonality. *)
Lemma orth_pow n k : (k < n)%nat -> integral (fun x => P n x * x ^ k) 0.
Proof.
  intros Hk. assert (G : forall m, (m <= k)%nat -> integral (fun x => P n x * x ^ m) 0); [|apply G; auto].
  assert (SI : forall m, ((m <= k)%nat -> integral (fun x => P n x * x ^ m) 0) /\ ((S m <= k)%nat -> integral (fun x => P n x * x ^ S m) 0)); [|intros m; apply SI].
  assert (EX : forall m, exists v, integral (fun x => P n x * x ^ m) v).
  { intros m. apply (int_exists (n + 1 + m)). apply ip_mul; [apply ip_P|]. rewrite <- Nat.add_1_r. apply ip_pow. }
  assert (NZ : forall m, (m <= k)%nat -> INR n * (INR n + 1) - INR m * (INR m + 1) <> 0).
  { intros m Hm. assert (INR m < INR n) by (apply lt_INR; lia). pose proof (pos_INR m). nra. }
  assert (DE : forall x, derivable_pt_lim (fun x => 1 - x * x) x (- (2 * x))).
  { intros x. eapply der_eq; [apply (der_sub (fun _ => 1) (fun x => x * x)); [apply derivable_pt_lim_const|apply (der_mul (fun x => x) (fun x => x)); apply der_id]|]. ring. }
  induction m as [|m [IH1 IH2]].
  - split; intros Hm.
    + destruct (EX 0%nat) as (v & Hv).
      assert (X : integral (fun x => - (INR n * (INR n + 1)) * (P n x * x ^ 0)) 0).
      { apply (int_der (fun x => (1 - x * x) * P1 n x)); [|ring]. intros x. eapply der_eq; [apply (der_mul (fun x => 1 - x * x) (P1 n)); [apply DE|apply P1_der]|].
        rewrite P_ode. cbn [pow]. ring. }
      eapply int_val; [exact Hv|]. pose proof (int_unique _ _ _ X (int_scal _ _ _ Hv)) as E. specialize (NZ 0%nat ltac:(lia)). cbn [INR] in NZ. nra.
    + destruct (EX 1%nat) as (v & Hv).
      assert (X : integral (fun x => (2 - INR n * (INR n + 1)) * (P n x * x ^ 1)) 0).
      { apply (int_der (fun x => (1 - x * x) * (P1 n x * x - P n x))); [|ring]. intros x. eapply der_eq.
        { apply (der_mul (fun x => 1 - x * x) (fun x => P1 n x * x - P n x)); [apply DE|]. apply (der_sub (fun x => P1 n x * x) (P n)); [apply (der_mul (P1 n) (fun x => x)); [apply P1_der|apply der_id]|apply P_der]. }
        replace ((1 - x * x) * (P2 n x * x + P1 n x * 1 - P1 n x)) with (x * ((1 - x * x) * P2 n x)) by ring. rewrite P_ode. cbn [pow]. ring. }
      eapply int_val; [exact Hv|]. pose proof (int_unique _ _ _ X (int_scal _ _ _ Hv)) as E. specialize (NZ 1%nat ltac:(lia)). cbn [INR] in NZ. nra.
  - split; [auto|]. intros Hm. specialize (IH1 ltac:(lia)). destruct (EX (S (S m))) as (v & Hv).
    assert (X : integral (fun x => ((INR m + 2) * (INR m + 3) - INR n * (INR n + 1)) * (P n x * x ^ S (S m)) + - ((INR m + 2) * (INR m + 1)) * (P n x * x ^ m)) 0).
    { apply (int_der (fun x => (1 - x * x) * (P1 n x * x ^ S (S m) - P n x * ((INR m + 2) * x ^ S m)))); [|ring]. intros x. eapply der_eq.
      { apply (der_mul (fun x => 1 - x * x) (fun x => P1 n x * x ^ S (S m) - P n x * ((INR m + 2) * x ^ S m))); [apply DE|].
        apply (der_sub (fun x => P1 n x * x ^ S (S m)) (fun x => P n x * ((INR m + 2) * x ^ S m))).
        - apply (der_mul (P1 n) (fun x => x ^ S (S m))); [apply P1_der|apply der_pow].
        - apply (der_mul (P n) (fun x => (INR m + 2) * x ^ S m)); [apply P_der|apply (der_scal _ (fun x => x ^ S m)), der_pow]. }
      rewrite S_INR.
      replace ((1 - x * x) * (P2 n x * x ^ S (S m) + P1 n x * ((INR m + 1 + 1) * x ^ S m) - (P1 n x * ((INR m + 2) * x ^ S m) + P n x * ((INR m + 2) * ((INR m + 1) * x ^ m)))))
        with (x ^ S (S m) * ((1 - x * x) * P2 n x) - (1 - x * x) * (P n x * ((INR m + 2) * ((INR m + 1) * x ^ m)))) by ring.
      rewrite P_ode. cbn [pow]. ring. }
    pose proof (int_unique _ _ _ X (int_add _ _ _ _ (int_scal _ _ _ Hv) (int_scal _ _ _ IH1))) as E. eapply int_val; [exact Hv|].
    specialize (NZ (S (S m)) ltac:(lia)). rewrite !S_INR in NZ. assert (N2 : (INR m + 2) * (INR m + 3) - INR n * (INR n + 1) <> 0) by (intros Y; apply NZ; lra).
    rewrite Rmult_0_r, Rplus_0_r in E. symmetry in E. apply Rmult_integral in E. destruct E as [E|E]; [contradiction|auto].
Qed.
Lemma orth n f : ispoly n f -> integral (fun x => P n x * f x) 0.
Proof.
  intros (c & L & H). apply (int_ext (fun x => rsum (length c) (fun k => get c k * (P n x * x ^ k)))).
  - intros x. rewrite <- H, peval_pow. assert (Y : forall a n f, a * rsum n f = rsum n (fun k => a * f k)) by (intros a n0; induction n0 as [|n0 IHn]; intros g; cbn [rsum]; [ring|rewrite <- IHn; ring]).
    rewrite Y. apply rsum_ext. intros; ring.
  - eapply int_val; [apply (int_rsum _ (fun k x => get c k * (P n x * x ^ k)) (fun k => get c k * 0)); intros i Hi; apply (int_scal _ (fun x => P n x * x ^ i)), orth_pow; lia|].
    clear. induction (length c) as [|m IH]; cbn [rsum]; [auto|rewrite IH; ring].
Qed.
