(** The three-term recursions of gen_poly_imp.c give the Legendre polynomials and their derivatives. *)
From Verif Require Import Base Poly PolySpec PolyProof3 PolyProof1 PolyProof2 PolyGllProof LobBndSetupProof1 PolyQuadProof1 PolyQuadProof3 PolyQuadProof5 PolyGenSpec PolyGenNodes.
From Coq Require Import Reals Lra.
Open Scope R_scope.

Lemma three_term_ok (Q : nat -> R -> R) i0 a b c x p q n : p = Q i0 x -> q = Q (S i0) x ->
  (forall i, (i0 < i)%nat -> INR (a i) <> 0 /\ INR (a i) * Q (S i) x = x * Q i x * INR (b i) - Q (i - 1)%nat x * INR (c i)) ->
  (n <= i0 -> Q n x = p)%nat -> three_term i0 p q a b c n x = Q n x.
Proof.
  intros Hp Hq H H0. unfold three_term.
  assert (G : forall m, fold_left (fun '(P_im1, P_i) i => (P_i, (x * P_i * INR (b i) - P_im1 * INR (c i)) / INR (a i))) (seq (i0 + 1) m) (p, q) = (Q (i0 + m)%nat x, Q (S (i0 + m)) x)).
  { induction m as [|m IH]; [rewrite Nat.add_0_r, Hp, Hq; reflexivity|]. rewrite seq_S, fold_left_app, IH. cbn [fold_left].
    destruct (H (i0 + 1 + m)%nat ltac:(lia)) as [N E]. replace (i0 + S m)%nat with (i0 + 1 + m)%nat by lia. f_equal; [f_equal; lia|].
    replace (S (i0 + m)) with (i0 + 1 + m)%nat by lia. replace (i0 + 1 + m - 1)%nat with (i0 + m)%nat in E by lia. rewrite <- E. field. exact N. }
  rewrite G. destruct (Nat.ltb_spec i0 n); [f_equal; lia|]. replace (n - (i0 + 1))%nat with 0%nat by lia. rewrite Nat.add_0_r, <- Hp. symmetry. apply H0. lia.
Qed.
Ltac rec i Hi := destruct i as [|[|i]]; [lia|..]; (split; [apply not_0_INR; lia|]); rewrite ?Nat.sub_succ, ?Nat.sub_0_r; repeat (rewrite plus_INR || rewrite mult_INR || rewrite S_INR); cbn [INR].
Lemma gen_legendre_P n x : gen_legendre n x = P n x.
Proof.
  unfold gen_legendre. apply three_term_ok; [reflexivity|reflexivity| |].
  - intros i Hi. destruct i as [|i]; [lia|]. split; [apply not_0_INR; lia|]. replace (S i - 1)%nat with i by lia. rewrite P_SS. pose proof (pos_INR i).
    rewrite ?plus_INR, ?mult_INR, ?S_INR. cbn [INR]. field. lra.
  - intros Hn. replace n with 0%nat by lia. reflexivity.
Qed.
Lemma gen_legendre_d1_P n x : gen_legendre_d1 n x = P1 n x.
Proof.
  unfold gen_legendre_d1. apply three_term_ok; [reflexivity|reflexivity| |].
  - intros i Hi. destruct i as [|i]; [lia|]. split; [apply not_0_INR; lia|]. replace (S i - 1)%nat with i by lia. pose proof (P1_rec i x) as Q.
    rewrite ?plus_INR, ?mult_INR, ?S_INR. cbn [INR]. lra.
  - intros Hn. replace n with 0%nat by lia. reflexivity.
Qed.
Lemma gen_legendre_d2_P n x : gen_legendre_d2 n x = P2 n x.
Proof.
  unfold gen_legendre_d2. apply three_term_ok; [rewrite P2_1; reflexivity|rewrite P2_2; reflexivity| |].
  - intros i Hi. destruct i as [|[|i]]; [lia|lia|]. split; [apply not_0_INR; lia|]. replace (S (S i) - 1)%nat with (S i) by lia. pose proof (P2_rec (S i) x) as Q.
    rewrite ?plus_INR, ?mult_INR, ?S_INR in *. cbn [INR] in *. lra.
  - intros Hn. destruct n as [|[|n]]; [rewrite P2_0; auto|rewrite P2_1; auto|lia].
Qed.

Lemma newton_near small f der n seed z : newton small f der n seed z ->
  exists x y s t, small s y = true /\ der n x <> 0 /\ s = f n x / der n x /\ y = x - s /\ der n y <> 0 /\ t = f n y / der n y /\ z = y - t.
Proof.
  intros (y & L & Ny & ->). assert (G : exists x, der n x <> 0 /\ small (f n x / der n x) y = true /\ y = x - f n x / der n x).
  { induction L as [x N E|x y N E L IH]; [exists x; auto|auto]. }
  destruct G as (x & Nx & E & Ey). exists x, y, (f n x / der n x), (f n y / der n y). repeat split; auto.
Qed.
Lemma P_mid n : Nat.odd n = true -> P n 0 = 0.
Proof.
  intros O. apply Nat.odd_spec in O. destruct O as (k & ->). pose proof (proj1 (P_opp (2 * k + 1) 0)) as Q. rewrite Ropp_0, pow_add, pow_mult in Q.
  replace ((-1) ^ 2) with 1 in Q by (cbn; lra). rewrite pow1 in Q. cbn [pow] in Q. lra.
Qed.
Lemma P1_mid n : Nat.odd n = true -> P1 (n - 1) 0 = 0.
Proof.
  intros O. apply Nat.odd_spec in O. destruct O as (k & ->). replace (2 * k + 1 - 1)%nat with (2 * k)%nat by lia. pose proof (P1_opp (2 * k) 0) as Q. rewrite Ropp_0, pow_mult in Q.
  replace ((-1) ^ 2) with 1 in Q by (cbn; lra). rewrite pow1 in Q. lra.
Qed.

(** A polynomial with only real roots has one close to where Newton's correction is small. *)
Lemma rprod_der (z : nat -> R) x D : 0 <= D -> forall m, (forall i, (i < m)%nat -> D < Rabs (x - z i)) ->
  exists d, derivable_pt_lim (fun y => rprod m (fun i => y - z i)) x d /\ (m = 0%nat -> d = 0) /\ ((1 <= m)%nat -> D * Rabs d < INR m * Rabs (rprod m (fun i => x - z i))).
Proof.
  intros HD. induction m as [|m IH]; intros H.
  - exists 0. split; [apply (derivable_pt_lim_const 1)|]. split; [auto|lia].
  - destruct IH as (d & Hd & D0 & B); [intros; apply H; lia|]. exists (d * (x - z m) + rprod m (fun i => x - z i) * 1). split; [|split; [lia|intros _]].
    + apply (derivable_pt_lim_mult (fun y => rprod m (fun i => y - z i)) (fun y => y - z m)); [exact Hd|].
      replace 1 with (1 - 0) by lra. apply (derivable_pt_lim_minus (fun y => y) (fun _ => z m)); [apply derivable_pt_lim_id|apply derivable_pt_lim_const].
    + cbn [rprod]. rewrite Rmult_1_r, Rabs_mult, S_INR. set (g := rprod m _) in *. pose proof (H m ltac:(lia)) as Hm.
      assert (Ng : g <> 0). { apply rprod_nonzero. intros i Hi E. specialize (H i ltac:(lia)). rewrite E, Rabs_R0 in H. lra. }
      pose proof (Rabs_pos_lt g Ng) as Pg. set (a := Rabs (x - z m)) in *.
      apply (Rle_lt_trans _ (D * Rabs d * a + D * Rabs g)).
      * rewrite Rmult_assoc, <- Rmult_plus_distr_l. apply Rmult_le_compat_l; [auto|]. eapply Rle_trans; [apply Rabs_triang|]. rewrite Rabs_mult. fold a. lra.
      * assert (Q : D * Rabs g < a * Rabs g) by (apply Rmult_lt_compat_r; auto). destruct m as [|m].
        { rewrite (D0 eq_refl), Rabs_R0. cbn [INR]. lra. }
        specialize (B ltac:(lia)). assert (D * Rabs d * a <= INR (S m) * Rabs g * a) by (apply Rmult_le_compat_r; lra). lra.
Qed.
Lemma far_dec (z : nat -> R) x D m : (exists i, (i < m)%nat /\ Rabs (x - z i) <= D) \/ (forall i, (i < m)%nat -> D < Rabs (x - z i)).
Proof.
  induction m as [|m [(i & Hi & L)|IH]]; [right; intros; lia|left; exists i; split; [lia|auto]|].
  destruct (Rle_lt_dec (Rabs (x - z m)) D); [left; exists m; split; [lia|auto]|right]. intros i Hi. destruct (Nat.eq_dec i m) as [->|]; [auto|apply IH; lia].
Qed.
Lemma near_root_ok z m f x f' : (1 <= m)%nat -> distinct z m -> ispoly (m + 1) f -> (forall i, (i < m)%nat -> f (PolySpec.get z i) = 0) ->
  derivable_pt_lim f x f' -> f' <> 0 -> exists r, f r = 0 /\ Rabs (x - r) <= INR m * Rabs (f x / f').
Proof.
  intros Hm Dz Hf Z0 Df N. destruct (ip_roots z m Dz 1 f Hf Z0) as (g & (c & Lc & Hc) & E).
  assert (C : forall u, g u = peval c 0). { intros u. rewrite <- (Hc u). destruct c as [|a [|]]; [reflexivity|cbn [peval]; ring|cbn in Lc; lia]. }
  set (k := peval c 0) in *. set (s := f x / f').
  destruct (far_dec (PolySpec.get z) x (INR m * Rabs s) m) as [(i & Hi & L)|F].
  { exists (PolySpec.get z i). split; auto. }
  exfalso. assert (P0 : 0 <= INR m * Rabs s) by (apply Rmult_le_pos; [apply pos_INR|apply Rabs_pos]).
  destruct (rprod_der (PolySpec.get z) x _ P0 m F) as (d & Hd & _ & B). specialize (B Hm).
  assert (Ed : f' = d * k).
  { eapply (der_unique f (fun y => k * rprod m (fun i => y - PolySpec.get z i))); [|exact Df|].
    - intros y. rewrite E, C. ring.
    - replace (d * k) with (k * d) by ring. apply (derivable_pt_lim_scal (fun y => rprod m (fun i => y - PolySpec.get z i)) k x d Hd). }
  assert (Nk : k <> 0) by (intros K; apply N; rewrite Ed, K; ring).
  assert (Ef : f x = rprod m (fun i => x - PolySpec.get z i) * k) by (rewrite E, C; auto).
  assert (Es : Rabs (f x) = Rabs s * Rabs f') by (rewrite <- Rabs_mult; f_equal; unfold s; field; auto).
  rewrite Ef, Ed, !Rabs_mult in Es. assert (Pk : 0 < Rabs k) by (apply Rabs_pos_lt; auto).
  assert (Eq : Rabs (rprod m (fun i => x - PolySpec.get z i)) = Rabs s * Rabs d) by (apply (Rmult_eq_reg_r (Rabs k)); lra).
  rewrite Eq in B. lra.
Qed.
Lemma step_near z m f f' x : (1 <= m)%nat -> distinct z m -> ispoly (m + 1) f -> (forall i, (i < m)%nat -> f (PolySpec.get z i) = 0) ->
  derivable_pt_lim f x f' -> f' <> 0 -> near_root f (INR (m + 1) * Rabs (f x / f')) (x - f x / f').
Proof.
  intros Hm Dz Hf Z0 Df N. destruct (near_root_ok z m f x f' Hm Dz Hf Z0 Df N) as (r & Hr & B). exists r. split; [auto|]. rewrite plus_INR. cbn [INR].
  replace (x - f x / f' - r) with ((x - r) + - (f x / f')) by ring. eapply Rle_trans; [apply Rabs_triang|]. rewrite Rabs_Ropp. lra.
Qed.
(** The degree of P n is n, and P1 n has degree n - 1; both have as many roots. *)
Lemma newton_P small n seed z : (1 <= n)%nat -> newton small gen_legendre gen_legendre_d1 n seed z ->
  exists s y t, small s y = true /\ near_root (P n) (INR (n + 1) * Rabs s) y /\ z = y - t /\ near_root (P n) (INR (n + 1) * Rabs t) z.
Proof.
  intros Hn Nt. destruct (newton_near _ _ _ _ _ _ Nt) as (x & y & s & t & S & Nx & Es & Ey & Ny & Et & Ez). exists s, y, t.
  rewrite gen_legendre_P, gen_legendre_d1_P in *. destruct (legendre_roots n) as (l & Ll & _ & Inc & Z0 & _). pose proof (increasing_distinct l n Inc) as Dl.
  split; [auto|]. split; [|split; [auto|]].
  - rewrite Ey, Es. apply (step_near l); auto; [apply ip_P|apply P_der].
  - rewrite Ez, Et. apply (step_near l); auto; [apply ip_P|apply P_der].
Qed.
Lemma newton_P1 small n seed z : (2 <= n)%nat -> newton small gen_legendre_d1 gen_legendre_d2 n seed z ->
  exists s y t, small s y = true /\ near_root (P1 n) (INR n * Rabs s) y /\ z = y - t /\ near_root (P1 n) (INR n * Rabs t) z.
Proof.
  intros Hn Nt. destruct (newton_near _ _ _ _ _ _ Nt) as (x & y & s & t & S & Nx & Es & Ey & Ny & Et & Ez). exists s, y, t.
  rewrite gen_legendre_d1_P, gen_legendre_d2_P in *. destruct (lobatto_roots n) as (l & Ll & _ & Inc & Z0). pose proof (increasing_distinct l (n - 1) Inc) as Dl.
  assert (IP : ispoly (n - 1 + 1) (P1 n)) by (replace (n - 1 + 1)%nat with n by lia; apply ip_P1). replace (INR n) with (INR (n - 1 + 1)) by (f_equal; lia).
  split; [auto|]. split; [|split; [auto|]].
  - rewrite Ey, Es. apply (step_near l); auto; [lia|apply P1_der].
  - rewrite Ez, Et. apply (step_near l); auto; [lia|apply P1_der].
Qed.
Lemma near_root_P1 n d x : near_root (P1 n) d x -> exists r, derivable_pt_lim (P n) r 0 /\ Rabs (x - r) <= d.
Proof. intros (r & E & B). exists r. split; [rewrite <- E; apply P_der|auto]. Qed.
