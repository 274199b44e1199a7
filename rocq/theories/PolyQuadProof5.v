(** The roots of the Legendre polynomials and of their derivatives are real, simple and in (-1,1). *)
From Verif Require Import Base BaseLemmas Poly PolySpec PolyProof1 PolyProof2 PolyProof3 PolyImpSyntax PolyImp PolyGll PolyGllSpec PolyImpProof PolyGllProof PolyGllRoots PolyQuad PolyQuadSpec PolyQuadProof1 PolyQuadProof2 PolyQuadProof3 PolyQuadProof4 LobBnd LobBndSpec LobBndProof1 LobBndProof3 LobBndSetupProof1.
From Coq Require Import Reals Lra Lia.
Open Scope R_scope.

Lemma rprod_pos n f : (forall i, (i < n)%nat -> 0 < f i) -> 0 < rprod n f.
Proof. induction n as [|n IH]; intros H; cbn [rprod]; [lra|]. apply Rmult_lt_0_compat; auto. Qed.
Lemma rprod_neg m f : (-1) ^ m * rprod m f = rprod m (fun i => - f i).
Proof. induction m as [|m IH]; cbn [rprod pow]; [ring|]. rewrite <- IH. ring. Qed.
Lemma pow_m1_cases m : (-1) ^ m = 1 \/ (-1) ^ m = -1.
Proof. induction m as [|m [IH|IH]]; cbn [pow]; [auto|right|left]; rewrite IH; ring. Qed.
Lemma der_cont (f f' : R -> R) : (forall x, derivable_pt_lim f x (f' x)) -> continuity f.
Proof. intros D x. apply derivable_continuous_pt. exists (f' x). apply D. Qed.
(** A change of sign. *)
Lemma sign_root f s a b : continuity f -> a < b -> 0 < s * f a -> 0 < - s * f b -> exists x, a < x < b /\ f x = 0.
Proof.
  intros C L A B. destruct (IVT (fun x => - s * f x) a b) as (x & Hx & Z0).
  - apply (continuity_scal f (- s)). auto.
  - auto.
  - lra.
  - lra.
  - cbv beta in Z0. assert (F : f x = 0). { apply Rmult_integral in Z0. destruct Z0 as [X|X]; [|auto]. exfalso. assert (s = 0) by lra. subst. lra. }
    exists x. split; [|auto]. split.
    + destruct (Req_dec a x) as [->|]; [rewrite F in A; lra|lra].
    + destruct (Req_dec b x) as [->|]; [rewrite F in B; lra|lra].
Qed.
Lemma increasing_lt (l : arr) n : (forall i, (i + 1 < n)%nat -> get l i < get l (S i)) -> forall i j, (i < j)%nat -> (j < n)%nat -> get l i < get l j.
Proof.
  intros H i j Hij. induction Hij as [|j Hij IH]; intros Hj; [apply H; lia|]. eapply Rlt_trans; [apply IH; lia|]. apply H. lia.
Qed.

Lemma legendre_roots n : exists l : arr, length l = n /\ (forall i, (i < n)%nat -> -1 < get l i < 1) /\ (forall i, (i + 1 < n)%nat -> get l i < get l (S i)) /\
  (forall i, (i < n)%nat -> P n (get l i) = 0) /\ forall i, (i < n)%nat -> 0 < (-1) ^ (n - 1 - i) * P (n - 1) (get l i).
Proof.
  induction n as [|n (l & Ll & In & Inc & Z0 & Sg)]; [exists []; repeat split; intros; lia|].
  set (p := fun k => if (k =? 0)%nat then -1 else if (k =? S n)%nat then 1 else get l (k - 1)).
  assert (p0 : p 0%nat = -1) by reflexivity. assert (p1 : p (S n) = 1) by (unfold p; rewrite Nat.eqb_refl; auto).
  assert (pI : forall k, (k < n)%nat -> p (S k) = get l k). { intros k Hk. unfold p. destruct (Nat.eqb_spec (S k) (S n)); [lia|]. cbn [Nat.eqb]. f_equal. lia. }
  assert (Pinc : forall k, (k <= n)%nat -> p k < p (S k)).
  { intros k Hk. destruct k as [|k].
    - rewrite p0. destruct n as [|n]; [rewrite p1; lra|]. rewrite pI by lia. apply In. lia.
    - rewrite pI by lia. destruct (Nat.eq_dec (S k) n) as [<-|]; [rewrite p1; apply In; lia|]. rewrite pI by lia. apply Inc. lia. }
  assert (Psg : forall k, (k <= S n)%nat -> 0 < (-1) ^ (S n - k) * P (S n) (p k)).
  { intros k Hk. destruct k as [|k].
    - rewrite p0, Nat.sub_0_r. pose proof (proj1 (P_opp (S n) 1)) as E. replace (- (1)) with (-1) in E by ring. rewrite E, P_at_1. rewrite Rmult_1_r, <- Rpow_mult_distr. replace (-1 * -1) with 1 by ring. rewrite pow1. lra.
    - destruct (Nat.eq_dec k n) as [->|]; [rewrite p1, P_at_1, Nat.sub_diag; cbn; lra|]. rewrite pI by lia. destruct n as [|n]; [lia|].
      specialize (Sg k ltac:(lia)). replace (S n - 1)%nat with n in Sg by lia. rewrite P_SS, Z0 by lia.
      replace (S (S n) - S k)%nat with (S (n - k)) by lia. cbn [pow]. replace (-1 * (-1) ^ (n - k) * (((2 * INR n + 3) * get l k * 0 - (INR n + 1) * P n (get l k)) / (INR n + 2)))
        with (((-1) ^ (n - k) * P n (get l k)) * ((INR n + 1) / (INR n + 2))) by (field; pose proof (pos_INR n); lra).
      pose proof (pos_INR n). apply Rmult_lt_0_compat; [auto|]. apply Rdiv_lt_0_compat; lra. }
  destruct (choose_list (fun k x => p k < x < p (S k) /\ P (S n) x = 0) (S n)) as (l' & Ll' & Hl').
  { intros k Hk. apply (sign_root (P (S n)) ((-1) ^ (S n - k))).
    - apply (der_cont _ (P1 (S n))). apply P_der.
    - apply Pinc. lia.
    - apply Psg. lia.
    - specialize (Psg (S k) ltac:(lia)). replace (S n - k)%nat with (S (S n - S k)) by lia. cbn [pow]. replace (- (-1 * (-1) ^ (S n - S k))) with ((-1) ^ (S n - S k)) by ring. auto. }
  assert (pmono : forall i j, (i <= j)%nat -> (j <= S n)%nat -> p i <= p j).
  { intros i j Hij. induction Hij as [|j Hij IH]; intros Hj; [lra|]. specialize (Pinc j ltac:(lia)). specialize (IH ltac:(lia)). lra. }
  exists l'. split; [auto|]. split; [|split; [|split]].
  - intros i Hi. destruct (Hl' i Hi) as [B _]. pose proof (pmono 0%nat i ltac:(lia) ltac:(lia)). pose proof (pmono (S i) (S n) ltac:(lia) ltac:(lia)). rewrite p0 in *. rewrite p1 in *. lra.
  - intros i Hi. destruct (Hl' i ltac:(lia)) as [B _]. destruct (Hl' (S i) ltac:(lia)) as [C _]. lra.
  - intros i Hi. apply Hl'. auto.
  - intros k Hk. destruct (Hl' k Hk) as [B _]. replace (S n - 1)%nat with n by lia.
    destruct (ip_roots l n (increasing_distinct l n Inc) 1 (P n) (ip_P n) Z0) as (g & (c & Lc & Hc) & E).
    assert (C : forall u, g u = peval c 0). { intros u. rewrite <- Hc. destruct c as [|a [|]]; [reflexivity|cbn [peval]; ring|cbn in Lc; lia]. }
    set (g0 := peval c 0) in *.
    assert (G0 : 0 < g0). { pose proof (E 1) as X. rewrite P_at_1, C in X. assert (Y : 0 < rprod n (fun i => 1 - get l i)) by (apply rprod_pos; intros i Hi; specialize (In i Hi); lra). nra. }
    rewrite E, C. rewrite <- Rmult_assoc. apply Rmult_lt_0_compat; [|auto].
    replace n with (k + (n - k))%nat at 2 by lia. rewrite rprod_split.
    replace ((-1) ^ (n - k) * (rprod k (fun i => get l' k - get l i) * rprod (n - k) (fun k0 => get l' k - get l (k + k0))))
      with (rprod k (fun i => get l' k - get l i) * ((-1) ^ (n - k) * rprod (n - k) (fun k0 => get l' k - get l (k + k0)))) by ring.
    rewrite rprod_neg. apply Rmult_lt_0_compat; apply rprod_pos; intros i Hi.
    + pose proof (pmono (S i) k ltac:(lia) ltac:(lia)). rewrite pI in * by lia. lra.
    + pose proof (pmono (S k) (S (k + i)) ltac:(lia) ltac:(lia)). rewrite (pI (k + i)%nat) in * by lia. lra.
Qed.

Lemma lobatto_roots N : exists l : arr, length l = (N - 1)%nat /\ (forall i, (i < N - 1)%nat -> -1 < get l i < 1) /\ (forall i, (i + 1 < N - 1)%nat -> get l i < get l (S i)) /\
  forall i, (i < N - 1)%nat -> P1 N (get l i) = 0.
Proof.
  destruct (legendre_roots N) as (l & Ll & In & Inc & Z0 & _).
  destruct (choose_list (fun k x => get l k < x < get l (S k) /\ P1 N x = 0) (N - 1)) as (l' & Ll' & Hl').
  { intros k Hk. destruct (MVT_cor2 (P N) (P1 N) (get l k) (get l (S k))) as (x & E & Hx); [apply Inc; lia|intros; apply P_der|].
    exists x. split; [auto|]. rewrite !Z0 in E by lia. assert (L : get l k < get l (S k)) by (apply Inc; lia). symmetry in E. replace (0 - 0) with 0 in E by ring. apply Rmult_integral in E. destruct E; [auto|lra]. }
  exists l'. split; [auto|]. split; [|split].
  - intros i Hi. destruct (Hl' i Hi) as [B _]. pose proof (In i ltac:(lia)). pose proof (In (S i) ltac:(lia)). lra.
  - intros i Hi. destruct (Hl' i ltac:(lia)) as [B _]. destruct (Hl' (S i) ltac:(lia)) as [C _]. lra.
  - intros i Hi. apply Hl'. auto.
Qed.

(** Increasing enumerations of the same numbers are the same. *)
Lemma mono_ge (f : nat -> nat) n : (forall i j, (i < j)%nat -> (j < n)%nat -> (f i < f j)%nat) -> forall i, (i < n)%nat -> (i <= f i)%nat.
Proof. intros H i. induction i as [|i IH]; intros Hi; [lia|]. specialize (IH ltac:(lia)). specialize (H i (S i) ltac:(lia) Hi). lia. Qed.
Lemma enum_le (a b : arr) n : (forall i, (i + 1 < n)%nat -> get a i < get a (S i)) -> (forall i, (i + 1 < n)%nat -> get b i < get b (S i)) ->
  (forall i, (i < n)%nat -> exists j, (j < n)%nat /\ get a i = get b j) -> forall i, (i < n)%nat -> get b i <= get a i.
Proof.
  intros Ia Ib H. assert (EX : exists f : list nat, forall i, (i < n)%nat -> (nth i f 0 < n)%nat /\ get a i = get b (nth i f 0%nat)).
  { assert (G : forall m, (m <= n)%nat -> exists f : list nat, length f = m /\ forall i, (i < m)%nat -> (nth i f 0 < n)%nat /\ get a i = get b (nth i f 0%nat)).
    { induction m as [|m IHm]; intros Hm; [exists []; split; [auto|intros; lia]|]. destruct IHm as (f & Lf & Hf); [lia|]. destruct (H m) as (j & Hj & Ej); [lia|]. exists (f ++ [j]). split; [rewrite app_length; cbn; lia|].
      intros i Hi. destruct (Nat.eq_dec i m) as [->|]; [rewrite app_nth2 by lia; rewrite Lf, Nat.sub_diag; auto|rewrite app_nth1 by lia; apply Hf; lia]. }
    destruct (G n ltac:(lia)) as (f & _ & Hf). exists f. auto. }
  destruct EX as (f & Hf). intros i Hi.
  assert (Mo : forall i j, (i < j)%nat -> (j < n)%nat -> (nth i f 0 < nth j f 0)%nat).
  { intros u v Huv Hv. destruct (Hf u ltac:(lia)) as [U1 U2]. destruct (Hf v Hv) as [V1 V2]. pose proof (increasing_lt a n Ia u v Huv Hv) as L. rewrite U2, V2 in L.
    destruct (Nat.lt_ge_cases (nth u f 0%nat) (nth v f 0%nat)); [auto|]. exfalso. destruct (Nat.eq_dec (nth u f 0%nat) (nth v f 0%nat)) as [E|]; [rewrite E in L; lra|].
    pose proof (increasing_lt b n Ib (nth v f 0%nat) (nth u f 0%nat) ltac:(lia) ltac:(lia)). lra. }
  pose proof (mono_ge (fun i => nth i f 0%nat) n Mo i Hi) as G. cbv beta in G. destruct (Hf i Hi) as [F1 F2]. rewrite F2.
  destruct (Nat.eq_dec i (nth i f 0%nat)) as [<-|]; [lra|]. left. apply increasing_lt with (n := n); auto; lia.
Qed.
(** A set of numbers symmetric about 0. *)
Lemma enum_sym (a : arr) n (Q : R -> Prop) : (forall i, (i + 1 < n)%nat -> get a i < get a (S i)) -> (forall i, (i < n)%nat -> Q (get a i)) ->
  (forall x, Q x -> exists i, (i < n)%nat /\ x = get a i) -> (forall x, Q x -> Q (- x)) -> forall i, (i < n)%nat -> get a (n - 1 - i) = - get a i.
Proof.
  intros Ia Qa Al Sy. set (b := map (fun i => - get a (n - 1 - i)) (seq 0 n) : arr).
  assert (Gb : forall i, (i < n)%nat -> get b i = - get a (n - 1 - i)).
  { intros i Hi. unfold b, get. rewrite (nth_indep _ 0 (- get a (n - 1 - 0))) by (rewrite map_length, seq_length; auto). rewrite (map_nth (fun i => - get a (n - 1 - i))), seq_nth by auto. auto. }
  assert (Ib : forall i, (i + 1 < n)%nat -> get b i < get b (S i)).
  { intros i Hi. rewrite !Gb by lia. replace (n - 1 - i)%nat with (S (n - 1 - S i)) by lia. pose proof (Ia (n - 1 - S i)%nat ltac:(lia)). lra. }
  assert (AB : forall i, (i < n)%nat -> exists j, (j < n)%nat /\ get a i = get b j).
  { intros i Hi. destruct (Al (- get a i)) as (j & Hj & E); [apply Sy, Qa; auto|]. exists (n - 1 - j)%nat. split; [lia|]. rewrite Gb by lia. replace (n - 1 - (n - 1 - j))%nat with j by lia. lra. }
  assert (BA : forall i, (i < n)%nat -> exists j, (j < n)%nat /\ get b i = get a j).
  { intros i Hi. rewrite Gb by auto. apply Al, Sy, Qa. lia. }
  intros i Hi. pose proof (enum_le a b n Ia Ib AB i Hi). pose proof (enum_le b a n Ib Ia BA i Hi). rewrite Gb in * by auto. lra.
Qed.
Lemma first_half_neg (a : arr) n : (forall i, (i + 1 < n)%nat -> get a i < get a (S i)) -> (forall i, (i < n)%nat -> get a (n - 1 - i) = - get a i) -> forall i, (i < n / 2)%nat -> get a i < 0.
Proof.
  intros Ia S i Hi. destruct (half_facts n) as (F1 & F2 & _). assert (Hn : (i < n)%nat) by lia. pose proof (S i Hn). pose proof (increasing_lt a n Ia i (n - 1 - i) ltac:(lia) ltac:(lia)). lra.
Qed.

Definition starts_differ (start : nat -> R) (n : nat) : Prop := forall i j, (i < n / 2)%nat -> (j < n / 2)%nat -> start i = start j -> i = j.
(** Some iteration finds the roots. *)
Lemma newton_exists f f' start n (l : arr) : starts_differ start n -> (forall i, (i < n / 2)%nat -> get l i < 0 /\ f (get l i) = 0) -> distinct l (n / 2) ->
  exists newton, newton_roots newton f f' start n.
Proof.
  intros SD Hl Dl.
  assert (EX : exists g : R -> res R, forall i, (i < n / 2)%nat -> g (start i) = Ok (get l i)).
  { assert (G : forall m, (m <= n / 2)%nat -> exists g : R -> res R, forall i, (i < m)%nat -> g (start i) = Ok (get l i)).
    { induction m as [|m IH]; intros Hm; [exists (fun _ => UB); intros; lia|]. destruct IH as (g & Hg); [lia|].
      exists (fun x => if Req_EM_T x (start m) then Ok (get l m) else g x). intros i Hi. destruct (Req_EM_T (start i) (start m)) as [E|E].
      - assert (i = m) by (apply SD; [lia|lia|auto]). subst. auto.
      - apply Hg. destruct (Nat.eq_dec i m) as [->|]; [contradiction|lia]. }
    apply (G (n / 2)%nat). auto. }
  destruct EX as (g & Hg). exists (fun _ _ x => g x). split.
  - intros i Hi. exists (get l i). split; [auto|]. apply Hl. auto.
  - intros i j r Hi Hj A B. rewrite Hg in A, B by auto. injection A as A. injection B as B. apply Dl; auto. congruence.
Qed.
Lemma cos_inj a b : 0 <= a <= PI -> 0 <= b <= PI -> cos a = cos b -> a = b.
Proof.
  intros Ha Hb E. destruct (Rtotal_order a b) as [L|[|L]]; [|auto|]; exfalso.
  - assert (cos b < cos a) by (apply cos_decreasing_1; lra). lra.
  - assert (cos a < cos b) by (apply cos_decreasing_1; lra). lra.
Qed.
Lemma gauss_starts n : starts_differ (gauss_start n) n.
Proof.
  intros i j Hi Hj E. destruct (half_facts n) as (F1 & F2 & _). assert (Hn : (1 <= n)%nat) by lia. assert (1 <= INR n) by (apply (le_INR 1); auto). pose proof PI_RGT_0.
  assert (B : forall i, (i < n / 2)%nat -> 0 <= INR (2 * n - 2 * i - 1) * (PI / 2) / INR n <= PI).
  { intros k Hk. pose proof (pos_INR (2 * n - 2 * k - 1)). assert (U : INR (2 * n - 2 * k - 1) <= 2 * INR n) by (replace (2 * INR n) with (INR (2 * n)) by (rewrite mult_INR; cbn; ring); apply le_INR; lia). split.
    - apply Rmult_le_pos; [apply Rmult_le_pos; lra|]. left. apply Rinv_0_lt_compat. lra.
    - apply (Rmult_le_reg_r (INR n)); [lra|]. replace (INR (2 * n - 2 * k - 1) * (PI / 2) / INR n * INR n) with (INR (2 * n - 2 * k - 1) * (PI / 2)) by (field; lra). nra. }
  unfold gauss_start in E. apply cos_inj in E; [|apply B; auto|apply B; auto].
  assert (X : INR (2 * n - 2 * i - 1) = INR (2 * n - 2 * j - 1)). { apply (Rmult_eq_reg_r (PI / 2 * / INR n)); [unfold Rdiv in *; lra|]. apply Rgt_not_eq, Rmult_lt_0_compat; [lra|apply Rinv_0_lt_compat; lra]. }
  apply INR_eq in X. lia.
Qed.
Lemma lobatto_starts n : starts_differ (lobatto_start n) n.
Proof.
  intros i j Hi Hj E. destruct (half_facts n) as (F1 & F2 & _). assert (1 <= INR (n + 1)) by (apply (le_INR 1); lia). pose proof PI_RGT_0.
  assert (B : forall i, (i < n / 2)%nat -> 0 <= INR (n - i) * PI / INR (n + 1) <= PI).
  { intros k Hk. pose proof (pos_INR (n - k)). assert (U : INR (n - k) <= INR (n + 1)) by (apply le_INR; lia). split.
    - apply Rmult_le_pos; [apply Rmult_le_pos; lra|]. left. apply Rinv_0_lt_compat. lra.
    - apply (Rmult_le_reg_r (INR (n + 1))); [lra|]. replace (INR (n - k) * PI / INR (n + 1) * INR (n + 1)) with (INR (n - k) * PI) by (field; lra). nra. }
  unfold lobatto_start in E. apply cos_inj in E; [|apply B; auto|apply B; auto].
  assert (X : INR (n - i) = INR (n - j)). { apply (Rmult_eq_reg_r (PI * / INR (n + 1))); [unfold Rdiv in *; lra|]. apply Rgt_not_eq, Rmult_lt_0_compat; [lra|apply Rinv_0_lt_compat; lra]. }
  apply INR_eq in X. lia.
Qed.
Lemma gauss_newton_exists n : (1 <= n)%nat -> exists newton, newton_roots newton (legendre n) (legendre_d1 n) (gauss_start n) n.
Proof.
  intros Hn. destruct (legendre_roots n) as (l & Ll & In & Inc & Z0 & _). pose proof (increasing_distinct l n Inc) as D.
  apply (newton_exists _ _ _ _ l); [apply gauss_starts| |].
  - assert (Sy : forall i, (i < n)%nat -> get l (n - 1 - i) = - get l i).
    { apply (enum_sym l n (fun x => P n x = 0)); auto.
      - intros x Hx. apply (all_roots l n (P n)); auto; [apply ip_P|exists 1; rewrite P_at_1; lra].
      - intros x Hx. rewrite (proj1 (P_opp n x)), Hx. ring. }
    intros i Hi. destruct (half_facts n) as (F1 & F2 & _). split; [apply (first_half_neg l n); auto|]. rewrite legendre_P. apply Z0. lia.
  - intros i j Hi Hj. destruct (half_facts n) as (F1 & F2 & _). apply D; lia.
Qed.
Lemma P1_nz N : (1 <= N)%nat -> P1 N 1 <> 0.
Proof. intros H. rewrite P1_at_1. assert (1 <= INR N) by (apply (le_INR 1); auto). nra. Qed.
Lemma lobatto_all N (l : arr) : (1 <= N)%nat -> distinct l (N - 1) -> (forall i, (i < N - 1)%nat -> P1 N (get l i) = 0) -> forall x, P1 N x = 0 -> exists i, (i < N - 1)%nat /\ x = get l i.
Proof.
  intros HN D Z0 x Hx. apply (all_roots l (N - 1) (P1 N)); auto; [replace (N - 1 + 1)%nat with N by lia; apply ip_P1|exists 1; apply P1_nz; auto].
Qed.
Lemma lobatto_newton_exists n : (2 <= n)%nat -> exists newton, newton_roots newton (legendre_d1 (n - 1)) (legendre_d2 (n - 1)) (lobatto_start (n - 2)) (n - 2).
Proof.
  intros Hn. destruct (lobatto_roots (n - 1)) as (l & Ll & In & Inc & Z0). replace (n - 1 - 1)%nat with (n - 2)%nat in * by lia. pose proof (increasing_distinct l (n - 2) Inc) as D.
  apply (newton_exists _ _ _ _ l); [apply lobatto_starts| |].
  - assert (Sy : forall i, (i < n - 2)%nat -> get l (n - 2 - 1 - i) = - get l i).
    { apply (enum_sym l (n - 2) (fun x => P1 (n - 1) x = 0)); auto.
      - intros x Hx. replace (n - 2)%nat with (n - 1 - 1)%nat by lia. apply lobatto_all; auto; try lia; replace (n - 1 - 1)%nat with (n - 2)%nat by lia; auto.
      - intros x Hx. rewrite P1_opp, Hx. ring. }
    intros i Hi. destruct (half_facts (n - 2)) as (F1 & F2 & _). split; [apply (first_half_neg l (n - 2)); auto|]. rewrite legendre_d1_P by lia. apply Z0. lia.
  - intros i j Hi Hj. destruct (half_facts (n - 2)) as (F1 & F2 & _). apply D; lia.
Qed.
Lemma P1_root_in N x : (1 <= N)%nat -> P1 N x = 0 -> -1 < x < 1.
Proof.
  intros HN Hx. destruct (lobatto_roots N) as (l & Ll & In & Inc & Z0). destruct (lobatto_all N l HN (increasing_distinct l (N - 1) Inc) Z0 x Hx) as (i & Hi & ->). auto.
Qed.

(** The tabulated nodes. *)
Lemma table_near n c v : (2 <= n <= 24)%nat -> (length c <= 2 * n - 2)%nat -> integral (peval c) v ->
  (forall i, (i < n)%nat -> 0 < lobatto_weight n (get (gll_list n) i)) /\
  Rabs (rsum n (fun i => lobatto_weight n (get (gll_list n) i) * peval c (get (gll_list n) i)) - v) <= 2 / 10 ^ 11 * norm1 c.
Proof.
  intros Hn Lc Iv. destruct (gll_roots n Hn) as (rt & Lr & Inc & Near & All).
  destruct (table_parts n Hn) as (_ & Lg & Gz & Ginc & _).
  assert (G0 : get (gll_list n) 0 = -1). { rewrite Gz by lia. rewrite zform_0. cbn [zval]. ring. }
  assert (G1 : get (gll_list n) (n - 1) = 1). { rewrite Gz by lia. rewrite zform_last by lia. cbn [zval]. ring. }
  set (r := (-1 :: rt ++ [1]) : arr).
  assert (R0 : get r 0 = -1) by reflexivity.
  assert (RI : forall i, (i < n - 2)%nat -> get r (S i) = get rt i). { intros i Hi. unfold r, get. cbn [nth]. rewrite app_nth1 by lia. auto. }
  assert (R1 : get r (n - 1) = 1). { replace (n - 1)%nat with (S (n - 2)) by lia. unfold r, get. cbn [nth]. rewrite app_nth2 by lia. rewrite Lr, Nat.sub_diag. auto. }
  assert (Rz : forall i, (1 <= i < n - 1)%nat -> P1 (n - 1) (get r i) = 0).
  { intros i Hi. destruct i as [|i]; [lia|]. rewrite RI by lia. apply All. exists i. split; [lia|auto]. }
  assert (Rin : forall i, (1 <= i < n - 1)%nat -> -1 < get r i < 1) by (intros i Hi; apply (P1_root_in (n - 1)); [lia|apply Rz; auto]).
  assert (Rinc : forall i, (i + 1 < n)%nat -> get r i < get r (S i)).
  { intros i Hi. destruct i as [|i].
    - rewrite R0. destruct (Nat.eq_dec 1 (n - 1)) as [E|E]; [rewrite E, R1; lra|]. apply Rin. lia.
    - destruct (Nat.eq_dec (S (S i)) (n - 1)) as [E|E]; [rewrite E, R1; apply Rin; lia|]. rewrite !RI by lia. apply Inc. lia. }
  assert (BD : forall (a : arr), get a 0 = -1 -> get a (n - 1) = 1 -> (forall i, (i + 1 < n)%nat -> get a i < get a (S i)) -> forall i, (i < n)%nat -> -1 <= get a i <= 1).
  { intros a A0 A1 Ai i Hi. split.
    - destruct i as [|i]; [lra|]. rewrite <- A0. left. apply increasing_lt with (n := n); auto; lia.
    - destruct (Nat.eq_dec i (n - 1)) as [->|]; [lra|]. rewrite <- A1. left. apply increasing_lt with (n := n); auto; lia. }
  assert (HM : INR (n - 1) * INR n <= 552).
  { assert (INR (n - 1) <= 23) by (replace 23 with (INR 23) by (cbn; ring); apply le_INR; lia). assert (INR n <= 24) by (replace 24 with (INR 24) by (cbn; ring); apply le_INR; lia).
    pose proof (pos_INR n). pose proof (pos_INR (n - 1)). nra. }
  set (M := INR (n - 1) * INR n) in *. assert (0 <= M) by (unfold M; apply Rmult_le_pos; apply pos_INR).
  assert (T17 : 0 < / 10 ^ 17) by (apply Rinv_0_lt_compat, pow_lt; lra). assert (M2 : M * M <= 304704) by nra.
  assert (NE : (forall i, (i < n)%nat -> 0 < lobatto_weight n (get (gll_list n) i)) /\
    Rabs (rsum n (fun i => lobatto_weight n (get (gll_list n) i) * peval c (get (gll_list n) i)) - v) <= 4 * (M * M + INR n) * / 10 ^ 17 * norm1 c);
    [|split; [apply NE|eapply Rle_trans; [apply NE|]]].
  - apply (near_exact n (gll_list n) r ltac:(lia) (increasing_distinct r n Rinc) R0 R1 Rz (/ 10 ^ 17)) with (c := c); auto.
    + intros i Hi. destruct i as [|i]; [rewrite R0, G0; replace (-1 - -1) with 0 by ring; rewrite Rabs_R0; lra|].
    destruct (Nat.eq_dec (S i) (n - 1)) as [E|E]; [rewrite E, R1, G1; replace (1 - 1) with 0 by ring; rewrite Rabs_R0; lra|].
    rewrite RI by lia. replace (S i) with (i + 1)%nat by lia. apply Near. lia.
    + fold M. replace (/ 2) with (5 * 10 ^ 16 * / 10 ^ 17) by (field; lra || (apply pow_nonzero; lra)). apply Rmult_le_compat_r; [lra|]. lra.
  - pose proof (norm1_nonneg c). apply Rmult_le_compat_r; [auto|].
    assert (INR n <= 24) by (replace 24 with (INR 24) by (cbn; ring); apply le_INR; lia).
    replace (2 / 10 ^ 11) with (2 * 10 ^ 6 * / 10 ^ 17) by field. apply Rmult_le_compat_r; [lra|]. lra.
Qed.

(** Positive weights. *)
Lemma P_no_common n x : P n x = 0 -> P (S n) x = 0 -> False.
Proof.
  induction n as [|n IH]; intros A B; [rewrite P_0 in A; lra|]. apply IH; auto. rewrite P_SS, A in B. pose proof (pos_INR n).
  assert (X : ((2 * INR n + 3) * x * 0 - (INR n + 1) * P n x) / (INR n + 2) * (INR n + 2) = - ((INR n + 1) * P n x)) by (field; lra).
  rewrite B in X. assert (Y : (INR n + 1) * P n x = 0) by lra. apply Rmult_integral in Y. destruct Y; [lra|auto].
Qed.
Lemma gauss_weight_pos n x : (1 <= n)%nat -> P n x = 0 -> 0 < gauss_weight n x.
Proof.
  intros Hn Hx. destruct (legendre_roots n) as (l & Ll & In & Inc & Z0 & _).
  destruct (all_roots l n (P n) x) as (i & Hi & ->); auto; [apply increasing_distinct; auto|apply ip_P|exists 1; rewrite P_at_1; lra|].
  specialize (In i Hi). assert (NZ : P (n + 1) (get l i) <> 0) by (rewrite Nat.add_1_r; intros E; exact (P_no_common n _ Hx E)).
  assert (Np : 0 < INR (n + 1)) by (apply (lt_INR 0); lia). unfold gauss_weight. apply Rdiv_lt_0_compat; [nra|].
  assert (Q : INR (n + 1) * P (n + 1) (get l i) <> 0) by (apply Rmult_integral_contrapositive; split; [lra|auto]).
  set (q := INR (n + 1) * P (n + 1) (get l i)) in *. destruct (Rtotal_order q 0) as [|[|]]; [nra|contradiction|nra].
Qed.
Lemma lobatto_weight_pos n x : (2 <= n)%nat -> P (n - 1) x <> 0 -> 0 < lobatto_weight n x.
Proof.
  intros Hn Hx. assert (0 < INR (n - 1)) by (apply (lt_INR 0); lia). assert (0 < INR n) by (apply (lt_INR 0); lia). unfold lobatto_weight.
  apply Rdiv_lt_0_compat; [lra|]. apply Rmult_lt_0_compat; [nra|]. set (q := P (n - 1) x) in *. destruct (Rtotal_order q 0) as [|[|]]; [nra|contradiction|nra].
Qed.
