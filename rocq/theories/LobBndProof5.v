(** lob_bnd_lin_3, minmax, lob_bnd_d. *)
From Verif Require Import Base BaseLemmas Poly PolySpec PolyProof1 PolyProof2 LobBnd LobBndSpec LobBndProof1 LobBndProof2 LobBndProof3 LobBndProof4.
From Coq Require Import Reals Lra Psatz.
Open Scope R_scope.

Section Dim3.
Variable dr ds dt : arr.
Variable nr mr ns ms nt mt : nat.
Hypothesis BR : bound_data dr nr mr.
Hypothesis BS : bound_data ds ns ms.
Hypothesis BT : bound_data dt nt mt.
Notation hr := (point dr nr).
Notation hs := (point ds ns).
Notation ht := (point dt nt).

Definition sum3 (w : arr) (b p k l q : nat) (r s t : R) : R :=
  rsum mr (fun i => hat hr k r i * rsum ms (fun j => hat hs l s j * rsum mt (fun o => hat ht q t o * grid_3 w b ms mt p i j o))).
Lemma lerp_sum3 w b p k l q r s t : in_cell hr mr k r -> in_cell hs ms l s -> in_cell ht mt q t ->
  lerp hr k (fun i => lerp hs l (fun j => lerp ht q (grid_3 w b ms mt p i j) t) s) r = sum3 w b p k l q r s t.
Proof.
  intros C C' C''. rewrite (lerp_hat hr mr k r C (bd_inc _ _ _ BR k ltac:(destruct C; lia))). unfold sum3. apply rsum_ext. intros i _. f_equal.
  rewrite (lerp_hat hs ms l s C' (bd_inc _ _ _ BS l ltac:(destruct C'; lia))). apply rsum_ext. intros j _. f_equal.
  rewrite (lerp_hat ht mt q t C'' (bd_inc _ _ _ BT q ltac:(destruct C''; lia))). auto.
Qed.

(** The plane kt at bs. *)
Definition plane_ok (u w : arr) (bs kt uo : nat) : Prop :=
  (forall c, (c < mr * ms)%nat -> cl w bs (mr * ms) kt c <= cu w bs (mr * ms) kt c) /\
  forall k l r s, in_cell hr mr k r -> in_cell hs ms l s ->
    sum2 dr ds nr mr ns ms w (bs + 2 * (mr * ms) * kt) 0 k l r s <= poly_2 dr nr ds ns u uo r s <= sum2 dr ds nr mr ns ms w (bs + 2 * (mr * ms) * kt) 1 k l r s.
Lemma plane_keep u w w' bs kt uo X : plane_ok u w bs kt uo -> keeps w w' X -> (forall k, rng (bs + 2 * (mr * ms) * kt) (2 * (mr * ms)) k -> ~ X k) -> plane_ok u w' bs kt uo.
Proof.
  intros [A B] [_ O] D. split.
  - intros c Hc. unfold cl, cu in *. rewrite !O by (apply D; unfold rng; nia). auto.
  - intros k l r s C C'. specialize (B k l r s C C').
    assert (G : forall p, (p < 2)%nat -> sum2 dr ds nr mr ns ms w' (bs + 2 * (mr * ms) * kt) p k l r s = sum2 dr ds nr mr ns ms w (bs + 2 * (mr * ms) * kt) p k l r s).
    { intros p Hp. unfold sum2. apply rsum_ext. intros i Hi. f_equal. apply rsum_ext. intros j Hj. f_equal. unfold grid_2. pose proof (row_lt i j ms mr Hi Hj). apply O, D. unfold rng. lia. }
    rewrite !G by lia. exact B.
Qed.

Lemma planes_ok u uo w b bs a : (b + 2 * (mr * (ns * nt)) <= length w)%nat -> (bs + 2 * (mr * ms) * nt <= length w)%nat -> (a + 2 * mr <= length w)%nat ->
  (b + 2 * (mr * (ns * nt)) <= bs \/ bs + 2 * (mr * ms) * nt <= b)%nat -> (b + 2 * (mr * (ns * nt)) <= a \/ a + 2 * mr <= b)%nat -> (a + 2 * mr <= bs \/ bs + 2 * (mr * ms) * nt <= a)%nat ->
  (forall j, (j < ns * nt)%nat -> row_ok dr nr mr u w b j (uo + nr * j)) ->
  exists w', foldM (fun '(w, br_, bs_) (_ : nat) =>
          w <- lob_bnd_ext w bs_ ds 0 (0 + ns) (0 + ns + 2 * ns) (0 + ns + 2 * ns + ms + 2 * ns * ms) ns ms br_ mr a ;;
          Ok (w, (br_ + 2 * (mr * ns))%nat, (bs_ + 2 * (mr * ms))%nat)) (seq 0 nt) (w, b, bs) = Ok (w', (b + 2 * (mr * ns) * nt)%nat, (bs + 2 * (mr * ms) * nt)%nat) /\
    keeps w w' (fun k => rng bs (2 * (mr * ms) * nt) k \/ rng a (2 * mr) k) /\
    forall kt, (kt < nt)%nat -> plane_ok u w' bs kt (uo + nr * ns * kt).
Proof.
  intros H1 H2 H3 D1 D2 D3 HR.
  lazymatch goal with |- context [foldM ?f (seq 0 nt) ?s0] =>
    destruct (foldM_inv (fun i s => snd s = (bs + 2 * (mr * ms) * i)%nat /\ snd (fst s) = (b + 2 * (mr * ns) * i)%nat /\
       keeps w (fst (fst s)) (fun k => rng bs (2 * (mr * ms) * nt) k \/ rng a (2 * mr) k) /\
       forall kt, (kt < i)%nat -> plane_ok u (fst (fst s)) bs kt (uo + nr * ns * kt)) f nt s0) as ([[w' b'] u'] & E & A & B & C & D) end.
  - cbn [fst snd]. split; [lia|]. split; [lia|]. split; [apply keeps_refl|]. intros; lia.
  - intros i [[s b'] u'] Hi (A & B & C & D). cbn [fst snd] in *. subst b' u'. assert (Ls : length s = length w) by apply C.
    assert (I1 : ((i + 1) * (mr * ms) <= nt * (mr * ms))%nat) by nia. assert (I2 : ((i + 1) * (mr * ns) <= nt * (mr * ns))%nat) by nia.
    assert (I3 : (nt * (mr * ns) = mr * (ns * nt))%nat) by lia.
    assert (HR' : forall j, (j < ns)%nat -> row_ok dr nr mr u s (b + 2 * (mr * ns) * i) j (uo + nr * ns * i + nr * j)).
    { intros j Hj. assert (J : (i * ns + j < ns * nt)%nat) by nia. specialize (HR _ J). assert (J1 : ((i * ns + j + 1) * mr <= mr * (ns * nt))%nat) by nia.
      pose proof (row_keep dr nr mr u _ _ _ _ _ _ HR C) as K.
      assert (K' : row_ok dr nr mr u s b (i * ns + j) (uo + nr * (i * ns + j))) by (apply K; intros k; unfold rng; nia). clear K.
      replace (uo + nr * ns * i + nr * j)%nat with (uo + nr * (i * ns + j))%nat by nia.
      assert (EC : forall c, cl s (b + 2 * (mr * ns) * i) mr j c = cl s b mr (i * ns + j) c /\ cu s (b + 2 * (mr * ns) * i) mr j c = cu s b mr (i * ns + j) c).
      { intros c. unfold cl, cu. split; f_equal; nia. }
      destruct K' as [K1 K2]. split.
      - intros c Hc. destruct (EC c) as [-> ->]. auto.
      - intros k r Cr. specialize (K2 k r Cr).
        rewrite (rsum_ext mr _ (fun c => hat hr k r c * cl s b mr (i * ns + j) c)) by (intros c _; destruct (EC c) as [-> _]; auto).
        rewrite (rsum_ext mr (fun c => hat hr k r c * cu s (b + 2 * (mr * ns) * i) mr j c) (fun c => hat hr k r c * cu s b mr (i * ns + j) c)) by (intros c _; destruct (EC c) as [_ ->]; auto).
        exact K2. }
    destruct (ext_2 dr ds nr mr ns ms BR BS u (uo + nr * ns * i) s (bs + 2 * (mr * ms) * i) (b + 2 * (mr * ns) * i) a) as (s' & E & K & L & B); auto; try (rewrite ?Ls; nia).
    rewrite E. cbn [bind]. eexists. split; [reflexivity|]. cbn [fst snd]. split; [lia|]. split; [lia|]. split.
    + eapply keeps_trans; [exact C|exact K|auto|]. intros k. unfold rng. nia.
    + intros kt Hk. destruct (Nat.eq_dec kt i) as [->|].
      * split.
        -- intros c Hc. assert (ms <> 0)%nat by nia. pose proof (Nat.div_mod c ms ltac:(auto)) as DM. pose proof (Nat.mod_upper_bound c ms ltac:(auto)) as MM.
           assert (c / ms < mr)%nat by (apply Nat.div_lt_upper_bound; lia). specialize (L (c / ms)%nat (c mod ms)%nat ltac:(auto) ltac:(auto)).
           unfold grid_2 in L. unfold cl, cu. replace (bs + (2 * (i * (mr * ms) + c) + 0))%nat with (bs + 2 * (mr * ms) * i + (2 * (c / ms * ms + c mod ms) + 0))%nat by lia.
           replace (bs + (2 * (i * (mr * ms) + c) + 1))%nat with (bs + 2 * (mr * ms) * i + (2 * (c / ms * ms + c mod ms) + 1))%nat by lia. exact L.
        -- exact B.
      * eapply plane_keep; [apply D; lia|exact K|]. intros k. unfold rng. assert ((kt + 1) * (mr * ms) <= i * (mr * ms))%nat by nia. nia.
  - cbn [fst snd] in *. subst b' u'. exists w'. auto.
Qed.

(** The planes given, lob_bnd_ext bounds the polynomial in three variables. *)
Lemma ext_3 u uo w b bs a : (b + 2 * (mr * ms * mt) <= length w)%nat -> (bs + 2 * (nt * (mr * ms)) <= length w)%nat -> (a + 2 * (mr * ms) <= length w)%nat ->
  (b + 2 * (mr * ms * mt) <= bs \/ bs + 2 * (nt * (mr * ms)) <= b)%nat -> (b + 2 * (mr * ms * mt) <= a \/ a + 2 * (mr * ms) <= b)%nat -> (a + 2 * (mr * ms) <= bs \/ bs + 2 * (nt * (mr * ms)) <= a)%nat ->
  (forall kt, (kt < nt)%nat -> plane_ok u w bs kt (uo + nr * ns * kt)) ->
  exists w', lob_bnd_ext w b dt 0 (0 + nt) (0 + nt + 2 * nt) (0 + nt + 2 * nt + mt + 2 * nt * mt) nt mt bs (mr * ms) a = Ok w' /\
    keeps w w' (fun k => rng b (2 * (mr * ms * mt)) k \/ rng a (2 * (mr * ms)) k) /\
    forall k l q r s t, in_cell hr mr k r -> in_cell hs ms l s -> in_cell ht mt q t ->
      sum3 w' b 0 k l q r s t <= poly_3 dr nr ds ns dt nt u uo r s t <= sum3 w' b 1 k l q r s t.
Proof.
  intros H1 H2 H3 D1 D2 D3 HP. destruct (ext_use dt nt mt w b bs (mr * ms) a BT) as (w' & E & K & _ & B); auto.
  { intros j c Hj Hc. apply (proj1 (HP j Hj)). auto. }
  exists w'. split; [exact E|]. split; [exact K|]. intros k l q r s t C C' C''. rewrite poly_3_rows.
  assert (Wr : wts mr (hat hr k r)) by (apply hat_wts; auto; apply (bd_inc _ _ _ BR); destruct C; lia).
  assert (Ws : wts ms (hat hs l s)) by (apply hat_wts; auto; apply (bd_inc _ _ _ BS); destruct C'; lia).
  specialize (B (fun c => hat hr k r (c / ms)%nat * hat hs l s (c mod ms)%nat) (fun kt => poly_2 dr nr ds ns u (uo + nr * ns * kt) r s) t q C'' (wts_prod mr ms _ _ Wr Ws)).
  assert (G : forall p, rsum (mr * ms) (fun i => hat hr k r (i / ms)%nat * hat hs l s (i mod ms)%nat * rsum mt (fun j => hat ht q t j * grid_2 w' b mt p i j)) = sum3 w' b p k l q r s t).
  { intros p. rewrite (wts_prod_sum mr ms (hat hr k r) (hat hs l s) (fun c => rsum mt (fun j => hat ht q t j * grid_2 w' b mt p c j))). reflexivity. }
  rewrite !G in B. apply B. clear B G. intros j Hj. destruct (HP j Hj) as [_ P]. specialize (P k l r s C C').
  rewrite (wts_prod_sum mr ms (hat hr k r) (hat hs l s) (fun c => cl w bs (mr * ms) j c)), (wts_prod_sum mr ms (hat hr k r) (hat hs l s) (fun c => cu w bs (mr * ms) j c)).
  assert (X : forall p, rsum mr (fun i => hat hr k r i * rsum ms (fun k0 => hat hs l s k0 * get w (bs + (2 * (j * (mr * ms) + (i * ms + k0)) + p)))) = sum2 dr ds nr mr ns ms w (bs + 2 * (mr * ms) * j) p k l r s).
  { intros p. unfold sum2. apply rsum_ext. intros i _. f_equal. apply rsum_ext. intros k0 _. f_equal. unfold grid_2. f_equal. nia. }
  unfold cl, cu. rewrite !X. exact P.
Qed.

Lemma lin_3_ok un : (ns * nt <= ms * mt)%nat -> forall w b u uo work, (b + 2 * (mr * ms * mt) * un <= length w)%nat -> (work + 2 * (mr * ms) + 2 * (mr * ms) * nt <= length w)%nat ->
  (b + 2 * (mr * ms * mt) * un <= work \/ work + 2 * (mr * ms) + 2 * (mr * ms) * nt <= b)%nat -> (uo + nr * ns * nt * un <= length u)%nat ->
  exists w', lob_bnd_lin_3 w b dr nr mr ds ns ms dt nt mt u uo un work = Ok w' /\
    keeps w w' (fun k => rng b (2 * (mr * ms * mt) * un) k \/ rng work (2 * (mr * ms) + 2 * (mr * ms) * nt) k) /\
    forall e k l q r s t, (e < un)%nat -> in_cell hr mr k r -> in_cell hs ms l s -> in_cell ht mt q t ->
      sum3 w' (b + 2 * (mr * ms * mt) * e) 0 k l q r s t <= poly_3 dr nr ds ns dt nt u (uo + nr * ns * nt * e) r s t <= sum3 w' (b + 2 * (mr * ms * mt) * e) 1 k l q r s t.
Proof.
  intros HS. assert (HS' : (mr * (ns * nt) <= mr * ms * mt)%nat) by nia. assert (Hms : (1 <= ms)%nat) by (pose proof (bd_m _ _ _ BS); lia).
  assert (Hmm : (mr <= mr * ms)%nat) by nia.
  induction un as [|un IH]; intros w b u uo work Hw Hk D Hu.
  - exists w. split; [reflexivity|]. split; [apply keeps_refl|]. intros; lia.
  - cbn [lob_bnd_lin_3]. set (M := (mr * ms * mt)%nat) in *. assert (HM : (2 * M * S un = 2 * M + 2 * M * un)%nat) by lia. assert (HU : (nr * ns * nt * S un = nr * (ns * nt) + nr * ns * nt * un)%nat) by nia.
    destruct (rows_ok dr nr mr BR u w b uo (ns * nt)) as (w1 & E1 & K1 & R1); [nia|lia|].
    rewrite E1. cbn [bind]. assert (L1 : length w1 = length w) by apply K1.
    replace (work + 2 * mr * ms)%nat with (work + 2 * (mr * ms))%nat by lia.
    destruct (planes_ok u uo w1 b (work + 2 * (mr * ms)) work) as (w2 & E2 & K2 & R2); try (rewrite ?L1; lia); auto.
    rewrite E2. cbn [bind]. assert (L2 : length w2 = length w) by (destruct K2; lia).
    destruct (ext_3 u uo w2 b (work + 2 * (mr * ms)) work) as (w3 & E3 & K3 & B3); fold M; try (rewrite ?L2; lia); auto. fold M in K3.
    rewrite E3. cbn [bind]. assert (L3 : length w3 = length w) by (destruct K3; lia).
    replace (uo + nr * (ns * nt))%nat with (uo + nr * ns * nt)%nat by lia.
    destruct (IH w3 (b + 2 * M)%nat u (uo + nr * ns * nt)%nat work) as (w4 & E4 & K4 & B4); try (rewrite ?L3; lia).
    exists w4. split; [exact E4|]. split.
    + eapply keeps_trans; [exact K1| | |intros k h; exact h]; [|unfold rng; intros; lia]. eapply keeps_trans; [exact K2| | |intros k h; exact h]; [|unfold rng; intros; lia].
      eapply keeps_trans; [exact K3|exact K4| |]; unfold rng; intros; lia.
    + intros [|e] k l q r s t He C C' C''.
      * rewrite !Nat.mul_0_r, !Nat.add_0_r. specialize (B3 k l q r s t C C' C'').
        assert (G : forall p, (p < 2)%nat -> sum3 w4 b p k l q r s t = sum3 w3 b p k l q r s t).
        { intros p Hp. unfold sum3. apply rsum_ext. intros i Hi. f_equal. apply rsum_ext. intros j Hj. f_equal. apply rsum_ext. intros o Ho. f_equal. unfold grid_3. destruct K4 as [_ O].
          pose proof (row_lt i j ms mr Hi Hj) as J1. pose proof (row_lt (i * ms + j) o mt (mr * ms) J1 Ho). apply O. unfold rng. fold M in H. lia. }
        rewrite !G by lia. exact B3.
      * specialize (B4 e k l q r s t ltac:(lia) C C' C''). replace (uo + nr * ns * nt * S e)%nat with (uo + nr * ns * nt + nr * ns * nt * e)%nat by lia.
        replace (b + 2 * M * S e)%nat with (b + 2 * M + 2 * M * e)%nat by lia. exact B4.
Qed.
End Dim3.

(** minmax. *)
Lemma minmax_ok w b m : (1 <= m)%nat -> (b + 2 * m <= length w)%nat -> exists mn mx, minmax w b m = Ok (mn, mx) /\
  (forall j, (j < m)%nat -> mn <= get w (b + 2 * j) /\ get w (b + (2 * j + 1)) <= mx) /\
  (exists j, (j < m)%nat /\ mn = get w (b + 2 * j)) /\ exists j, (j < m)%nat /\ mx = get w (b + (2 * j + 1)).
Proof.
  intros Hm Hw. unfold minmax. rewrite !rd_get by lia. cbn [bind].
  lazymatch goal with |- context [foldM ?f (seq 0 (m - 1)) ?s0] =>
    destruct (foldM_inv (fun i s => snd s = (b + 2 + 2 * i)%nat /\ (forall j, (j < i + 1)%nat -> fst (fst s) <= get w (b + 2 * j) /\ get w (b + (2 * j + 1)) <= snd (fst s)) /\
      (exists j, (j < m)%nat /\ fst (fst s) = get w (b + 2 * j)) /\ exists j, (j < m)%nat /\ snd (fst s) = get w (b + (2 * j + 1))) f (m - 1)%nat s0) as ([[mn mx] b'] & E & _ & A & B & C) end.
  - cbn [fst snd]. split; [lia|]. split; [|split; exists 0%nat; (split; [lia|]); f_equal; lia]. intros j Hj. replace j with 0%nat by lia.
    replace (b + 2 * 0)%nat with b by lia. replace (b + (2 * 0 + 1))%nat with (b + 1)%nat by lia. lra.
  - intros i [[mn mx] b'] Hi (E & A & B & C). cbn [fst snd] in *. subst b'. rewrite !rd_get by lia. cbn [bind]. eexists. split; [reflexivity|]. cbn [fst snd].
    split; [lia|]. replace (b + 2 + 2 * i)%nat with (b + 2 * (i + 1))%nat by lia. replace (b + 2 * (i + 1) + 1)%nat with (b + (2 * (i + 1) + 1))%nat by lia.
    split; [|split].
    + intros j Hj. destruct (Nat.eq_dec j (i + 1)) as [->|].
      * destruct (Rlt_dec _ _), (Rgt_dec _ _); lra.
      * specialize (A j ltac:(lia)). destruct (Rlt_dec _ _), (Rgt_dec _ _); lra.
    + destruct (Rlt_dec _ _); [exists (i + 1)%nat; split; [lia|auto]|auto].
    + destruct (Rgt_dec _ _); [exists (i + 1)%nat; split; [lia|auto]|auto].
  - rewrite E. cbn [bind]. cbn [fst snd] in *. exists mn, mx. split; [auto|]. split; [intros j Hj; apply A; lia|auto].
Qed.

(** Every number in [-1,1] is in a cell. *)
Lemma cell_of d n m x : bound_data d n m -> -1 <= x <= 1 -> exists k, in_cell (point d n) m k x.
Proof.
  intros BD Hx. pose proof (bd_m _ _ _ BD) as Hm. rewrite <- (bd_first _ _ _ BD) in Hx. rewrite <- (bd_last _ _ _ BD) in Hx.
  assert (G : forall j, (1 <= j <= m - 1)%nat -> point d n 0 <= x <= point d n j -> exists k, in_cell (point d n) m k x).
  { induction j as [|j IH]; intros Hj Hxj; [lia|]. destruct (Nat.eq_dec j 0) as [->|Hj0].
    - exists 0%nat. split; [lia|auto].
    - destruct (Rle_lt_dec x (point d n j)) as [H|H]; [apply IH; [lia|lra]|]. exists j. split; [lia|]. rewrite Nat.add_1_r. lra. }
  apply (G (m - 1)%nat); [lia|auto].
Qed.
Lemma wts_ge m g v c : wts m g -> (forall j, (j < m)%nat -> c <= v j) -> c <= rsum m (fun j => g j * v j).
Proof.
  intros [G1 G2] H. replace c with (rsum m (fun j => g j * c)) by (rewrite (rsum_ext m _ (fun j => c * g j)), rsum_scal, G2 by (intros; ring); ring).
  apply rsum_le. intros j Hj. apply Rmult_le_compat_l; auto.
Qed.
Lemma wts_le m g v c : wts m g -> (forall j, (j < m)%nat -> v j <= c) -> rsum m (fun j => g j * v j) <= c.
Proof.
  intros [G1 G2] H. replace c with (rsum m (fun j => g j * c)) by (rewrite (rsum_ext m _ (fun j => c * g j)), rsum_scal, G2 by (intros; ring); ring).
  apply rsum_le. intros j Hj. apply Rmult_le_compat_l; auto.
Qed.
Lemma cell_wts d n m k x : bound_data d n m -> in_cell (point d n) m k x -> wts m (hat (point d n) k x).
Proof. intros BD C. apply hat_wts; auto. apply (bd_inc _ _ _ BD). destruct C; lia. Qed.
