(** lob_bnd_lin_d and lob_bnd_d. *)
From Verif Require Import Base BaseLemmas Poly PolySpec PolyProof1 PolyProof2 LobBnd LobBndSpec LobBndProof1 LobBndProof2 LobBndProof3.
From Coq Require Import Reals Lra Psatz.
Open Scope R_scope.

Lemma size_le (d : arr) n m : (lob_bnd_size n m <= length d)%nat -> (3 * n + m + 6 * (n * m) <= length d)%nat.
Proof. unfold lob_bnd_size. nia. Qed.

(** One call of lob_bnd_fst. *)
Lemma fst_use d n m (w : arr) b (u : arr) uo : bound_data d n m -> (b + 2 * m <= length w)%nat -> (uo + n <= length u)%nat ->
  exists w', lob_bnd_fst w b d 0 (0 + n) (0 + n + 2 * n) (0 + n + 2 * n + m) n m u uo = Ok w' /\ keeps w w' (rng b (2 * m)) /\
    fst_form d n m u uo (grid_1 w' b 0) (grid_1 w' b 1).
Proof.
  intros BD Hw Hu. destruct (fst_ok d n m (bd_size _ _ _ BD) w b u uo Hw Hu) as (w' & E & K & a0 & a1 & _ & _ & V).
  exists w'. split; [exact E|]. split; [auto|]. exists a0, a1. intros j Hj. destruct (V j Hj) as [X Y]. unfold grid_1. rewrite Nat.add_0_r. rewrite X, Y. auto.
Qed.

Lemma lin_1_ok d n m un : bound_data d n m -> forall w b u uo, (b + 2 * m * un <= length w)%nat -> (uo + n * un <= length u)%nat ->
  exists w', lob_bnd_lin_1 w b d n m u uo un = Ok w' /\ keeps w w' (rng b (2 * m * un)) /\
    forall e, (e < un)%nat -> fst_form d n m u (uo + n * e) (grid_1 w' (b + 2 * m * e) 0) (grid_1 w' (b + 2 * m * e) 1).
Proof.
  intros BD. induction un as [|un IH]; intros w b u uo Hw Hu.
  - exists w. split; [reflexivity|]. split; [apply keeps_refl|]. intros; lia.
  - cbn [lob_bnd_lin_1]. destruct (fst_use d n m w b u uo BD) as (w1 & E1 & K1 & F1); [nia|nia|]. rewrite E1. cbn [bind].
    destruct (IH w1 (b + 2 * m)%nat u (uo + n)%nat) as (w2 & E2 & K2 & F2); [destruct K1; nia|nia|]. exists w2. split; [exact E2|]. split.
    + eapply keeps_trans; [exact K1|exact K2| |]; intros k; unfold rng; nia.
    + intros [|e] He.
      * rewrite !Nat.mul_0_r, !Nat.add_0_r. destruct F1 as (a0 & a1 & V). exists a0, a1. intros j Hj. destruct (V j Hj) as [X Y]. rewrite <- X, <- Y.
        unfold grid_1. destruct K2 as [_ O]. rewrite !O by (unfold rng; lia). auto.
      * specialize (F2 e ltac:(lia)). replace (uo + n * S e)%nat with (uo + n + n * e)%nat by lia. replace (b + 2 * m * S e)%nat with (b + 2 * m + 2 * m * e)%nat by lia. exact F2.
Qed.

(** The rows of the first direction. *)
Section Rows.
Variable d : arr.
Variable n m : nat.
Hypothesis BD : bound_data d n m.
Let h := point d n.
Variable u : arr.
Definition row_ok (w : arr) (br j uo : nat) : Prop :=
  (forall c, (c < m)%nat -> cl w br m j c <= cu w br m j c) /\
  forall k r, in_cell h m k r -> rsum m (fun c => hat h k r c * cl w br m j c) <= poly_1 d n u uo r <= rsum m (fun c => hat h k r c * cu w br m j c).
Lemma row_form w br j uo : fst_form d n m u uo (grid_1 w (br + 2 * m * j) 0) (grid_1 w (br + 2 * m * j) 1) -> row_ok w br j uo.
Proof.
  intros F. assert (E : forall c, grid_1 w (br + 2 * m * j) 0 c = cl w br m j c /\ grid_1 w (br + 2 * m * j) 1 c = cu w br m j c).
  { intros c. unfold grid_1, cl, cu. split; f_equal; nia. }
  split.
  - intros c Hc. pose proof (fst_le d n m BD u uo _ _ F c Hc) as H. destruct (E c) as [<- <-]. auto.
  - intros k r C. pose proof (fst_bound d n m BD u uo r k _ _ C F) as H. rewrite (rsum_ext m _ (fun j0 => hat h k r j0 * grid_1 w (br + 2 * m * j) 0 j0)) by (intros c _; destruct (E c) as [<- _]; auto).
    rewrite (rsum_ext m (fun c => hat h k r c * cu w br m j c) (fun j0 => hat h k r j0 * grid_1 w (br + 2 * m * j) 1 j0)) by (intros c _; destruct (E c) as [_ <-]; auto). exact H.
Qed.
Lemma row_keep w w' br j uo X : row_ok w br j uo -> keeps w w' X -> (forall k, rng (br + 2 * m * j) (2 * m) k -> ~ X k) -> row_ok w' br j uo.
Proof.
  intros [A B] [_ O] D. assert (E : forall c, (c < m)%nat -> cl w' br m j c = cl w br m j c /\ cu w' br m j c = cu w br m j c).
  { intros c Hc. unfold cl, cu. split; apply O, D; unfold rng; nia. }
  split.
  - intros c Hc. destruct (E c Hc) as [-> ->]. auto.
  - intros k r C. rewrite (rsum_ext m _ (fun c => hat h k r c * cl w br m j c)) by (intros c Hc; destruct (E c Hc) as [-> _]; auto).
    rewrite (rsum_ext m (fun c => hat h k r c * cu w' br m j c) (fun c => hat h k r c * cu w br m j c)) by (intros c Hc; destruct (E c Hc) as [_ ->]; auto). auto.
Qed.

Lemma rows_ok w br uo N : (br + 2 * m * N <= length w)%nat -> (uo + n * N <= length u)%nat ->
  exists w', foldM (fun '(w, br_, uo) (_ : nat) =>
          w <- lob_bnd_fst w br_ d 0 (0 + n) (0 + n + 2 * n) (0 + n + 2 * n + m) n m u uo ;;
          Ok (w, (br_ + 2 * m)%nat, (uo + n)%nat)) (seq 0 N) (w, br, uo) = Ok (w', (br + 2 * m * N)%nat, (uo + n * N)%nat) /\
    keeps w w' (rng br (2 * m * N)) /\ forall j, (j < N)%nat -> row_ok w' br j (uo + n * j).
Proof.
  intros Hw Hu.
  lazymatch goal with |- context [foldM ?f (seq 0 N) ?s0] =>
    destruct (foldM_inv (fun i s => snd s = (uo + n * i)%nat /\ snd (fst s) = (br + 2 * m * i)%nat /\ keeps w (fst (fst s)) (rng br (2 * m * N)) /\
       forall j, (j < i)%nat -> row_ok (fst (fst s)) br j (uo + n * j)) f N s0) as ([[w' b'] u'] & E & A & B & C & D) end.
  - cbn [fst snd]. split; [lia|]. split; [lia|]. split; [apply keeps_refl|]. intros; lia.
  - intros i [[s b'] u'] Hi (A & B & C & D). cbn [fst snd] in *. subst b' u'.
    assert ((i + 1) * m <= N * m)%nat by nia. assert ((i + 1) * n <= N * n)%nat by nia.
    destruct (fst_use d n m s (br + 2 * m * i) u (uo + n * i) BD) as (s' & E & K & F); [destruct C; nia|nia|].
    rewrite E. cbn [bind]. eexists. split; [reflexivity|]. cbn [fst snd]. split; [lia|]. split; [lia|]. split.
    + eapply keeps_trans; [exact C|exact K|auto|]. intros k. unfold rng. nia.
    + intros j Hj. destruct (Nat.eq_dec j i) as [->|]; [apply row_form; auto|].
      eapply row_keep; [apply D; lia|exact K|]. intros k. unfold rng. assert ((j + 1) * m <= i * m)%nat by nia. lia.
  - cbn [fst snd] in *. subst b' u'. exists w'. auto.
Qed.
End Rows.

(** One call of lob_bnd_ext. *)
Lemma ext_use d n m (w : arr) b_ br_ mr a : bound_data d n m ->
  (b_ + 2 * (mr * m) <= length w)%nat -> (br_ + 2 * (n * mr) <= length w)%nat -> (a + 2 * mr <= length w)%nat ->
  (b_ + 2 * (mr * m) <= br_ \/ br_ + 2 * (n * mr) <= b_)%nat -> (b_ + 2 * (mr * m) <= a \/ a + 2 * mr <= b_)%nat -> (a + 2 * mr <= br_ \/ br_ + 2 * (n * mr) <= a)%nat ->
  (forall j c, (j < n)%nat -> (c < mr)%nat -> cl w br_ mr j c <= cu w br_ mr j c) ->
  exists w', lob_bnd_ext w b_ d 0 (0 + n) (0 + n + 2 * n) (0 + n + 2 * n + m + 2 * n * m) n m br_ mr a = Ok w' /\
    keeps w w' (fun k => rng b_ (2 * (mr * m)) k \/ rng a (2 * mr) k) /\
    (forall i k, (i < mr)%nat -> (k < m)%nat -> grid_2 w' b_ m 0 i k <= grid_2 w' b_ m 1 i k) /\
    forall g V s k, in_cell (point d n) m k s -> wts mr g ->
      (forall j, (j < n)%nat -> rsum mr (fun c => g c * cl w br_ mr j c) <= V j <= rsum mr (fun c => g c * cu w br_ mr j c)) ->
      rsum mr (fun i => g i * rsum m (fun j => hat (point d n) k s j * grid_2 w' b_ m 0 i j)) <= rsum n (fun j => V j * basis d n j s) <=
      rsum mr (fun i => g i * rsum m (fun j => hat (point d n) k s j * grid_2 w' b_ m 1 i j)).
Proof.
  intros BD H1 H2 H3 D1 D2 D3 Hc.
  destruct (ext_ok d n m (size_le _ _ _ (bd_size _ _ _ BD)) w b_ br_ mr a H1 H2 H3 D1 D2 D3) as (w' & E & K & V).
  assert (F : ext_form d n m w br_ mr (grid_2 w' b_ m 0) (grid_2 w' b_ m 1)) by exact V.
  exists w'. split; [exact E|]. split; [exact K|]. split.
  - apply (ext_le d n m BD w br_ mr _ _ F Hc).
  - intros g V' s k C W HV. apply (ext_bound d n m BD w br_ mr g V' s k _ _ C W Hc HV F).
Qed.

Lemma poly_2_rows dr nr ds ns u uo r s : poly_2 dr nr ds ns u uo r s = rsum ns (fun j => poly_1 dr nr u (uo + nr * j) r * basis ds ns j s).
Proof.
  unfold poly_2, poly_1. apply rsum_ext. intros j _. rewrite Rmult_comm, <- rsum_scal. apply rsum_ext. intros i _.
  replace (uo + (j * nr + i))%nat with (uo + nr * j + i)%nat by lia. ring.
Qed.
Lemma poly_3_rows dr nr ds ns dt nt u uo r s t : poly_3 dr nr ds ns dt nt u uo r s t = rsum nt (fun k => poly_2 dr nr ds ns u (uo + nr * ns * k) r s * basis dt nt k t).
Proof.
  unfold poly_3, poly_2. apply rsum_ext. intros k _. rewrite Rmult_comm, <- rsum_scal. apply rsum_ext. intros j _. rewrite <- rsum_scal. apply rsum_ext. intros i _.
  replace (uo + ((k * ns + j) * nr + i))%nat with (uo + nr * ns * k + (j * nr + i))%nat by nia. ring.
Qed.

Section Dim2.
Variable dr ds : arr.
Variable nr mr ns ms : nat.
Hypothesis BR : bound_data dr nr mr.
Hypothesis BS : bound_data ds ns ms.
Notation hr := (point dr nr).
Notation hs := (point ds ns).

Definition sum2 (w : arr) (b p k l : nat) (r s : R) : R :=
  rsum mr (fun i => hat hr k r i * rsum ms (fun j => hat hs l s j * grid_2 w b ms p i j)).
Lemma lerp_sum2 w b p k l r s : in_cell hr mr k r -> in_cell hs ms l s ->
  lerp hr k (fun i => lerp hs l (grid_2 w b ms p i) s) r = sum2 w b p k l r s.
Proof.
  intros C C'. rewrite (lerp_hat hr mr k r C (bd_inc _ _ _ BR k ltac:(destruct C; lia))). unfold sum2. apply rsum_ext. intros i _.
  rewrite (lerp_hat hs ms l s C' (bd_inc _ _ _ BS l ltac:(destruct C'; lia))). auto.
Qed.

(** The rows given, lob_bnd_ext bounds the polynomial in two variables. *)
Lemma ext_2 u uo w b br a : (b + 2 * (mr * ms) <= length w)%nat -> (br + 2 * (ns * mr) <= length w)%nat -> (a + 2 * mr <= length w)%nat ->
  (b + 2 * (mr * ms) <= br \/ br + 2 * (ns * mr) <= b)%nat -> (b + 2 * (mr * ms) <= a \/ a + 2 * mr <= b)%nat -> (a + 2 * mr <= br \/ br + 2 * (ns * mr) <= a)%nat ->
  (forall j, (j < ns)%nat -> row_ok dr nr mr u w br j (uo + nr * j)) ->
  exists w', lob_bnd_ext w b ds 0 (0 + ns) (0 + ns + 2 * ns) (0 + ns + 2 * ns + ms + 2 * ns * ms) ns ms br mr a = Ok w' /\
    keeps w w' (fun k => rng b (2 * (mr * ms)) k \/ rng a (2 * mr) k) /\
    (forall i k, (i < mr)%nat -> (k < ms)%nat -> grid_2 w' b ms 0 i k <= grid_2 w' b ms 1 i k) /\
    forall k l r s, in_cell hr mr k r -> in_cell hs ms l s -> sum2 w' b 0 k l r s <= poly_2 dr nr ds ns u uo r s <= sum2 w' b 1 k l r s.
Proof.
  intros H1 H2 H3 D1 D2 D3 HR. destruct (ext_use ds ns ms w b br mr a BS) as (w' & E & K & L & B); auto.
  { intros j c Hj Hc. apply (proj1 (HR j Hj)). auto. }
  exists w'. split; [exact E|]. split; [exact K|]. split; [exact L|]. intros k l r s C C'. rewrite poly_2_rows. unfold sum2.
  apply (B (hat hr k r) (fun j => poly_1 dr nr u (uo + nr * j) r)); auto.
  - apply hat_wts; auto. apply (bd_inc _ _ _ BR). destruct C; lia.
  - intros j Hj. apply (proj2 (HR j Hj)). auto.
Qed.

Lemma lin_2_ok un : forall w b u uo work, (b + 2 * (mr * ms) * un <= length w)%nat -> (work + 2 * mr + 2 * mr * ns <= length w)%nat ->
  (b + 2 * (mr * ms) * un <= work \/ work + 2 * mr + 2 * mr * ns <= b)%nat -> (uo + nr * ns * un <= length u)%nat ->
  exists w', lob_bnd_lin_2 w b dr nr mr ds ns ms u uo un work = Ok w' /\
    keeps w w' (fun k => rng b (2 * (mr * ms) * un) k \/ rng work (2 * mr + 2 * mr * ns) k) /\
    forall e k l r s, (e < un)%nat -> in_cell hr mr k r -> in_cell hs ms l s ->
      sum2 w' (b + 2 * (mr * ms) * e) 0 k l r s <= poly_2 dr nr ds ns u (uo + nr * ns * e) r s <= sum2 w' (b + 2 * (mr * ms) * e) 1 k l r s.
Proof.
  induction un as [|un IH]; intros w b u uo work Hw Hk D Hu.
  - exists w. split; [reflexivity|]. split; [apply keeps_refl|]. intros; lia.
  - cbn [lob_bnd_lin_2]. destruct (rows_ok dr nr mr BR u w (work + 2 * mr) uo ns) as (w1 & E1 & K1 & R1); [lia|nia|].
    rewrite E1. cbn [bind]. assert (L1 : length w1 = length w) by apply K1.
    destruct (ext_2 u uo w1 b (work + 2 * mr) work) as (w2 & E2 & K2 & _ & B2); try (rewrite ?L1; nia); auto.
    rewrite E2. cbn [bind]. assert (L2 : length w2 = length w) by (destruct K2; lia).
    destruct (IH w2 (b + 2 * (mr * ms))%nat u (uo + nr * ns)%nat work) as (w3 & E3 & K3 & B3); try (rewrite ?L2; nia).
    exists w3. split; [exact E3|]. split.
    + eapply keeps_trans; [exact K1| | |intros k h; exact h]; [|unfold rng; intros; nia]. eapply keeps_trans; [exact K2|exact K3| |]; unfold rng; intros; nia.
    + intros [|e] k l r s He C C'.
      * rewrite !Nat.mul_0_r, !Nat.add_0_r. specialize (B2 k l r s C C').
        assert (G : forall p, (p < 2)%nat -> sum2 w3 b p k l r s = sum2 w2 b p k l r s).
        { intros p Hp. unfold sum2. apply rsum_ext. intros i Hi. f_equal. apply rsum_ext. intros j Hj. f_equal. unfold grid_2. destruct K3 as [_ O]. pose proof (row_lt i j ms mr Hi Hj). apply O. unfold rng. lia. }
        rewrite !G by lia. exact B2.
      * specialize (B3 e k l r s ltac:(lia) C C'). replace (uo + nr * ns * S e)%nat with (uo + nr * ns + nr * ns * e)%nat by lia.
        replace (b + 2 * (mr * ms) * S e)%nat with (b + 2 * (mr * ms) + 2 * (mr * ms) * e)%nat by lia. exact B3.
Qed.
End Dim2.
