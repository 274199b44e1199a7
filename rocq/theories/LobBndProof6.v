(** The piecewise linear bounds and the intervals. *)
From Verif Require Import Base BaseLemmas Poly PolySpec PolyProof1 PolyProof2 LobBnd LobBndSpec LobBndProof1 LobBndProof2 LobBndProof3 LobBndProof4 LobBndProof5.
From Coq Require Import Reals Lra Psatz.
Open Scope R_scope.

Section Interval.
Variable dr ds dt : arr.
Variable nr mr ns ms nt mt : nat.
Hypothesis BR : bound_data dr nr mr.
Hypothesis BS : bound_data ds ns ms.
Hypothesis BT : bound_data dt nt mt.

Lemma lin_1_bound w b u uo un : (b + 2 * mr * un <= length w)%nat -> (uo + nr * un <= length u)%nat ->
  exists w', lob_bnd_lin_1 w b dr nr mr u uo un = Ok w' /\ keeps w w' (rng b (2 * mr * un)) /\
    forall e k r, (e < un)%nat -> in_cell (point dr nr) mr k r ->
      lerp (point dr nr) k (grid_1 w' (b + 2 * mr * e) 0) r <= poly_1 dr nr u (uo + nr * e) r <= lerp (point dr nr) k (grid_1 w' (b + 2 * mr * e) 1) r.
Proof.
  intros Hw Hu. destruct (lin_1_ok dr nr mr un BR w b u uo Hw Hu) as (w' & E & K & F). exists w'. split; [exact E|]. split; [exact K|].
  intros e k r He C. rewrite !(lerp_hat _ mr k r C (bd_inc _ _ _ BR k ltac:(destruct C; lia))). apply (fst_bound dr nr mr BR u (uo + nr * e) r k _ _ C (F e He)).
Qed.

Lemma interval_1 u uo work : (2 * mr <= length work)%nat -> (uo + nr <= length u)%nat ->
  exists mn mx work', lob_bnd_1 dr nr mr u uo work = Ok (mn, mx, work') /\ length work' = length work /\
    forall r, -1 <= r <= 1 -> mn <= poly_1 dr nr u uo r <= mx.
Proof.
  intros Hw Hu. unfold lob_bnd_1. pose proof (bd_m _ _ _ BR).
  destruct (lin_1_bound work 0 u uo 1) as (w' & E & K & F); [lia|lia|]. rewrite E. cbn [bind]. destruct K as [L O].
  destruct (minmax_ok w' 0 mr) as (mn & mx & E2 & A & _ & _); [lia|lia|]. rewrite E2. cbn [bind].
  exists mn, mx, w'. split; [reflexivity|]. split; [auto|]. intros r Hr. destruct (cell_of dr nr mr r BR Hr) as [k C].
  specialize (F 0%nat k r ltac:(lia) C). rewrite !(lerp_hat _ mr k r C (bd_inc _ _ _ BR k ltac:(destruct C; lia))) in F.
  replace (uo + nr * 0)%nat with uo in F by lia. pose proof (cell_wts dr nr mr k r BR C) as W. destruct F as [F1 F2]. split.
  - eapply Rle_trans; [|exact F1]. apply wts_ge; auto. intros j Hj. unfold grid_1. replace (0 + 2 * mr * 0 + (2 * j + 0))%nat with (0 + 2 * j)%nat by lia. apply A; auto.
  - eapply Rle_trans; [exact F2|]. apply wts_le; auto. intros j Hj. unfold grid_1. replace (0 + 2 * mr * 0 + (2 * j + 1))%nat with (0 + (2 * j + 1))%nat by lia. apply A; auto.
Qed.

Lemma lin_2_bound w b u uo un work : (b + 2 * (mr * ms) * un <= length w)%nat -> (work + 2 * mr + 2 * mr * ns <= length w)%nat ->
  (b + 2 * (mr * ms) * un <= work \/ work + 2 * mr + 2 * mr * ns <= b)%nat -> (uo + nr * ns * un <= length u)%nat ->
  exists w', lob_bnd_lin_2 w b dr nr mr ds ns ms u uo un work = Ok w' /\
    keeps w w' (fun k => rng b (2 * (mr * ms) * un) k \/ rng work (2 * mr + 2 * mr * ns) k) /\
    forall e k l r s, (e < un)%nat -> in_cell (point dr nr) mr k r -> in_cell (point ds ns) ms l s ->
      lerp (point dr nr) k (fun i => lerp (point ds ns) l (grid_2 w' (b + 2 * (mr * ms) * e) ms 0 i) s) r <=
      poly_2 dr nr ds ns u (uo + nr * ns * e) r s <=
      lerp (point dr nr) k (fun i => lerp (point ds ns) l (grid_2 w' (b + 2 * (mr * ms) * e) ms 1 i) s) r.
Proof.
  intros Hw Hk D Hu. destruct (lin_2_ok dr ds nr mr ns ms BR BS un w b u uo work Hw Hk D Hu) as (w' & E & K & F). exists w'. split; [exact E|]. split; [exact K|].
  intros e k l r s He C C'. rewrite !(lerp_sum2 dr ds nr mr ns ms BR BS) by auto. auto.
Qed.

Lemma interval_2 u uo work : (2 * mr * (ns + ms + 1) <= length work)%nat -> (uo + nr * ns <= length u)%nat ->
  exists mn mx work', lob_bnd_2 dr nr mr ds ns ms u uo work = Ok (mn, mx, work') /\ length work' = length work /\
    forall r s, -1 <= r <= 1 -> -1 <= s <= 1 -> mn <= poly_2 dr nr ds ns u uo r s <= mx.
Proof.
  intros Hw Hu. unfold lob_bnd_2. pose proof (bd_m _ _ _ BR). pose proof (bd_m _ _ _ BS).
  destruct (lin_2_ok dr ds nr mr ns ms BR BS 1 work 0 u uo (0 + 2 * (mr * ms))) as (w' & E & K & F); [nia|nia|lia|lia|]. rewrite E. cbn [bind]. destruct K as [L O].
  destruct (minmax_ok w' 0 (mr * ms)) as (mn & mx & E2 & A & _ & _); [nia|rewrite L; nia|]. rewrite E2. cbn [bind].
  exists mn, mx, w'. split; [reflexivity|]. split; [auto|]. intros r s Hr Hs. destruct (cell_of dr nr mr r BR Hr) as [k C]. destruct (cell_of ds ns ms s BS Hs) as [l C'].
  specialize (F 0%nat k l r s ltac:(lia) C C'). 
  replace (uo + nr * ns * 0)%nat with uo in F by lia. pose proof (cell_wts dr nr mr k r BR C) as W. pose proof (cell_wts ds ns ms l s BS C') as W'. destruct F as [F1 F2]. unfold sum2 in *. split.
  - eapply Rle_trans; [|exact F1]. apply wts_ge; auto. intros i Hi. apply wts_ge; auto. intros j Hj. unfold grid_2.
    replace (0 + 2 * (mr * ms) * 0 + (2 * (i * ms + j) + 0))%nat with (0 + 2 * (i * ms + j))%nat by lia. apply A. apply row_lt; auto.
  - eapply Rle_trans; [exact F2|]. apply wts_le; auto. intros i Hi. apply wts_le; auto. intros j Hj. unfold grid_2.
    replace (0 + 2 * (mr * ms) * 0 + (2 * (i * ms + j) + 1))%nat with (0 + (2 * (i * ms + j) + 1))%nat by lia. apply A. apply row_lt; auto.
Qed.

Lemma lin_3_bound w b u uo un work : (ns * nt <= ms * mt)%nat -> (b + 2 * (mr * ms * mt) * un <= length w)%nat -> (work + 2 * (mr * ms) + 2 * (mr * ms) * nt <= length w)%nat ->
  (b + 2 * (mr * ms * mt) * un <= work \/ work + 2 * (mr * ms) + 2 * (mr * ms) * nt <= b)%nat -> (uo + nr * ns * nt * un <= length u)%nat ->
  exists w', lob_bnd_lin_3 w b dr nr mr ds ns ms dt nt mt u uo un work = Ok w' /\
    keeps w w' (fun k => rng b (2 * (mr * ms * mt) * un) k \/ rng work (2 * (mr * ms) + 2 * (mr * ms) * nt) k) /\
    forall e k l q r s t, (e < un)%nat -> in_cell (point dr nr) mr k r -> in_cell (point ds ns) ms l s -> in_cell (point dt nt) mt q t ->
      lerp (point dr nr) k (fun i => lerp (point ds ns) l (fun j => lerp (point dt nt) q (grid_3 w' (b + 2 * (mr * ms * mt) * e) ms mt 0 i j) t) s) r <=
      poly_3 dr nr ds ns dt nt u (uo + nr * ns * nt * e) r s t <=
      lerp (point dr nr) k (fun i => lerp (point ds ns) l (fun j => lerp (point dt nt) q (grid_3 w' (b + 2 * (mr * ms * mt) * e) ms mt 1 i j) t) s) r.
Proof.
  intros HS Hw Hk D Hu. destruct (lin_3_ok dr ds dt nr mr ns ms nt mt BR BS BT un HS w b u uo work Hw Hk D Hu) as (w' & E & K & F). exists w'. split; [exact E|]. split; [exact K|].
  intros e k l q r s t He C C' C''. rewrite !(lerp_sum3 dr ds dt nr mr ns ms nt mt BR BS BT) by auto. auto.
Qed.

Lemma interval_3 u uo work : (ns * nt <= ms * mt)%nat -> (2 * mr * ms * (nt + mt + 1) <= length work)%nat -> (uo + nr * ns * nt <= length u)%nat ->
  exists mn mx work', lob_bnd_3 dr nr mr ds ns ms dt nt mt u uo work = Ok (mn, mx, work') /\ length work' = length work /\
    forall r s t, -1 <= r <= 1 -> -1 <= s <= 1 -> -1 <= t <= 1 -> mn <= poly_3 dr nr ds ns dt nt u uo r s t <= mx.
Proof.
  intros HS Hw Hu. unfold lob_bnd_3. pose proof (bd_m _ _ _ BR). pose proof (bd_m _ _ _ BS). pose proof (bd_m _ _ _ BT).
  destruct (lin_3_ok dr ds dt nr mr ns ms nt mt BR BS BT 1 HS work 0 u uo (0 + 2 * (mr * ms * mt))) as (w' & E & K & F); [nia|nia|lia|lia|]. rewrite E. cbn [bind]. destruct K as [L O].
  assert (1 <= mr * ms)%nat by nia.
  destruct (minmax_ok w' 0 (mr * ms * mt)) as (mn & mx & E2 & A & _ & _); [nia|rewrite L; nia|]. rewrite E2. cbn [bind].
  exists mn, mx, w'. split; [reflexivity|]. split; [auto|]. intros r s t Hr Hs Ht. destruct (cell_of dr nr mr r BR Hr) as [k C]. destruct (cell_of ds ns ms s BS Hs) as [l C'].
  destruct (cell_of dt nt mt t BT Ht) as [q C''].
  specialize (F 0%nat k l q r s t ltac:(lia) C C' C'').
  replace (uo + nr * ns * nt * 0)%nat with uo in F by lia. pose proof (cell_wts dr nr mr k r BR C) as W. pose proof (cell_wts ds ns ms l s BS C') as W'. pose proof (cell_wts dt nt mt q t BT C'') as W''.
  destruct F as [F1 F2]. unfold sum3 in *.
  assert (I : forall i j o, (i < mr)%nat -> (j < ms)%nat -> (o < mt)%nat -> ((i * ms + j) * mt + o < mr * ms * mt)%nat) by (intros i j o Hi Hj Ho; apply row_lt; auto; apply row_lt; auto).
  split.
  - eapply Rle_trans; [|exact F1]. apply wts_ge; auto. intros i Hi. apply wts_ge; auto. intros j Hj. apply wts_ge; auto. intros o Ho. unfold grid_3.
    replace (0 + 2 * (mr * ms * mt) * 0 + (2 * ((i * ms + j) * mt + o) + 0))%nat with (0 + 2 * ((i * ms + j) * mt + o))%nat by lia. apply A. auto.
  - eapply Rle_trans; [exact F2|]. apply wts_le; auto. intros i Hi. apply wts_le; auto. intros j Hj. apply wts_le; auto. intros o Ho. unfold grid_3.
    replace (0 + 2 * (mr * ms * mt) * 0 + (2 * ((i * ms + j) * mt + o) + 1))%nat with (0 + (2 * ((i * ms + j) * mt + o) + 1))%nat by lia. apply A. auto.
Qed.
End Interval.
