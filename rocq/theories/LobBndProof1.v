(** The loops of lob_bnd.c compute the sums they name. *)
From Verif Require Import Base BaseLemmas Poly PolySpec PolyProof1 PolyProof2 LobBnd LobBndSpec.
From Coq Require Import Reals Lra.
Open Scope R_scope.

Lemma foldM_inv {S} (I : nat -> S -> Prop) (f : S -> nat -> res S) n s0 : I 0%nat s0 ->
  (forall i s, (i < n)%nat -> I i s -> exists s', f s i = Ok s' /\ I (Datatypes.S i) s') ->
  exists s', foldM f (seq 0 n) s0 = Ok s' /\ I n s'.
Proof.
  intros H0 Hs. enough (G : forall k, (k <= n)%nat -> exists s', foldM f (seq 0 k) s0 = Ok s' /\ I k s') by (apply (G n); lia).
  induction k as [|k IH]; intros Hk; [exists s0; auto|]. destruct IH as (s & E & HI); [lia|].
  rewrite seq_S, foldM_snoc, E. cbn [bind Nat.add]. apply Hs; auto.
Qed.

(** w' is w except at the places X. *)
Definition keeps (w w' : arr) (X : nat -> Prop) : Prop := length w' = length w /\ forall k, ~ X k -> get w' k = get w k.
Definition rng (o n k : nat) : Prop := (o <= k < o + n)%nat.
Lemma keeps_refl w X : keeps w w X. Proof. split; auto. Qed.
Lemma keeps_trans w w' w'' (X Y Z : nat -> Prop) : keeps w w' X -> keeps w' w'' Y -> (forall k, X k -> Z k) -> (forall k, Y k -> Z k) -> keeps w w'' Z.
Proof. intros [L1 H1] [L2 H2] A B. split; [congruence|]. intros k Hk. rewrite H2, H1; auto. Qed.
Lemma keeps_upd w i v (X : nat -> Prop) : X i -> keeps w (upd w i v) X.
Proof.
  intros H. destruct (Nat.lt_ge_cases i (length w)).
  - split; [apply upd_length'|]. intros k Hk. rewrite get_upd by auto. destruct (Nat.eqb_spec k i); [subst; contradiction|auto].
  - rewrite upd_oob by auto. apply keeps_refl.
Qed.

(** A loop that updates pairs. *)
Lemma pairs_loop {T} (f : arr * T -> nat -> res (arr * T)) (TT : nat -> T) w0 b m F G : (b + 2 * m <= length w0)%nat ->
  (forall w j, (j < m)%nat -> keeps w0 w (rng b (2 * m)) ->
     get w (b + 2 * j) = get w0 (b + 2 * j) -> get w (b + (2 * j + 1)) = get w0 (b + (2 * j + 1)) ->
     f (w, TT j) j = Ok (upd (upd w (b + 2 * j) (F j)) (b + (2 * j + 1)) (G j), TT (S j))) ->
  exists w', foldM f (seq 0 m) (w0, TT 0%nat) = Ok (w', TT m) /\ keeps w0 w' (rng b (2 * m)) /\
    forall j, (j < m)%nat -> get w' (b + 2 * j) = F j /\ get w' (b + (2 * j + 1)) = G j.
Proof.
  intros L H.
  destruct (foldM_inv (fun j s => snd s = TT j /\ keeps w0 (fst s) (rng b (2 * m)) /\
     (forall j', (j' < m)%nat -> get (fst s) (b + 2 * j') = (if (j' <? j)%nat then F j' else get w0 (b + 2 * j')) /\
        get (fst s) (b + (2 * j' + 1)) = (if (j' <? j)%nat then G j' else get w0 (b + (2 * j' + 1))))) f m (w0, TT 0%nat)) as ([w' t] & E & A & B & C).
  - split; [auto|]. split; [apply keeps_refl|]. intros j' Hj. cbn [fst]. destruct (Nat.ltb_spec j' 0); [lia|auto].
  - intros j [w t] Hj (E & K & V). cbn [fst snd] in *. subst t. pose proof (V j Hj) as [V0 V1]. rewrite Nat.ltb_irrefl in V0, V1.
    eexists. split; [apply H; auto|]. cbn [fst snd]. split; [auto|]. destruct K as [KL KO]. split.
    + split; [rewrite !upd_length'; auto|]. intros k Hk. unfold rng in Hk. rewrite !get_upd by (rewrite ?upd_length'; lia).
      destruct (Nat.eqb_spec k (b + (2 * j + 1))); [lia|]. destruct (Nat.eqb_spec k (b + 2 * j)); [lia|]. apply KO. auto.
    + intros j' Hj'. rewrite !get_upd by (rewrite ?upd_length'; lia). destruct (V j' Hj') as [X Y].
      destruct (Nat.eqb_spec (b + 2 * j') (b + (2 * j + 1))); [lia|]. destruct (Nat.eqb_spec (b + (2 * j' + 1)) (b + 2 * j)); [lia|].
      destruct (Nat.ltb_spec j' (S j)), (Nat.ltb_spec j' j), (Nat.eqb_spec (b + 2 * j') (b + 2 * j)), (Nat.eqb_spec (b + (2 * j' + 1)) (b + (2 * j + 1)));
        try lia; try (assert (j' = j) by lia; subst); auto.
  - cbn [fst snd] in *. subst t. exists w'. split; [auto|]. split; [auto|]. intros j Hj. destruct (C j Hj) as [X Y].
    destruct (Nat.ltb_spec j m); [auto|lia].
Qed.

Lemma acc_get w i v : (i < length w)%nat -> acc w i v = Ok (upd w i (get w i + v)).
Proof. intros H. unfold acc. rewrite rd_get by auto. cbn [bind]. apply wr_get. auto. Qed.

(** The contribution of a weight t. *)
Definition tlo (t lo up : R) : R := if Rle_dec 0 t then t * lo else t * up.
Definition tup (t lo up : R) : R := if Rle_dec 0 t then t * up else t * lo.

Section Fst.
Variable d : arr.
Variable n m : nat.
Hypothesis Hd : (lob_bnd_size n m <= length d)%nat.
Let HD : (3 * n + m + 6 * (n * m) <= length d)%nat.
Proof. unfold lob_bnd_size in Hd. nia. Qed.

Lemma row_le i k : (i < n)%nat -> (k < m)%nat -> (i * m + k < n * m)%nat.
Proof. intros. nia. Qed.

Lemma fst_ok w b u uo : (b + 2 * m <= length w)%nat -> (uo + n <= length u)%nat ->
  exists w', lob_bnd_fst w b d 0 (0 + n) (0 + n + 2 * n) (0 + n + 2 * n + m) n m u uo = Ok w' /\ keeps w w' (rng b (2 * m)) /\
    exists a0 a1, a0 = rsum n (fun i => func0 d n i * get u (uo + i)) /\ a1 = rsum n (fun i => func1 d n i * get u (uo + i)) /\
    forall j, (j < m)%nat ->
      get w' (b + 2 * j) = a0 + a1 * point d n j + rsum n (fun i => tlo (get u (uo + i) - (a0 + a1 * node d i)) (lower d n m i j) (upper d n m i j)) /\
      get w' (b + (2 * j + 1)) = a0 + a1 * point d n j + rsum n (fun i => tup (get u (uo + i) - (a0 + a1 * node d i)) (lower d n m i j) (upper d n m i j)).
Proof.
  intros Hw Hu. unfold lob_bnd_fst. rewrite !Nat.add_0_l. replace (n + 2 * n)%nat with (3 * n)%nat by lia.
  (* a0, a1 *)
  lazymatch goal with |- context [foldM ?f (seq 0 n) (0, 0)] =>
    destruct (foldM_inv (fun i s => s = (rsum i (fun i => func0 d n i * get u (uo + i)), rsum i (fun i => func1 d n i * get u (uo + i)))) f n (0, 0)) as (s & E & ->) end.
  { reflexivity. }
  { intros i s Hi ->. rewrite !rd_get by lia. cbn [bind]. eexists. split; [reflexivity|]. cbn [rsum]. reflexivity. }
  rewrite E. cbn [bind]. clear E. set (a0 := rsum n (fun i => func0 d n i * get u (uo + i))). set (a1 := rsum n (fun i => func1 d n i * get u (uo + i))).
  (* a0 + a1 h *)
  lazymatch goal with |- context [foldM ?f (seq 0 m) w] =>
    assert (A : exists w1, foldM f (seq 0 m) w = Ok w1 /\ keeps w w1 (rng b (2 * m)) /\
      forall j, (j < m)%nat -> get w1 (b + 2 * j) = a0 + a1 * point d n j /\ get w1 (b + (2 * j + 1)) = a0 + a1 * point d n j) end.
  { lazymatch goal with |- context [foldM ?f (seq 0 m) w] =>
      destruct (foldM_inv (fun j s => keeps w s (rng b (2 * m)) /\ forall j', (j' < j)%nat -> get s (b + 2 * j') = a0 + a1 * point d n j' /\ get s (b + (2 * j' + 1)) = a0 + a1 * point d n j') f m w) as (w1 & E & K & V) end.
    - split; [apply keeps_refl|]. intros; lia.
    - intros j s Hj [[KL KO] V]. rewrite rd_get by nia. cbn [bind]. rewrite wr_get by lia. cbn [bind]. rewrite wr_get by (rewrite upd_length'; lia).
      eexists. split; [reflexivity|]. split; [split|].
      + rewrite !upd_length'. auto.
      + intros k Hk. unfold rng in Hk. rewrite !get_upd by (rewrite ?upd_length'; lia).
        destruct (Nat.eqb_spec k (b + (2 * j + 1))); [lia|]. destruct (Nat.eqb_spec k (b + 2 * j)); [lia|]. apply KO. auto.
      + intros j' Hj'. rewrite !get_upd by (rewrite ?upd_length'; lia). fold (point d n j).
        destruct (Nat.eqb_spec (b + 2 * j') (b + (2 * j + 1))); [lia|]. destruct (Nat.eqb_spec (b + (2 * j' + 1)) (b + 2 * j)); [lia|].
        destruct (Nat.eqb_spec (b + 2 * j') (b + 2 * j)), (Nat.eqb_spec (b + (2 * j' + 1)) (b + (2 * j + 1))); try lia.
        * assert (j' = j) by lia. subst. auto.
        * apply V. lia.
    - exists w1. split; [exact E|]. split; [auto|]. intros; apply V; auto. }
  destruct A as (w1 & -> & K1 & V1). cbn [bind].
  (* rows *)
  lazymatch goal with |- context [foldM ?f (seq 0 n) (w1, ?l)] =>
    destruct (foldM_inv (fun i s => snd s = (3 * n + m + 2 * (i * m))%nat /\ keeps w (fst s) (rng b (2 * m)) /\
      forall j, (j < m)%nat ->
        get (fst s) (b + 2 * j) = a0 + a1 * point d n j + rsum i (fun i => tlo (get u (uo + i) - (a0 + a1 * node d i)) (lower d n m i j) (upper d n m i j)) /\
        get (fst s) (b + (2 * j + 1)) = a0 + a1 * point d n j + rsum i (fun i => tup (get u (uo + i) - (a0 + a1 * node d i)) (lower d n m i j) (upper d n m i j)))
      f n (w1, l)) as ([w2 l2] & E & _ & K2 & V2) end.
  - cbn [fst snd]. split; [lia|]. split; [auto|]. intros j Hj. cbn [rsum]. destruct (V1 j Hj) as [-> ->]. split; lra.
  - intros i [s l] Hi (El & K & V). cbn [fst snd] in *. subst l. rewrite !rd_get by lia. cbn [bind]. change (get d (0 + i)) with (node d i).
    set (t := get u (uo + i) - (a0 + a1 * node d i)). destruct K as [KL KO].
    assert (G : forall c c', (forall j, (j < m)%nat -> c j = (if Rle_dec 0 t then t * lower d n m i j else t * upper d n m i j)) ->
       (forall j, (j < m)%nat -> c' j = (if Rle_dec 0 t then t * upper d n m i j else t * lower d n m i j)) ->
       forall (w' : arr), keeps s w' (rng b (2 * m)) -> (forall j, (j < m)%nat -> get w' (b + 2 * j) = get s (b + 2 * j) + c j /\ get w' (b + (2 * j + 1)) = get s (b + (2 * j + 1)) + c' j) ->
       keeps w w' (rng b (2 * m)) /\
       (forall j, (j < m)%nat ->
        get w' (b + 2 * j) = a0 + a1 * point d n j + rsum (S i) (fun i => tlo (get u (uo + i) - (a0 + a1 * node d i)) (lower d n m i j) (upper d n m i j)) /\
        get w' (b + (2 * j + 1)) = a0 + a1 * point d n j + rsum (S i) (fun i => tup (get u (uo + i) - (a0 + a1 * node d i)) (lower d n m i j) (upper d n m i j)))).
    { intros c c' Hc Hc' w' Kw Vw. split; [eapply keeps_trans; [split; [exact KL|exact KO]|exact Kw|auto|auto]|].
      intros j Hj. cbn [rsum]. destruct (Vw j Hj) as [-> ->]. destruct (V j Hj) as [-> ->]. fold t. rewrite Hc, Hc' by auto. unfold tlo, tup. split; ring. }
    assert (B0 : forall j, (j < m)%nat -> (3 * n + m + 2 * (i * m) + 2 * j + 1 < length d)%nat) by (intros j Hj; pose proof (row_le i j Hi Hj); lia).
    destruct (Rle_dec 0 t) as [Ht|Ht].
    + lazymatch goal with |- context [foldM ?f (seq 0 m) (s, ?l)] =>
        destruct (pairs_loop f (fun j => (3 * n + m + 2 * (i * m) + 2 * j)%nat) s b m
          (fun j => get s (b + 2 * j) + t * lower d n m i j) (fun j => get s (b + (2 * j + 1)) + t * upper d n m i j)) as (w' & E & Kw & Vw) end.
      * lia.
      * intros s' j Hj [KL' _] S0 S1. rewrite !rd_get by (specialize (B0 j Hj); lia). cbn [bind]. rewrite acc_get by lia. cbn [bind]. rewrite acc_get by (rewrite upd_length'; lia). cbn [bind].
        rewrite get_upd by lia. destruct (Nat.eqb_spec (b + (2 * j + 1)) (b + 2 * j)); [lia|]. rewrite S0, S1. unfold lower, upper.
        replace (3 * n + m + (i * m + j) * 2)%nat with (3 * n + m + 2 * (i * m) + 2 * j)%nat by lia.
        replace (3 * n + m + ((i * m + j) * 2 + 1))%nat with (3 * n + m + 2 * (i * m) + 2 * j + 1)%nat by lia.
        do 2 f_equal. lia.
      * rewrite Nat.mul_0_r, Nat.add_0_r in E. rewrite E. eexists. split; [reflexivity|]. cbn [fst snd].
        split; [nia|]. apply (G (fun j => t * lower d n m i j) (fun j => t * upper d n m i j)); auto.
    + lazymatch goal with |- context [foldM ?f (seq 0 m) (s, ?l)] =>
        destruct (pairs_loop f (fun j => (3 * n + m + 2 * (i * m) + 2 * j)%nat) s b m
          (fun j => get s (b + 2 * j) + t * upper d n m i j) (fun j => get s (b + (2 * j + 1)) + t * lower d n m i j)) as (w' & E & Kw & Vw) end.
      * lia.
      * intros s' j Hj [KL' _] S0 S1. rewrite !rd_get by (specialize (B0 j Hj); lia). cbn [bind]. rewrite acc_get by lia. cbn [bind]. rewrite acc_get by (rewrite upd_length'; lia). cbn [bind].
        rewrite get_upd by lia. destruct (Nat.eqb_spec (b + (2 * j + 1)) (b + 2 * j)); [lia|]. rewrite S0, S1. unfold lower, upper.
        replace (3 * n + m + (i * m + j) * 2)%nat with (3 * n + m + 2 * (i * m) + 2 * j)%nat by lia.
        replace (3 * n + m + ((i * m + j) * 2 + 1))%nat with (3 * n + m + 2 * (i * m) + 2 * j + 1)%nat by lia.
        do 2 f_equal. lia.
      * rewrite Nat.mul_0_r, Nat.add_0_r in E. rewrite E. eexists. split; [reflexivity|]. cbn [fst snd].
        split; [nia|]. apply (G (fun j => t * upper d n m i j) (fun j => t * lower d n m i j)); auto.
  - rewrite E. cbn [bind]. exists w2. split; [auto|]. split; [auto|]. exists a0, a1. auto.
Qed.
End Fst.
