(** lob_bnd_ext. *)
From Verif Require Import Base BaseLemmas Poly PolySpec PolyProof1 PolyProof2 LobBnd LobBndSpec LobBndProof1.
From Coq Require Import Reals Lra.
Open Scope R_scope.

(** The contribution of a weight between w0 and w1. *)
Definition elo (w0 w1 l0 l1 l2 l3 : R) : R :=
  if Rle_dec 0 w0 then w0 * l1 + w1 * l0 else if Rle_dec w1 0 then w0 * l3 + w1 * l2 else w0 * l3 + w1 * l0.
Definition eup (w0 w1 l0 l1 l2 l3 : R) : R :=
  if Rle_dec 0 w0 then w1 * l3 + w0 * l2 else if Rle_dec w1 0 then w1 * l1 + w0 * l0 else w1 * l3 + w0 * l0.

Lemma row_lt i k m r : (i < r)%nat -> (k < m)%nat -> (i * m + k < r * m)%nat.
Proof. intros. nia. Qed.
Lemma row_ne i i' k m : (k < m)%nat -> i <> i' -> (i' * m + k < i * m \/ i * m + m <= i' * m + k)%nat.
Proof. intros. destruct (Nat.lt_ge_cases i' i); nia. Qed.

Section Ext.
Variable d : arr.
Variable n m : nat.
Hypothesis HD : (3 * n + m + 6 * (n * m) <= length d)%nat.
Variable w : arr.
Variable b_ br_ mr a : nat.
Hypothesis Hb : (b_ + 2 * (mr * m) <= length w)%nat.
Hypothesis Hbr : (br_ + 2 * (n * mr) <= length w)%nat.
Hypothesis Ha : (a + 2 * mr <= length w)%nat.
Hypothesis D1 : (b_ + 2 * (mr * m) <= br_ \/ br_ + 2 * (n * mr) <= b_)%nat.
Hypothesis D2 : (b_ + 2 * (mr * m) <= a \/ a + 2 * mr <= b_)%nat.
Hypothesis D3 : (a + 2 * mr <= br_ \/ br_ + 2 * (n * mr) <= a)%nat.

Definition cl (j i : nat) : R := get w (br_ + (2 * (j * mr + i) + 0)).
Definition cu (j i : nat) : R := get w (br_ + (2 * (j * mr + i) + 1)).
Definition e0 (i : nat) : R := rsum n (fun j => func0 d n j * ((cl j i + cu j i) / 2)).
Definition e1 (i : nat) : R := rsum n (fun j => func1 d n j * ((cl j i + cu j i) / 2)).
Definition tr (i j : nat) : R := e0 i + e1 i * node d j.
Definition dlo (i k j : nat) : R :=
  elo (cl j i - tr i j) (cu j i - tr i j) (signed d n m 0 j k) (signed d n m 1 j k) (signed d n m 2 j k) (signed d n m 3 j k).
Definition dup (i k j : nat) : R :=
  eup (cl j i - tr i j) (cu j i - tr i j) (signed d n m 0 j k) (signed d n m 1 j k) (signed d n m 2 j k) (signed d n m 3 j k).

Lemma ext_ok : exists w', lob_bnd_ext w b_ d 0 (0 + n) (0 + n + 2 * n) (0 + n + 2 * n + m + 2 * n * m) n m br_ mr a = Ok w' /\
  keeps w w' (fun k => rng b_ (2 * (mr * m)) k \/ rng a (2 * mr) k) /\
  forall i k, (i < mr)%nat -> (k < m)%nat ->
    get w' (b_ + (2 * (i * m + k) + 0)) = e0 i + e1 i * point d n k + rsum n (dlo i k) /\
    get w' (b_ + (2 * (i * m + k) + 1)) = e0 i + e1 i * point d n k + rsum n (dup i k).
Proof.
  unfold lob_bnd_ext. rewrite !Nat.add_0_l. replace (n + 2 * n)%nat with (3 * n)%nat by lia. replace (2 * n * m)%nat with (2 * (n * m))%nat by lia.
  (* a = 0 *)
  lazymatch goal with |- context [foldM ?f (seq 0 mr) w] =>
    destruct (foldM_inv (fun i s => keeps w s (rng a (2 * mr)) /\ forall i', (i' < i)%nat -> get s (a + 2 * i') = 0 /\ get s (a + (2 * i' + 1)) = 0) f mr w) as (w1 & E & K1 & V1) end.
  { split; [apply keeps_refl|]. intros; lia. }
  { intros i s Hi [[KL KO] V]. rewrite wr_get by lia. cbn [bind]. rewrite wr_get by (rewrite upd_length'; lia). eexists. split; [reflexivity|]. split; [split|].
    - rewrite !upd_length'. auto.
    - intros k Hk. unfold rng in Hk. rewrite !get_upd by (rewrite ?upd_length'; lia).
      destruct (Nat.eqb_spec k (a + 2 * i)); [lia|]. destruct (Nat.eqb_spec k (a + (2 * i + 1))); [lia|]. apply KO. auto.
    - intros i' Hi'. rewrite !get_upd by (rewrite ?upd_length'; lia).
      destruct (Nat.eqb_spec (a + 2 * i') (a + (2 * i + 1))); [lia|]. destruct (Nat.eqb_spec (a + (2 * i' + 1)) (a + 2 * i)); [lia|].
      destruct (Nat.eqb_spec (a + 2 * i') (a + 2 * i)), (Nat.eqb_spec (a + (2 * i' + 1)) (a + (2 * i + 1))); try lia; auto. apply V. lia. }
  rewrite E. cbn [bind]. clear E.
  (* a *)
  lazymatch goal with |- context [foldM ?f (seq 0 n) (w1, br_)] =>
    destruct (foldM_inv (fun j s => snd s = (br_ + 2 * (j * mr))%nat /\ keeps w (fst s) (rng a (2 * mr)) /\
      forall i, (i < mr)%nat -> get (fst s) (a + 2 * i) = rsum j (fun j => func0 d n j * ((cl j i + cu j i) / 2)) /\
         get (fst s) (a + (2 * i + 1)) = rsum j (fun j => func1 d n j * ((cl j i + cu j i) / 2))) f n (w1, br_)) as ([w2 l2] & E & _ & K2 & V2) end.
  { cbn [fst snd]. split; [lia|]. split; [auto|]. intros i Hi. apply V1. auto. }
  { intros j [s l] Hj (El & K & V). cbn [fst snd] in *. subst l. rewrite !rd_get by lia. cbn [bind]. fold (func0 d n j) (func1 d n j).
    lazymatch goal with |- context [foldM ?f (seq 0 mr) (s, ?l)] =>
      destruct (pairs_loop f (fun i => (br_ + 2 * (j * mr) + 2 * i)%nat) s a mr
        (fun i => get s (a + 2 * i) + func0 d n j * ((cl j i + cu j i) / 2)) (fun i => get s (a + (2 * i + 1)) + func1 d n j * ((cl j i + cu j i) / 2))) as (w' & E & Kw & Vw) end.
    - destruct K; lia.
    - intros s' i Hi Ks S0 S1. pose proof (row_lt j i mr n Hj Hi) as RL. pose proof (keeps_trans _ _ _ _ _ (rng a (2 * mr)) K Ks (fun _ h => h) (fun _ h => h)) as [KL KO].
      rewrite !rd_get by lia. cbn [bind].
      rewrite !acc_get by lia. cbn [bind]. rewrite acc_get by (rewrite upd_length'; lia). cbn [bind]. rewrite get_upd by lia.
      destruct (Nat.eqb_spec (a + (2 * i + 1)) (a + 2 * i)); [lia|]. rewrite S0, S1. unfold cl, cu.
      rewrite !KO by (unfold rng; lia). replace (br_ + (2 * (j * mr + i) + 0))%nat with (br_ + 2 * (j * mr) + 2 * i)%nat by lia.
      replace (br_ + (2 * (j * mr + i) + 1))%nat with (br_ + 2 * (j * mr) + 2 * i + 1)%nat by lia. do 2 f_equal. lia.
    - rewrite Nat.mul_0_r, Nat.add_0_r in E. rewrite E. eexists. split; [reflexivity|]. cbn [fst snd]. split; [lia|]. split.
      + eapply keeps_trans; [exact K|exact Kw|auto|auto].
      + intros i Hi. cbn [rsum]. destruct (Vw i Hi) as [-> ->]. destruct (V i Hi) as [-> ->]. auto. }
  cbn [fst] in K2, V2. rewrite E. cbn [bind]. clear E.
  assert (A2 : forall i, (i < mr)%nat -> get w2 (a + 2 * i) = e0 i /\ get w2 (a + (2 * i + 1)) = e1 i) by (intros i Hi; apply V2; auto).
  (* b *)
  lazymatch goal with |- context [foldM ?f (seq 0 mr) (w2, b_)] =>
    destruct (foldM_inv (fun i s => snd s = (b_ + 2 * (i * m))%nat /\ keeps w2 (fst s) (rng b_ (2 * (mr * m))) /\
      forall i' k, (i' < i)%nat -> (k < m)%nat -> get (fst s) (b_ + (2 * (i' * m + k) + 0)) = e0 i' + e1 i' * point d n k /\
         get (fst s) (b_ + (2 * (i' * m + k) + 1)) = e0 i' + e1 i' * point d n k) f mr (w2, b_)) as ([w3 l3] & E & _ & K3 & V3) end.
  { cbn [fst snd]. split; [lia|]. split; [apply keeps_refl|]. intros; lia. }
  { intros i [s l] Hi (El & K & V). cbn [fst snd] in *. subst l. assert (L2 : length w2 = length w) by apply K2. assert (Ls : length s = length w) by (destruct K; congruence).
    rewrite !rd_get by lia. cbn [bind]. destruct K as [KL KO]. rewrite !KO by (unfold rng; lia). destruct (A2 i Hi) as [-> ->].
    assert (RM : forall k, (k < m)%nat -> (i * m + k < mr * m)%nat) by (intros; apply row_lt; auto).
    lazymatch goal with |- context [foldM ?f (seq 0 m) (s, ?l)] =>
      destruct (pairs_loop f (fun k => (b_ + 2 * (i * m) + 2 * k)%nat) s (b_ + 2 * (i * m)) m
        (fun k => e0 i + e1 i * point d n k) (fun k => e0 i + e1 i * point d n k)) as (w' & E & Kw & Vw) end.
    - nia.
    - intros s' k Hk [KL' _] _ _. specialize (RM k Hk). rewrite rd_get by lia. cbn [bind]. rewrite wr_get by lia. cbn [bind].
      rewrite wr_get by (rewrite upd_length'; lia). cbn [bind]. fold (point d n k). rewrite Nat.add_assoc. do 2 f_equal. lia.
    - rewrite Nat.mul_0_r, Nat.add_0_r in E. rewrite E. eexists. split; [reflexivity|]. cbn [fst snd]. split; [lia|]. split.
      + eapply keeps_trans; [split; [exact KL|exact KO]|exact Kw|auto|]. intros k. unfold rng. nia.
      + intros i' k Hi' Hk. destruct (Nat.eq_dec i' i) as [->|Hne].
        * destruct (Vw k Hk) as [X Y]. split; [rewrite <- X|rewrite <- Y]; f_equal; lia.
        * destruct Kw as [_ KO']. pose proof (row_ne i i' k m Hk (not_eq_sym Hne)). rewrite !KO' by (unfold rng; lia). apply V; [lia|auto]. }
  cbn [fst] in K3, V3. rewrite E. cbn [bind]. clear E.
  assert (L3 : length w3 = length w) by (destruct K2, K3; congruence).
  (* sums *)
  set (L := (3 * n + m + 2 * (n * m))%nat) in *.
  lazymatch goal with |- context [foldM ?f (seq 0 n) (w3, br_, L)] =>
    destruct (foldM_inv (fun j s => snd (fst s) = (br_ + 2 * (j * mr))%nat /\ snd s = (L + 4 * (j * m))%nat /\ keeps w3 (fst (fst s)) (rng b_ (2 * (mr * m))) /\
      forall i k, (i < mr)%nat -> (k < m)%nat -> get (fst (fst s)) (b_ + (2 * (i * m + k) + 0)) = e0 i + e1 i * point d n k + rsum j (dlo i k) /\
         get (fst (fst s)) (b_ + (2 * (i * m + k) + 1)) = e0 i + e1 i * point d n k + rsum j (dup i k)) f n (w3, br_, L)) as ([[w4 l4] l5] & E & _ & _ & K4 & V4) end.
  { cbn [fst snd]. split; [lia|]. split; [lia|]. split; [apply keeps_refl|]. intros i k Hi Hk. cbn [rsum]. rewrite !Rplus_0_r. apply V3; auto. }
  { intros j [[s l] lp] Hj (El & Elp & K & V). cbn [fst snd] in *. subst l lp. rewrite rd_get by lia. cbn [bind]. change (get d (0 + j)) with (node d j).
    lazymatch goal with |- context [foldM ?f (seq 0 mr) (s, b_, ?l)] =>
      destruct (foldM_inv (fun i st => snd (fst st) = (b_ + 2 * (i * m))%nat /\ snd st = (br_ + 2 * (j * mr + i))%nat /\ keeps s (fst (fst st)) (rng b_ (2 * (mr * m))) /\
      forall i' k, (i' < mr)%nat -> (k < m)%nat -> 
         get (fst (fst st)) (b_ + (2 * (i' * m + k) + 0)) = get s (b_ + (2 * (i' * m + k) + 0)) + (if (i' <? i)%nat then dlo i' k j else 0) /\
         get (fst (fst st)) (b_ + (2 * (i' * m + k) + 1)) = get s (b_ + (2 * (i' * m + k) + 1)) + (if (i' <? i)%nat then dup i' k j else 0)) f mr (s, b_, l)) as ([[s4 l4] l5] & E & _ & El5 & Ks & Vs) end.
    - cbn [fst snd]. split; [lia|]. split; [lia|]. split; [apply keeps_refl|]. intros i' k Hi' Hk. destruct (Nat.ltb_spec i' 0); [lia|]. split; lra.
    - intros i [[s' l] lp] Hi (El & Elp & K' & V'). cbn [fst snd] in *. subst l lp. pose proof (row_lt j i mr n Hj Hi) as RL.
      assert (Kw : keeps w s' (fun k => rng b_ (2 * (mr * m)) k \/ rng a (2 * mr) k)).
      { eapply keeps_trans; [exact K2| |auto|intros k h; left; exact h].
        eapply keeps_trans; [exact K3| |auto|intros k h; exact h]. eapply keeps_trans; [exact K|exact K'|auto|auto]. }
      assert (Ka : forall k, rng a (2 * mr) k -> get s' k = get w2 k).
      { intros k Hk. unfold rng in Hk. destruct K' as [_ O1], K as [_ O2], K3 as [_ O3]. rewrite O1, O2, O3; auto; unfold rng; lia. }
      destruct Kw as [KL KO]. rewrite !rd_get by lia. cbn [bind]. rewrite (Ka (a + 2 * i)%nat), (Ka (a + (2 * i + 1))%nat) by (unfold rng; lia). destruct (A2 i Hi) as [-> ->].
      rewrite (KO (br_ + 2 * (j * mr + i))%nat), (KO (br_ + 2 * (j * mr + i) + 1)%nat) by (unfold rng; lia).
      replace (br_ + 2 * (j * mr + i) + 1)%nat with (br_ + (2 * (j * mr + i) + 1))%nat by lia. replace (get w (br_ + 2 * (j * mr + i))) with (cl j i) by (unfold cl; f_equal; lia).
      fold (cu j i). fold (tr i j).
      assert (RM : forall k, (k < m)%nat -> (i * m + k < mr * m)%nat) by (intros; apply row_lt; auto).
      assert (RN : forall k, (k < m)%nat -> (j * m + k < n * m)%nat) by (intros; apply row_lt; auto).
      set (W0 := cl j i - tr i j) in *. set (W1 := cu j i - tr i j) in *.
      assert (G : forall F G' : R -> R -> R -> R -> R, exists s'', foldM (fun '(w, b) k =>
              l0 <- rd d (L + 4 * (j * m) + 4 * k) ;; l1 <- rd d (L + 4 * (j * m) + (4 * k + 1)) ;;
              l2 <- rd d (L + 4 * (j * m) + (4 * k + 2)) ;; l3 <- rd d (L + 4 * (j * m) + (4 * k + 3)) ;;
              w <- acc w b (F l0 l1 l2 l3) ;; w <- acc w (b + 1) (G' l0 l1 l2 l3) ;; Ok (w, (b + 1 + 1)%nat)) (seq 0 m) (s', (b_ + 2 * (i * m))%nat) = Ok (s'', (b_ + 2 * (i * m) + 2 * m)%nat) /\
          keeps s' s'' (rng (b_ + 2 * (i * m)) (2 * m)) /\ forall k, (k < m)%nat ->
            get s'' (b_ + (2 * (i * m + k) + 0)) = get s' (b_ + (2 * (i * m + k) + 0)) + F (signed d n m 0 j k) (signed d n m 1 j k) (signed d n m 2 j k) (signed d n m 3 j k) /\
            get s'' (b_ + (2 * (i * m + k) + 1)) = get s' (b_ + (2 * (i * m + k) + 1)) + G' (signed d n m 0 j k) (signed d n m 1 j k) (signed d n m 2 j k) (signed d n m 3 j k)).
      { intros F G'.
        lazymatch goal with |- context [foldM ?f (seq 0 m) (s', ?l)] =>
          destruct (pairs_loop f (fun k => (b_ + 2 * (i * m) + 2 * k)%nat) s' (b_ + 2 * (i * m)) m
            (fun k => get s' (b_ + 2 * (i * m) + 2 * k) + F (signed d n m 0 j k) (signed d n m 1 j k) (signed d n m 2 j k) (signed d n m 3 j k))
            (fun k => get s' (b_ + 2 * (i * m) + (2 * k + 1)) + G' (signed d n m 0 j k) (signed d n m 1 j k) (signed d n m 2 j k) (signed d n m 3 j k))) as (s'' & E & Kw & Vw) end.
        - nia.
        - intros x k Hk [KL' _] S0 S1. specialize (RM k Hk). specialize (RN k Hk). rewrite !rd_get by lia. cbn [bind]. rewrite acc_get by lia. cbn [bind].
          rewrite acc_get by (rewrite upd_length'; lia). cbn [bind]. rewrite get_upd by lia. destruct (Nat.eqb_spec (b_ + 2 * (i * m) + 2 * k + 1) (b_ + 2 * (i * m) + 2 * k)); [lia|].
          replace (b_ + 2 * (i * m) + 2 * k + 1)%nat with (b_ + 2 * (i * m) + (2 * k + 1))%nat by lia. rewrite S0, S1. unfold signed.
          replace (3 * n + m + 2 * n * m)%nat with L by (unfold L; lia).
          replace (L + (4 * (j * m + k) + 0))%nat with (L + 4 * (j * m) + 4 * k)%nat by lia. replace (L + (4 * (j * m + k) + 1))%nat with (L + 4 * (j * m) + (4 * k + 1))%nat by lia.
          replace (L + (4 * (j * m + k) + 2))%nat with (L + 4 * (j * m) + (4 * k + 2))%nat by lia. replace (L + (4 * (j * m + k) + 3))%nat with (L + 4 * (j * m) + (4 * k + 3))%nat by lia.
          do 2 f_equal. lia.
        - rewrite Nat.mul_0_r, Nat.add_0_r in E. exists s''. split; [exact E|]. split; [exact Kw|]. intros k Hk.
          replace (b_ + (2 * (i * m + k) + 0))%nat with (b_ + 2 * (i * m) + 2 * k)%nat by lia. replace (b_ + (2 * (i * m + k) + 1))%nat with (b_ + 2 * (i * m) + (2 * k + 1))%nat by lia. auto. }
      assert (G2 : forall s'' (F G' : R -> R -> R -> R -> R), keeps s' s'' (rng (b_ + 2 * (i * m)) (2 * m)) -> (forall k, (k < m)%nat ->
            get s'' (b_ + (2 * (i * m + k) + 0)) = get s' (b_ + (2 * (i * m + k) + 0)) + F (signed d n m 0 j k) (signed d n m 1 j k) (signed d n m 2 j k) (signed d n m 3 j k) /\
            get s'' (b_ + (2 * (i * m + k) + 1)) = get s' (b_ + (2 * (i * m + k) + 1)) + G' (signed d n m 0 j k) (signed d n m 1 j k) (signed d n m 2 j k) (signed d n m 3 j k)) ->
            (forall l0 l1 l2 l3, elo W0 W1 l0 l1 l2 l3 = F l0 l1 l2 l3 /\ eup W0 W1 l0 l1 l2 l3 = G' l0 l1 l2 l3) ->
            keeps s s'' (rng b_ (2 * (mr * m))) /\ forall i' k, (i' < mr)%nat -> (k < m)%nat ->
         get s'' (b_ + (2 * (i' * m + k) + 0)) = get s (b_ + (2 * (i' * m + k) + 0)) + (if (i' <? S i)%nat then dlo i' k j else 0) /\
         get s'' (b_ + (2 * (i' * m + k) + 1)) = get s (b_ + (2 * (i' * m + k) + 1)) + (if (i' <? S i)%nat then dup i' k j else 0)).
      { intros s'' F G' Ks Vs HF. split; [eapply keeps_trans; [exact K'|exact Ks|auto|]; intros k; unfold rng; nia|].
        intros i' k Hi' Hk. destruct (V' i' k Hi' Hk) as [X Y]. destruct (Nat.eq_dec i' i) as [->|Hne].
        - rewrite Nat.ltb_irrefl in X, Y. destruct (Nat.ltb_spec i (S i)); [|lia]. destruct (Vs k Hk) as [-> ->]. rewrite X, Y. unfold dlo, dup. fold W0 W1.
          destruct (HF (signed d n m 0 j k) (signed d n m 1 j k) (signed d n m 2 j k) (signed d n m 3 j k)) as [-> ->]. split; lra.
        - destruct Ks as [_ KO']. pose proof (row_ne i i' k m Hk (not_eq_sym Hne)). rewrite !KO' by (unfold rng; lia). rewrite X, Y.
          destruct (Nat.ltb_spec i' i), (Nat.ltb_spec i' (S i)); auto; lia. }
      destruct (Rle_dec 0 W0) as [H0|H0]; [|destruct (Rle_dec W1 0) as [H1|H1]].
      + destruct (G (fun l0 l1 l2 l3 => W0 * l1 + W1 * l0) (fun l0 l1 l2 l3 => W1 * l3 + W0 * l2)) as (s'' & E & Ks & Vs).
        rewrite E. cbn [bind]. eexists. split; [reflexivity|]. cbn [fst snd]. split; [lia|]. split; [lia|]. apply (G2 s'' (fun l0 l1 l2 l3 => W0 * l1 + W1 * l0) (fun l0 l1 l2 l3 => W1 * l3 + W0 * l2) Ks Vs).
        intros x0 x1 x2 x3. unfold elo, eup. destruct (Rle_dec 0 W0); try contradiction; auto; destruct (Rle_dec W1 0); try contradiction; auto.
      + destruct (G (fun l0 l1 l2 l3 => W0 * l3 + W1 * l2) (fun l0 l1 l2 l3 => W1 * l1 + W0 * l0)) as (s'' & E & Ks & Vs).
        rewrite E. cbn [bind]. eexists. split; [reflexivity|]. cbn [fst snd]. split; [lia|]. split; [lia|]. apply (G2 s'' (fun l0 l1 l2 l3 => W0 * l3 + W1 * l2) (fun l0 l1 l2 l3 => W1 * l1 + W0 * l0) Ks Vs).
        intros x0 x1 x2 x3. unfold elo, eup. destruct (Rle_dec 0 W0); try contradiction; auto; destruct (Rle_dec W1 0); try contradiction; auto.
      + destruct (G (fun l0 l1 l2 l3 => W0 * l3 + W1 * l0) (fun l0 l1 l2 l3 => W1 * l3 + W0 * l0)) as (s'' & E & Ks & Vs).
        rewrite E. cbn [bind]. eexists. split; [reflexivity|]. cbn [fst snd]. split; [lia|]. split; [lia|]. apply (G2 s'' (fun l0 l1 l2 l3 => W0 * l3 + W1 * l0) (fun l0 l1 l2 l3 => W1 * l3 + W0 * l0) Ks Vs).
        intros x0 x1 x2 x3. unfold elo, eup. destruct (Rle_dec 0 W0); try contradiction; auto; destruct (Rle_dec W1 0); try contradiction; auto.
    - rewrite E. cbn [bind]. eexists. split; [reflexivity|]. cbn [fst snd] in *. split; [lia|]. split; [lia|]. split; [eapply keeps_trans; [exact K|exact Ks|auto|auto]|].
      intros i k Hi Hk. destruct (Vs i k Hi Hk) as [-> ->]. destruct (V i k Hi Hk) as [-> ->]. destruct (Nat.ltb_spec i mr); [|lia]. cbn [rsum]. split; ring. }
  rewrite E. cbn [bind]. exists w4. split; [auto|]. cbn [fst] in *. split; [|exact V4].
  eapply keeps_trans; [exact K2| |auto|intros k h; left; exact h]. eapply keeps_trans; [exact K3|exact K4|auto|auto].
Qed.
End Ext.
