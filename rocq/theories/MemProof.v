From Verif Require Import Base Mem MemSpec.

Section P.
Variable M : nat.

Lemma szt_small x : x < M -> szt M x = x.
Proof. intros H. unfold szt. apply Nat.mod_small; auto. Qed.

Lemma align_lt a n : 1 <= a -> n + a < M -> align_as M a n = (n + a - 1) / a * a.
Proof.
  intros Ha H. unfold align_as. assert (E : szt M (n + a + M - 1) = n + a - 1).
  { unfold szt. replace (n + a + M - 1) with (n + a - 1 + 1 * M) by lia. rewrite Nat.mod_add by lia. apply Nat.mod_small. lia. }
  rewrite E. apply szt_small. pose proof (Nat.mul_div_le (n + a - 1) a ltac:(lia)). nia.
Qed.
Lemma align_spec a n : 1 <= a -> n + a < M ->
  Nat.divide a (align_as M a n) /\ n <= align_as M a n < n + a /\
  forall k, Nat.divide a k -> n <= k -> align_as M a n <= k.
Proof.
  intros Ha H. rewrite align_lt by auto.
  pose proof (Nat.div_mod (n + a - 1) a ltac:(lia)) as D. pose proof (Nat.mod_upper_bound (n + a - 1) a ltac:(lia)) as B.
  set (q := (n + a - 1) / a) in *. set (r := (n + a - 1) mod a) in *.
  split; [exists q; auto|]. split; [nia|]. intros k [j ->] Hk.
  assert (q <= j); [|nia]. destruct (Nat.le_gt_cases q j); auto. exfalso. nia.
Qed.

Lemma reserve_ok size a min : 1 <= size -> wf M size a -> 2 * min * size < M ->
  let a' := array_reserve M a min size in
  wf M size a' /\ min <= amax a' /\ amax a <= amax a' /\ an a' = an a /\
  firstn (amax a * size) (ptr a') = ptr a /\
  (amax a' = amax a \/ amax a < min /\ 3 * (amax a + 1) <= 2 * (amax a' + 1)).
Proof.
  intros Hs (H1 & H2 & H3) Hm. cbv zeta. unfold array_reserve. destruct (Nat.ltb_spec (amax a) min) as [L|L].
  2:{ repeat split; auto. rewrite <- H2. apply firstn_all. }
  assert (Hd : amax a / 2 * 2 <= amax a < amax a / 2 * 2 + 2).
  { pose proof (Nat.div_mod (amax a) 2 ltac:(lia)). pose proof (Nat.mod_upper_bound (amax a) 2 ltac:(lia)). lia. }
  set (h := amax a / 2) in *.
  assert (B : 2 * (amax a + h + 1) <= 3 * min) by lia.
  assert (Bm : 2 * min < M) by nia.
  rewrite (szt_small (h + 1)) by lia. rewrite (szt_small (amax a + (h + 1))) by lia.
  set (mx := if amax a + (h + 1) <? min then min else amax a + (h + 1)).
  assert (Hx : min <= mx /\ amax a + (h + 1) <= mx /\ mx <= 2 * min).
  { unfold mx. destruct (Nat.ltb_spec (amax a + (h + 1)) min); lia. }
  assert (Hb : mx * size < M) by nia.
  unfold wf, array_resize. cbn [an amax ptr]. rewrite (szt_small _ Hb). unfold realloc.
  assert (Hk : amax a * size <= mx * size) by nia.
  assert (L1 : length (firstn (mx * size) (ptr a)) = amax a * size) by (rewrite firstn_length; lia).
  repeat split; auto; try lia.
  - rewrite app_length, L1, repeat_length, H2. lia.
  - rewrite firstn_app, L1, Nat.sub_diag, firstn_O, app_nil_r, firstn_firstn, Nat.min_l by lia.
    apply firstn_all2. lia.
Qed.

Lemma cat_ok size a s n bytes : 1 <= size -> wf M size a -> 2 * (an a + n) * size < M -> n * size <= length s ->
  holds size a bytes ->
  exists a', array_cat M size a s n = Ok a' /\ wf M size a' /\ an a' = an a + n /\ amax a <= amax a' /\
    holds size a' (bytes ++ firstn (n * size) s) /\
    (amax a' = amax a \/ amax a < an a + n /\ 3 * (amax a + 1) <= 2 * (amax a' + 1)).
Proof.
  intros Hs W Hm Hl [B1 B2]. unfold array_cat.
  assert (Hn : an a + n < M) by nia. rewrite (szt_small (an a + n)) by auto.
  destruct (reserve_ok size a (an a + n) Hs W Hm) as (W' & C1 & C2 & C3 & C4 & C5).
  set (d := array_reserve M a (an a + n) size) in *. destruct W' as (W1 & W2 & W3).
  rewrite C3, (szt_small (an a * size)), (szt_small (n * size)), (szt_small (an a + n)) by nia. unfold memcpy.
  rewrite (proj2 (Nat.leb_le _ _)) by (rewrite W2; nia). rewrite (proj2 (Nat.leb_le _ _) Hl). cbn [andb bind].
  assert (F1 : firstn (an a * size) (ptr d) = map Some bytes).
  { rewrite <- B2, <- C4, firstn_firstn, Nat.min_l; auto. destruct W as (Wa & _). nia. }
  assert (L1 : length (firstn (n * size) s) = n * size) by (rewrite firstn_length; lia).
  eexists. split; [reflexivity|]. unfold wf, holds. cbn [an amax ptr]. rewrite F1.
  assert (Lp : length (map Some bytes ++ map Some (firstn (n * size) s) ++ skipn (an a * size + n * size) (ptr d)) = amax d * size).
  { rewrite !app_length, !map_length, skipn_length, L1, W2, B1. nia. }
  repeat split; auto.
  - rewrite app_length, L1, B1. lia.
  - rewrite app_assoc, <- map_app, firstn_app, map_length, app_length, L1, B1.
    replace ((an a + n) * size - (an a * size + n * size)) with 0 by lia. rewrite firstn_O, app_nil_r.
    apply firstn_all2. rewrite map_length, app_length, L1, B1. lia.
Qed.

Lemma run_ok size N ops : forall a bytes, 1 <= size -> 2 * N * size < M -> wf M size a -> holds size a bytes ->
  within size N ops -> an a + items ops <= N ->
  exists a', run M size a ops = Ok a' /\ wf M size a' /\ an a' = an a + items ops /\ amax a <= amax a' /\
    holds size a' (bytes ++ appended size ops) /\
    (reallocs M size a ops = 0 \/ exists r, reallocs M size a ops = S r /\ 3 ^ r * (amax a + 1) <= 2 ^ r * N).
Proof.
  unfold run. induction ops as [|o ops IH]; intros a bytes Hs HN W B Hw Hi.
  - exists a. cbn [foldM items map fold_right appended concat reallocs]. rewrite Nat.add_0_r, app_nil_r. auto 10.
  - assert (Hw' : within size N ops) by (intros o' Ho; apply Hw; right; auto).
    assert (Hstep : exists a1 b1, run1 M size a o = Ok a1 /\ wf M size a1 /\ an a1 + items ops = an a + items (o :: ops) /\ amax a <= amax a1 /\
              holds size a1 b1 /\ b1 ++ appended size ops = bytes ++ appended size (o :: ops) /\
              (amax a1 = amax a \/ amax a < N /\ 3 * (amax a + 1) <= 2 * (amax a1 + 1))).
    { specialize (Hw o (or_introl eq_refl)). destruct o as [mn|s n]; cbn [run1]; unfold items in *; cbn [map fold_right] in Hi |- *; unfold appended; cbn [map concat].
      - destruct (reserve_ok size a mn Hs W ltac:(nia)) as (W' & C1 & C2 & C3 & C4 & C5).
        exists (array_reserve M a mn size), bytes. rewrite C3. destruct B as [B1 B2].
        split; [reflexivity|]. split; [auto|]. split; [lia|]. split; [auto|]. split; [|split; [auto|destruct C5; [auto|right; lia]]].
        split; [congruence|]. rewrite C3, <- B2, <- C4, firstn_firstn, Nat.min_l; auto. destruct W as (Wa & _). nia.
      - destruct (cat_ok size a s n bytes Hs W ltac:(nia) Hw B) as (a1 & E & W1 & E1 & C2 & B1 & C5).
        exists a1, (bytes ++ firstn (n * size) s). rewrite E1, app_assoc. split; [auto|]. split; [auto|]. split; [lia|]. split; [auto|]. split; [auto|]. split; [auto|].
        destruct C5; [auto|right; lia]. }
    destruct Hstep as (a1 & b1 & E & W1 & E1 & C2 & B1 & Eb & C5).
    destruct (IH a1 b1 Hs HN W1 B1 Hw' ltac:(lia)) as (a' & R & W' & Ea & Cm & Bh & Hr).
    exists a'. cbn [foldM reallocs]. rewrite E. cbn [bind]. rewrite <- Eb, <- E1. split; [auto|]. split; [auto|]. split; [auto|]. split; [lia|]. split; [auto|].
    destruct (Nat.eqb_spec (amax a1) (amax a)) as [Em|Em].
    + rewrite <- Em. rewrite Nat.add_0_l. exact Hr.
    + destruct C5 as [C5|[C5 C6]]; [lia|]. right. cbn [Nat.add]. eexists. split; [reflexivity|].
      destruct Hr as [->|(r & -> & Hr)]; [cbn [Nat.pow]; lia|].
      rewrite !Nat.pow_succ_r'. set (x := 3 ^ r) in *. set (y := 2 ^ r) in *. nia.
Qed.
End P.
