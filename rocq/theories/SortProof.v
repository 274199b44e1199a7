(** sortv / sortp meet their specification. *)
From Verif Require Import Base BaseLemmas Sort SortSpec SortLemmas SortMergeProof SortHeapProof SortRadixProof.
From Coq Require Import ZifyBool ZifyNat ZifyN.
Ltac Zify.zify_post_hook ::= idtac.

Lemma N_ltb_sw : strict_weak N.ltb.
Proof. constructor; intros; lia. Qed.

Lemma N_geb_neg a b : N_geb a b = negb (a <? b)%N.
Proof. unfold N_geb; lia. Qed.

Lemma sd_ltb_sw {T} (ltb : T -> T -> bool) : strict_weak ltb -> strict_weak (sd_ltb ltb).
Proof.
  intros [H1 H2 H3]; constructor; unfold sd_ltb; intros; eauto.
Qed.

Lemma merge_sortv_ok {T} (ltb : T -> T -> bool) out A work :
  strict_weak ltb -> 2 <= length A -> length out = length A -> length work = length A ->
  exists r, merge_sortv ltb out A work = Ok r /\ stably_sorts ltb A r.
Proof.
  intros SW HA Ho Hw. unfold merge_sortv.
  destruct (merge_sort_ok ltb SW (rd A) A) with (n := length A) (b0 := out) (b1 := work)
    as (r & R & St); auto.
  - intros j v H. apply rd_ok; auto.
  - exists r. split; auto. apply stable_iff; auto.
Qed.

Theorem sortv_ok D out A work :
  length out = length A -> length work = length A ->
  (forall v, In v A -> (v < 2 ^ (8 * N.of_nat D))%N) ->
  forall us, exists r, sortv D false us out A work = Ok r /\ stably_sorts N.ltb A r.
Proof.
  intros Ho Hw HD us. unfold sortv.
  destruct (Nat.ltb_spec (length A) 256) as [Hn|Hn].
  - destruct A as [|a [|a' A]].
    + destruct out; [|discriminate]. exists []. split; auto.
      apply stable_iff; [apply N_ltb_sw|apply stable_nil].
    + destruct out as [|o [|]]; try discriminate. exists [a]. split; auto.
      apply stable_iff; [apply N_ltb_sw|apply stable_single].
    + apply merge_sortv_ok; auto; [apply N_ltb_sw|simpl; lia].
  - destruct (radix_sortv_ok D false out A work) as (r & R & St); auto.
    + destruct A; [simpl in Hn; lia|discriminate].
    + exists r. split; auto. apply stable_iff; auto. apply N_ltb_sw.
Qed.

Theorem sortv_inplace_ok D A out work :
  length work = length A ->
  (forall v, In v A -> (v < 2 ^ (8 * N.of_nat D))%N) ->
  exists r, sortv D true true out A work = Ok r /\ Permutation A r /\ sorted_by N.ltb r.
Proof.
  intros Hw HD. unfold sortv.
  destruct (Nat.ltb_spec (length A) 256) as [Hn|Hn].
  - destruct A as [|a [|a' A]].
    + exists []. split; auto. split; auto. intros i j x y _ H. destruct i; discriminate.
    + exists [a]. split; auto. split; auto. intros i j x y Hij H H'.
      destruct j as [|[|j]]; try discriminate. lia.
    + apply heap_sortv_ok; [apply N_ltb_sw|apply N_geb_neg|simpl; lia].
  - destruct (radix_sortv_ok D true A A work) as (r & R & St); auto.
    + destruct A; [simpl in Hn; lia|discriminate].
    + exists r. split; auto. apply stable_iff in St; [|apply N_ltb_sw]. destruct St; auto.
Qed.

(** In-place sorting with a stride other than sizeof(T) and 2 <= n < 256 is rejected. *)
Theorem sortv_inplace_stride D A out work :
  2 <= length A < 256 -> sortv D true false out A work = Abort.
Proof.
  intros H. unfold sortv. destruct (Nat.ltb_spec (length A) 256); [|lia].
  destruct A as [|a [|a' A]]; simpl in *; auto; lia.
Qed.

(** ** Permutation sorts *)
Lemma mcp_copies_ok {T} (p : list (@sort_data T)) : forall n k idx,
  k + n <= length idx -> k + n <= length p ->
  mcp_copies idx p k n = Ok (firstn k idx ++ slice k n (map sd_i p) ++ skipn (k + n) idx).
Proof.
  induction n as [|n IH]; intros k idx Hi Hp; cbn [mcp_copies].
  - unfold slice. cbn [firstn app]. rewrite Nat.add_0_r, firstn_skipn. auto.
  - destruct (nth_error_lt_Some p k) as [d Hd]; [lia|].
    rewrite (rd_ok _ _ _ Hd). cbn [bind]. rewrite wr_ok by lia. cbn [bind].
    rewrite IH by (rewrite ?upd_length; lia). f_equal.
    replace (slice k (S n) (map sd_i p)) with (sd_i d :: slice (S k) n (map sd_i p)).
    2:{ unfold slice. rewrite (skipn_cons _ k (sd_i d)) by (apply nth_error_map_Some; auto). auto. }
    rewrite (firstn_snoc _ k (sd_i d)) by (rewrite nth_error_upd_eq; auto; lia).
    rewrite <- app_assoc. cbn [app].
    assert (E1 : firstn k (upd idx k (sd_i d)) = firstn k idx).
    { apply nth_error_ext. intros j. destruct (lt_dec j k).
      - rewrite !nth_error_firstn' by auto. apply nth_error_upd_ne; lia.
      - rewrite !(proj2 (nth_error_None _ _)); auto; rewrite firstn_length; lia. }
    assert (E2 : skipn (S k + n) (upd idx k (sd_i d)) = skipn (S k + n) idx).
    { apply nth_error_ext. intros j. rewrite !nth_error_skipn'. apply nth_error_upd_ne; lia. }
    rewrite E1, E2. replace (k + S n) with (S k + n) by lia. auto.
Qed.

Lemma merge_copy_perm_ok {T} idx (p : list (@sort_data T)) n :
  1 <= n -> length idx = n -> length p = n -> merge_copy_perm idx p n = Ok (map sd_i p).
Proof.
  intros Hn Hi Hp. unfold merge_copy_perm.
  pose proof (Nat.div_mod n 8 ltac:(lia)) as E. pose proof (Nat.mod_upper_bound n 8 ltac:(lia)).
  pose proof (Nat.div_mod (n + 7) 8 ltac:(lia)) as E'. pose proof (Nat.mod_upper_bound (n + 7) 8 ltac:(lia)).
  destruct (Nat.eqb_spec ((n + 7) / 8) 0); [lia|].
  replace ((if n mod 8 =? 0 then 8 else n mod 8) + 8 * ((n + 7) / 8 - 1)) with n.
  2:{ destruct (Nat.eqb_spec (n mod 8) 0); lia. }
  rewrite mcp_copies_ok by lia. cbn [firstn app Nat.add].
  unfold slice. cbn [skipn]. rewrite <- Hi at 2. rewrite skipn_all, app_nil_r.
  replace n with (length (map sd_i p)) by (rewrite map_length; auto). rewrite firstn_all. auto.
Qed.

(** From sort_data to indices. *)
Lemma stable_sd_index {T} (ltb : T -> T -> bool) A d p r :
  strict_weak ltb -> (forall j, In j p -> j < length A) ->
  stable (sd_ltb ltb) (map (mk_sd A d) p) r ->
  stably_sorts (index_lt ltb A) p (map sd_i r).
Proof.
  intros SW Hp St. apply stable_iff in St; [|apply sd_ltb_sw; auto].
  destruct St as [P S F].
  assert (Er : r = map (mk_sd A d) (map sd_i r)).
  { rewrite map_map. rewrite <- (map_id r) at 1. apply map_ext_in. intros x Hx.
    eapply Permutation_in in Hx; [|symmetry; exact P]. apply in_map_iff in Hx as (j & <- & _). auto. }
  assert (Hr : forall j, In j (map sd_i r) -> j < length A).
  { intros j Hj. apply Hp. eapply Permutation_in in Hj; [|symmetry; apply Permutation_map; exact P].
    rewrite map_map in Hj. simpl in Hj. rewrite map_id in Hj. auto. }
  assert (Hlt : forall i j, i < length A -> j < length A ->
            index_lt ltb A i j = sd_ltb ltb (mk_sd A d i) (mk_sd A d j)).
  { intros i j Hi Hj. unfold index_lt, sd_ltb, mk_sd. simpl.
    rewrite !(nth_error_nth' _ d) by auto. auto. }
  constructor.
  - apply (Permutation_map sd_i) in P. rewrite map_map in P. simpl in P. rewrite map_id in P. auto.
  - intros i j x y Hij Hi Hj.
    rewrite Hlt by (apply Hr; eapply nth_error_In; eauto).
    rewrite Er in S. eapply (S i j); auto; apply nth_error_map_Some; auto.
  - intros k Hk. specialize (F (mk_sd A d k)). rewrite Er in F.
    assert (G : forall q, (forall j, In j q -> j < length A) ->
       filter (equivb (sd_ltb ltb) (mk_sd A d k)) (map (mk_sd A d) q) =
       map (mk_sd A d) (filter (equivb (index_lt ltb A) k) q)).
    { induction q as [|j q IH]; intros Hq; simpl; auto.
      rewrite IH by (intros; apply Hq; right; auto).
      unfold equivb. rewrite !Hlt by (auto; apply Hq; left; auto).
      destruct (negb _ && negb _); auto. }
    rewrite !G in F by auto.
    apply (f_equal (map sd_i)) in F. rewrite !map_map in F. simpl in F. rewrite !map_id in F.
    apply F. apply in_map; auto.
Qed.

Lemma merge_sortp_ok {T} (ltb : T -> T -> bool) (start : bool) idx A wlo whi :
  strict_weak ltb -> 2 <= length A -> length idx = length A ->
  length wlo = length A -> length whi = length A ->
  (start = true -> is_perm (length A) idx) ->
  exists r, (if start then merge_sortp ltb idx A wlo whi else merge_sortp0 ltb idx A wlo whi) = Ok r
    /\ stably_sorts (index_lt ltb A) (if start then idx else seq 0 (length A)) r.
Proof.
  intros SW HA Hi Hlo Hhi Hstart.
  destruct A as [|d A0] eqn:EA; [simpl in HA; lia|]. rewrite <- EA in *.
  set (p0 := if start then idx else seq 0 (length A)).
  assert (Pp0 : is_perm (length A) p0).
  { unfold p0. destruct start; auto. apply Permutation_refl. }
  assert (Hp0 : forall j, In j p0 -> j < length A).
  { intros j Hj. eapply Permutation_in in Hj; [|symmetry; exact Pp0]. apply in_seq in Hj; lia. }
  assert (Lp0 : length p0 = length A).
  { apply Permutation_length in Pp0. rewrite seq_length in Pp0; auto. }
  set (vals := map (mk_sd A d) p0).
  set (setval := if start then (fun ai => j <- rd idx ai ;; v <- rd A j ;; Ok (SD v j))
                 else (fun ai => v <- rd A ai ;; Ok (SD v ai))).
  assert (Hset : forall j v, nth_error vals j = Some v -> setval j = Ok v).
  { intros j v Hj. unfold vals in Hj. rewrite nth_error_map in Hj.
    destruct (nth_error p0 j) as [q|] eqn:Eq; [|discriminate]. simpl in Hj. injection Hj as <-.
    assert (Hq : q < length A) by (apply Hp0; eapply nth_error_In; eauto).
    unfold setval. destruct start; unfold p0 in Eq.
    - rewrite (rd_ok _ _ _ Eq). cbn [bind]. rewrite (rd_nth _ _ d) by auto. reflexivity.
    - assert (Hj : j < length A) by (apply nth_error_Some_lt in Eq; rewrite seq_length in Eq; auto).
      rewrite seq_nth_error in Eq by auto. injection Eq as <-. simpl.
      rewrite (rd_nth _ _ d) by auto. reflexivity. }
  destruct (merge_sort_ok (sd_ltb ltb) (sd_ltb_sw ltb SW) setval vals Hset (length A) whi wlo)
    as (r & R & St); auto.
  { unfold vals. rewrite map_length; auto. }
  exists (map sd_i r). split.
  - assert (Lr : length r = length A).
    { apply stable_length in St. rewrite St. unfold vals. rewrite map_length; auto. }
    destruct start; unfold merge_sortp, merge_sortp0; unfold setval in R; rewrite R; cbn [bind];
      apply merge_copy_perm_ok; auto; lia.
  - eapply stable_sd_index; eauto.
Qed.

Theorem sortp_ok D start perm A wlo whi w :
  length perm = length A -> length wlo = length A -> length whi = length A ->
  length w = length A ->
  (forall v, In v A -> (v < 2 ^ (8 * N.of_nat D))%N) ->
  (start = true -> is_perm (length A) perm) ->
  exists r, sortp D start perm A wlo whi w = Ok r /\
    stably_sorts (index_lt N.ltb A) (if start then perm else seq 0 (length A)) r.
Proof.
  intros Hp Hlo Hhi Hw HD Hstart. unfold sortp.
  destruct (Nat.ltb_spec (length A) 256) as [Hn|Hn].
  - destruct A as [|a [|a' A]].
    + destruct perm; [|discriminate]. exists []. split; auto.
      destruct start; simpl; (constructor; [auto | intros i j x y _ H; destruct i; discriminate | intros k Hk; auto]).
    + destruct perm as [|o [|]]; try discriminate. exists [0]. split; auto.
      assert (E : (if start then [o] else seq 0 (length [a])) = [0]).
      { destruct start; auto. specialize (Hstart eq_refl). apply Permutation_length_1_inv in Hstart. auto. }
      rewrite E. constructor; auto. intros i j x y Hij H H'. destruct j as [|[|j]]; try discriminate. lia.
    + apply merge_sortp_ok; auto; [apply N_ltb_sw|simpl; lia].
  - destruct (radix_sortp_ok D start perm A wlo whi w 0%N) as (r & R & St); auto.
    + destruct A; [simpl in Hn; lia|discriminate].
    + exists (map sd_i r). split; auto. eapply stable_sd_index; eauto; [apply N_ltb_sw|].
      intros j Hj.
      assert (Pp0 : is_perm (length A) (if start then perm else seq 0 (length A))).
      { destruct start; auto. apply Permutation_refl. }
      eapply Permutation_in in Hj; [|symmetry; exact Pp0]. apply in_seq in Hj; lia.
Qed.

Theorem sortp_real_ok {T} (ltb : T -> T -> bool) start perm A wlo whi :
  strict_weak ltb ->
  length perm = length A -> length wlo = length A -> length whi = length A ->
  (start = true -> is_perm (length A) perm) ->
  exists r, sortp_real ltb start perm A wlo whi = Ok r /\
    stably_sorts (index_lt ltb A) (if start then perm else seq 0 (length A)) r.
Proof.
  intros SW Hp Hlo Hhi Hstart. unfold sortp_real.
  destruct A as [|a [|a' A]].
  + destruct perm; [|discriminate]. exists []. split; auto.
    destruct start; simpl; (constructor; [auto | intros i j x y _ H; destruct i; discriminate | intros k Hk; auto]).
  + destruct perm as [|o [|]]; try discriminate. exists [0]. split; auto.
    assert (E : (if start then [o] else seq 0 (length [a])) = [0]).
    { destruct start; auto. specialize (Hstart eq_refl). apply Permutation_length_1_inv in Hstart. auto. }
    rewrite E. constructor; auto. intros i j x y Hij H H'. destruct j as [|[|j]]; try discriminate. lia.
  + apply merge_sortp_ok; auto; simpl; lia.
Qed.

Theorem sortv_real_ok {T} (ltb geb : T -> T -> bool) out A work us :
  strict_weak ltb -> length out = length A -> length work = length A ->
  exists r, sortv_real ltb geb false us out A work = Ok r /\ stably_sorts ltb A r.
Proof.
  intros SW Ho Hw. unfold sortv_real.
  destruct A as [|a [|a' A]].
  + destruct out; [|discriminate]. exists []. split; auto. apply stable_iff; auto. apply stable_nil.
  + destruct out as [|o [|]]; try discriminate. exists [a]. split; auto.
    apply stable_iff; auto. apply stable_single.
  + apply merge_sortv_ok; auto. simpl; lia.
Qed.

Theorem sortv_real_inplace_ok {T} (ltb geb : T -> T -> bool) out A work :
  strict_weak ltb -> (forall a b, geb a b = negb (ltb a b)) ->
  exists r, sortv_real ltb geb true true out A work = Ok r /\ Permutation A r /\ sorted_by ltb r.
Proof.
  intros SW Hge. unfold sortv_real.
  destruct A as [|a [|a' A]].
  + exists []. split; auto. split; auto. intros i j x y _ H. destruct i; discriminate.
  + exists [a]. split; auto. split; auto. intros i j x y Hij H H'.
    destruct j as [|[|j]]; try discriminate. lia.
  + apply heap_sortv_ok; auto. simpl; lia.
Qed.
