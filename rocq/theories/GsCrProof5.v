(** Execution of the crystal-router method: one stage. *)
From Verif Require Import Base BaseLemmas Net NetProof Sort SortSpec SortLemmas Transfer TransferProof2 OpsSpec CommSpec CommProof Kernels KernelSpec KernelProof ListLemmas Crystal CrystalProof
  GsTop GsSpec GsSortProof GsTopProof1 GsTopProof4 GsExec GsCr Gs GsKernProof GsPwProof1 GsPwProof2 GsPwProof3 GsArProof GsLocalProof GsRunProof GsCrProof1 GsCrProof2 GsCrProof3 GsCrProof4.
From Coq Require Import Sorting.Sorted Permutation.

(** ** The maps of a stage applied *)
Lemma pairs_s gs : pairs (s_groups gs) = map (fun g : cgroup => (fst (snd g), fst g)) gs.
Proof. unfold pairs, s_groups. induction gs as [|g gs IH]; cbn; auto. rewrite IH. auto. Qed.
Lemma pairs_g gs : pairs (g_groups gs) = flat_map (fun g : cgroup => map (fun o => (fst g, o)) (snd (snd g))) gs.
Proof.
  unfold pairs, g_groups. induction gs as [|[b [s os]] gs IH]; auto. cbn [flat_map fst snd]. rewrite flat_map_app, IH.
  destruct os; cbn [flat_map fst snd map]; rewrite ?app_nil_r; auto.
Qed.
Lemma valid_s SENT n m gs : n <= SENT -> m <= SENT -> (forall b s os, In (b, (s, os)) gs -> s < n /\ b < m) -> valid_map SENT n m (s_groups gs).
Proof.
  intros Hn Hm G. split; auto. split; auto. intros i js Hin. unfold s_groups in Hin. apply in_map_iff in Hin as ([b [s os]] & E & Hg).
  cbn in E. injection E as <- <-. destruct (G _ _ _ Hg). split; [discriminate|]. split; auto. intros j [<-|[]]; auto.
Qed.
Lemma valid_g SENT n m gs : n <= SENT -> m <= SENT -> (forall b s os, In (b, (s, os)) gs -> b < n /\ forall o, In o os -> o < m) -> valid_map SENT n m (g_groups gs).
Proof.
  intros Hn Hm G. split; auto. split; auto. intros i js Hin. unfold g_groups in Hin. apply in_flat_map in Hin as ([b [s os]] & Hg & Hin).
  cbn in Hin. destruct os as [|o os]; [destruct Hin|]. destruct Hin as [E|[]]. injection E as <- <-. destruct (G _ _ _ Hg). split; [discriminate|]. auto.
Qed.

Section Apply.
Context {T : Type}.
Variable op : T -> T -> T.
Lemma scattered_s gs (a : nat -> T) old : NoDup (map fst gs) -> forall b s os, In (b, (s, os)) gs -> scattered (s_groups gs) a b old = a s.
Proof.
  intros ND b s os Hin. unfold scattered. rewrite pairs_s.
  assert (E : filter (fun q : nat * nat => snd q =? b) (map (fun g : cgroup => (fst (snd g), fst g)) gs) = [(s, b)]); [|rewrite E; auto].
  rewrite filter_map. cbn [snd]. induction gs as [|[b' [s' os']] gs IH]; [destruct Hin|]. cbn [map fst] in ND. inversion ND as [|? ? N ND']; subst.
  cbn [filter fst]. destruct Hin as [E|Hin].
  - injection E as -> -> ->. rewrite Nat.eqb_refl. cbn [map fst snd]. f_equal.
    rewrite filter_nil_all; auto. intros g Hg. apply Nat.eqb_neq. intros E. apply N. rewrite <- E. apply in_map; auto.
  - destruct (Nat.eqb_spec b' b) as [->|_]; [exfalso; apply N; apply (in_map fst) in Hin; auto|]. apply IH; auto.
Qed.
Lemma scattered_s_other gs (a : nat -> T) old b : ~ In b (map fst gs) -> scattered (s_groups gs) a b old = old.
Proof.
  intros N. unfold scattered. rewrite pairs_s, filter_map. cbn [snd]. rewrite filter_nil_all; auto.
  intros g Hg. apply Nat.eqb_neq. intros E. apply N. rewrite <- E. apply in_map; auto.
Qed.
Lemma gathered_g gs (a : nat -> T) old : NoDup (map fst gs) -> forall b s os, In (b, (s, os)) gs -> gathered op (g_groups gs) a b old = fold_left op (map a os) old.
Proof.
  intros ND b s os Hin. unfold gathered. rewrite pairs_g.
  assert (E : filter (fun q : nat * nat => fst q =? b) (flat_map (fun g : cgroup => map (fun o => (fst g, o)) (snd (snd g))) gs) = map (fun o => (b, o)) os);
    [|rewrite E, map_map; auto].
  assert (OT : forall gs, ~ In b (map fst gs) -> filter (fun q : nat * nat => fst q =? b) (flat_map (fun g : cgroup => map (fun o => (fst g, o)) (snd (snd g))) gs) = []).
  { clear. intros gs N. apply filter_nil_all. intros q Hq. apply in_flat_map in Hq as (g & Hg & Hq). apply in_map_iff in Hq as (o & <- & _). cbn.
    apply Nat.eqb_neq. intros E. apply N. rewrite <- E. apply in_map; auto. }
  induction gs as [|[b' [s' os']] gs IH]; [destruct Hin|]. cbn [map fst] in ND. inversion ND as [|? ? N ND']; subst.
  cbn [flat_map fst snd]. rewrite filter_app. destruct Hin as [E|Hin].
  - injection E as -> -> ->. rewrite OT by auto. rewrite app_nil_r. apply filter_true_all. intros q Hq. apply in_map_iff in Hq as (o & <- & _). apply Nat.eqb_refl.
  - rewrite IH by auto. rewrite filter_nil_all; auto. intros q Hq. apply in_map_iff in Hq as (o & <- & _). cbn. apply Nat.eqb_neq. intros ->.
    apply N. apply (in_map fst) in Hin; auto.
Qed.
Lemma gathered_g_other gs (a : nat -> T) old b : ~ In b (map fst gs) -> gathered op (g_groups gs) a b old = old.
Proof.
  intros N. unfold gathered. rewrite pairs_g. rewrite filter_nil_all; auto. intros q Hq. apply in_flat_map in Hq as (g & Hg & Hq). apply in_map_iff in Hq as (o & <- & _). cbn.
  apply Nat.eqb_neq. intros E. apply N. rewrite <- E. apply in_map; auto.
Qed.
End Apply.

(** A list split by a key. *)
Lemma split_keys {X} (key : X -> nat) (l : list X) : forall ks, NoDup ks -> (forall x, In x l -> In (key x) ks) ->
  Permutation (flat_map (fun s => filter (fun x => key x =? s) l) ks) l.
Proof.
  induction l as [|x l IH]; intros ks ND Hk.
  - cbn [filter]. induction ks; cbn; auto. apply IHks; [inversion ND; auto|]. intros ? [].
  - assert (P := IH ks ND (fun y Hy => Hk y (or_intror Hy))). specialize (Hk x (or_introl eq_refl)).
    apply in_split in Hk as (k1 & k2 & E). subst ks. rewrite flat_map_app in *. cbn [flat_map] in *.
    apply NoDup_remove in ND as [_ ND]. rewrite in_app_iff in ND.
    assert (OT : forall ks, ~ In (key x) ks -> flat_map (fun s => filter (fun y => key y =? s) (x :: l)) ks = flat_map (fun s => filter (fun y => key y =? s) l) ks).
    { clear. intros ks N. apply flat_map_ext_in. intros s Hs. cbn [filter]. destruct (Nat.eqb_spec (key x) s) as [<-|]; [contradiction|auto]. }
    rewrite !OT by tauto. cbn [filter]. rewrite Nat.eqb_refl. cbn [app]. etransitivity; [apply Permutation_sym, Permutation_middle|]. constructor. exact P.
Qed.
Lemma flat_map_one {X Y} (f : X -> list Y) (y : X) l : NoDup l -> In y l -> (forall z, In z l -> z <> y -> f z = []) -> flat_map f l = f y.
Proof.
  induction 1 as [|x l N ND IH]; intros Hin Hz; [destruct Hin|]. cbn [flat_map]. destruct Hin as [->|Hin].
  - assert (flat_map f l = []) as ->; [|apply app_nil_r]. assert (HH : forall z, In z l -> f z = []) by (intros z Hz'; apply Hz; [right; auto|intros ->; auto]).
    clear -HH. induction l as [|z l IH]; auto. cbn. rewrite HH by (left; auto). apply IH. intros; apply HH; right; auto.
  - rewrite IH; auto. + rewrite (Hz x); [auto|left; auto|intros ->; auto]. + intros z Hz' Nz. apply Hz; auto. right; auto.
Qed.

Section Exec.
Context {T : Type}.
Variable op : T -> T -> T.
Variable e : T.
Hypothesis M : cmonoid op e.
Variable usize np : nat.
Variable src dst : nat -> nat -> bool.
Variable PI : nat -> nat -> nat.
Variable n : nat -> nat.
Hypothesis n_fit : forall p, p < np -> n p <= UINT_MAX usize.
Variable mode : gs_mode.
Variable vn : nat.
Variable f : nat -> nat -> nat -> T.
Variable sbs : nat -> nat.
Hypothesis sbs_fit : forall p, p < np -> sbs p <= UINT_MAX usize.
Hypothesis src_lt : forall x o, src x o = true -> o < np -> PI o x < n o.
Hypothesis dst_lt : forall x d, dst x d = true -> d < np -> PI d x < n d.
Notation UMAX := (UINT_MAX usize).
Notation alive := (alive src dst).
Notation maps_ok := (maps_ok src dst).
Notation sok := (sok usize src dst PI).

(** The combination of the data of some processes. *)
Definition sumO (x k : nat) (os : list nat) : T := fold_left op (map (fun o => f o (PI o x) k) os) e.
Definition all_src (x : nat) (A : list origin) : list nat := map fst (filter (fun a => src x (fst a)) A).
Definition at_slot (x s : nat) (A : list origin) : list nat := map fst (filter (fun a : origin => src x (fst a) && (snd a x =? s)) A).

Lemma sumO_perm x k l l' : Permutation l l' -> sumO x k l = sumO x k l'.
Proof. intros P. apply (fold_left_perm op (cmon_comm op e M) (cmon_assoc op e M)). apply Permutation_map; auto. Qed.

(** What the buffer holds at the beginning of a stage other than the first. *)
Definition slots_ok (A : list origin) (bl n m : nat) (b : nat -> nat -> T) : Prop :=
  forall a x, In a A -> src x (fst a) = true -> (exists d, bl <= d < bl + n /\ dst x d = true) ->
    snd a x < m /\ forall k, k < vn -> b (snd a x) k = sumO x k (at_slot x (snd a x) A).

(** The slots of a label combined. *)
Lemma combine_slots A bl n' m b beta gs : maps_ok A bl n' beta gs -> slots_ok A bl n' m b ->
  forall h s os, In (h, (s, os)) gs -> exists x, h = beta x /\ alive A bl n' x /\ (forall s', In s' (s :: os) -> s' < m) /\
    forall k, k < vn -> fold_left op (map (fun s => b s k) os) (b s k) = sumO x k (all_src x A).
Proof.
  intros MO SO h s os Hin. destruct (mo_group _ _ _ _ _ _ _ MO h s os Hin) as (ND & x & Eh & AL & MEM). exists x. split; auto. split; auto. split.
  - intros s' Hs'. apply MEM in Hs' as (a & Ha & Hs & <-). apply SO; auto. apply AL.
  - intros k Hk.
    replace (fold_left op (map (fun s => b s k) os) (b s k)) with (fold_left op (map (fun s => b s k) (s :: os)) e)
      by (cbn [map fold_left]; rewrite (cmon_id op e M); auto).
    rewrite (map_ext_in _ (fun s' => fold_left op (map (fun o => f o (PI o x) k) (at_slot x s' A)) e)).
    2:{ intros s' Hs'. apply MEM in Hs' as (a & Ha & Hs & <-). apply SO; auto. apply AL. }
    rewrite (fold_flat op e M (fun s' => map (fun o => f o (PI o x) k) (at_slot x s' A))).
    unfold sumO. apply (fold_left_perm op (cmon_comm op e M) (cmon_assoc op e M)).
    unfold at_slot, all_src. rewrite (flat_map_ext _ (fun s' => map (fun a : origin => f (fst a) (PI (fst a) x) k) (filter (fun a => snd a x =? s') (filter (fun a => src x (fst a)) A)))).
    2:{ intros s'. rewrite map_map. f_equal. rewrite <- filter_andb. auto. }
    rewrite <- map_flat_map, map_map. apply Permutation_map. apply split_keys; auto.
    intros a Ha. apply filter_In in Ha as [Ha Hs]. apply MEM. eauto.
Qed.

(** The first stage: one origin. *)
Lemma single_slot p bl n' beta gs : maps_ok [(p, PI p)] bl n' beta gs ->
  forall h s os, In (h, (s, os)) gs -> exists x, h = beta x /\ alive [(p, PI p)] bl n' x /\ s = PI p x /\ src x p = true /\ os = [].
Proof.
  intros MO h s os Hin. destruct (mo_group _ _ _ _ _ _ _ MO h s os Hin) as (ND & x & Eh & AL & MEM).
  assert (ALL : forall s', In s' (s :: os) -> s' = PI p x /\ src x p = true).
  { intros s' Hs'. apply MEM in Hs' as (a & [<-|[]] & Hs & <-). auto. }
  exists x. split; auto. split; auto. split; [apply ALL; left; auto|]. split; [apply (ALL s); left; auto|].
  destruct os as [|o os]; auto. exfalso. inversion ND; subst. apply H1. left. destruct (ALL s (or_introl eq_refl)) as [-> _]. apply (ALL o). right; left; auto.
Qed.

(** The send buffer of a stage. *)
Definition stage_in (K bl n' : nat) (A : list origin) (p : nat) (u : udata T) (old : list T) : Prop :=
  if K =? 0 then A = [(p, PI p)] else exists b, holds_vec old (sbs p) vn b /\ slots_ok A bl n' (sbs p) b.

Lemma sendbuf_ok K bl n' A p u old sb0 m beta gs st : p < np -> data_ok mode vn u (n p) (f p) -> m <= UMAX ->
  length sb0 = m * vn -> stage_in K bl n' A p u old -> maps_ok A bl n' beta gs -> stage_maps usize st gs ->
  (forall x, alive A bl n' x -> beta x < m) ->
  exists sb b, (if K =? 0 then scatter_to_buf UMAX mode vn (c_scatter st) u sb0
     else bb <- scatter_bb UMAX mode vn (c_scatter st) old sb0 ;; gather_bb op UMAX mode vn (c_gather st) old bb) = Ok sb /\
    holds_vec sb m vn b /\ forall x k, alive A bl n' x -> k < vn -> b (beta x) k = sumO x k (all_src x A).
Proof.
  intros Hp DU Hm Lsb IN MO [-> ->] BL. unfold stage_in in IN. pose proof (holds_vec_any vn e sb0 m Lsb) as B0.
  pose proof (mo_heads _ _ _ _ _ _ _ MO) as NDH.
  destruct (K =? 0).
  - subst A.
    assert (V : valid_map UMAX (n p) m (s_groups gs)).
    { apply valid_s; auto. intros h s os Hin. destruct (single_slot p bl n' beta gs MO h s os Hin) as (x & -> & AL & -> & Hs & _). auto. }
    destruct (scatter_to_buf_ok UMAX mode vn (s_groups gs) (n p) m u (f p) sb0 _ V DU B0) as (sb & -> & HS).
    eexists sb, _. split; [reflexivity|]. split; [exact HS|]. cbv beta. intros x k AL Hk.
    destruct (mo_all _ _ _ _ _ _ _ MO x AL) as (s & os & Hin). rewrite (scattered_s gs _ _ NDH _ _ _ Hin).
    destruct (single_slot p bl n' beta gs MO _ s os Hin) as (y & Ey & ALy & -> & Hs & _).
    assert (x = y) by (apply (mo_inj _ _ _ _ _ _ _ MO); auto). subst y.
    unfold sumO, all_src. cbn [filter fst]. rewrite Hs. cbn [map fst fold_left]. rewrite (cmon_id op e M). auto.
  - destruct IN as (b & HO & SO).
    assert (G : forall h s os, In (h, (s, os)) gs -> h < m /\ forall s', In s' (s :: os) -> s' < sbs p).
    { intros h s os Hin. destruct (combine_slots A bl n' (sbs p) b beta gs MO SO h s os Hin) as (x & -> & AL & LT & _). auto. }
    assert (V1 : valid_map UMAX (sbs p) m (s_groups gs)).
    { apply valid_s; auto. intros h s os Hin. destruct (G h s os Hin) as [G1 G2]. split; auto. apply G2. left; auto. }
    assert (V2 : valid_map UMAX m (sbs p) (g_groups gs)).
    { apply valid_g; auto. intros h s os Hin. destruct (G h s os Hin) as [G1 G2]. split; auto. intros o Ho. apply G2. right; auto. }
    assert (Vn : vn <> 0) by apply DU.
    assert (Vp : mode = mode_plain -> vn = 1) by (intros ->; destruct DU as [_ DU]; destruct u; [apply DU|contradiction]).
    destruct (scatter_bb_ok UMAX mode vn (s_groups gs) (sbs p) m old b sb0 _ Vp V1 HO B0) as (b1 & -> & H1). cbn [bind].
    destruct (gather_bb_ok op UMAX mode vn (g_groups gs) (sbs p) m old b b1 _ Vn Vp V2 HO H1) as (b2 & -> & H2).
    eexists b2, _. split; [reflexivity|]. split; [exact H2|]. cbv beta. intros x k AL Hk.
    destruct (mo_all _ _ _ _ _ _ _ MO x AL) as (s & os & Hin). rewrite (gathered_g op gs _ _ NDH _ _ _ Hin), (scattered_s gs _ _ NDH _ _ _ Hin).
    destruct (combine_slots A bl n' (sbs p) b beta gs MO SO _ s os Hin) as (y & Ey & ALy & _ & CB).
    assert (x = y) by (apply (mo_inj _ _ _ _ _ _ _ MO); auto). subst y. auto.
Qed.

(** The last stage. *)
Lemma last_ok A p u old gs st : p < np -> data_ok mode vn u (n p) (f p) ->
  (exists b, holds_vec old (sbs p) vn b /\ slots_ok A p 1 (sbs p) b) -> maps_ok A p 1 (PI p) gs -> stage_maps usize st gs ->
  exists u' g, (u1 <- scatter_from_buf UMAX mode vn (c_scatter st) u old ;; gather_from_buf op UMAX mode vn (c_gather st) u1 old) = Ok u' /\
    data_ok mode vn u' (n p) g /\
    (forall x k, alive A p 1 x -> k < vn -> g (PI p x) k = sumO x k (all_src x A)) /\
    (forall i k, (forall x, alive A p 1 x -> i <> PI p x) -> g i k = f p i k).
Proof.
  intros Hp DU (b & HO & SO) MO [-> ->]. pose proof (mo_heads _ _ _ _ _ _ _ MO) as NDH.
  assert (G : forall h s os, In (h, (s, os)) gs -> h < n p /\ forall s', In s' (s :: os) -> s' < sbs p).
  { intros h s os Hin. destruct (combine_slots A p 1 (sbs p) b (PI p) gs MO SO h s os Hin) as (x & -> & AL & LT & _). split; auto.
    destruct AL as [_ (d & Hd & Hdx)]. assert (d = p) by lia. subst d. auto. }
  assert (V1 : valid_map UMAX (sbs p) (n p) (s_groups gs)).
  { apply valid_s; auto. intros h s os Hin. destruct (G h s os Hin) as [G1 G2]. split; auto. apply G2. left; auto. }
  assert (V2 : valid_map UMAX (n p) (sbs p) (g_groups gs)).
  { apply valid_g; auto. intros h s os Hin. destruct (G h s os Hin) as [G1 G2]. split; auto. intros o Ho. apply G2. right; auto. }
  destruct (scatter_from_buf_ok UMAX mode vn (s_groups gs) (n p) (sbs p) u (f p) old b V1 DU HO) as (u1 & -> & D1). cbn [bind].
  destruct (gather_from_buf_ok op UMAX mode vn (g_groups gs) (n p) (sbs p) u1 _ old b V2 D1 HO) as (u2 & -> & D2).
  eexists u2, _. split; [reflexivity|]. split; [exact D2|]. cbv beta. split.
  - intros x k AL Hk. destruct (mo_all _ _ _ _ _ _ _ MO x AL) as (s & os & Hin). rewrite (gathered_g op gs _ _ NDH _ _ _ Hin), (scattered_s gs _ _ NDH _ _ _ Hin).
    destruct (combine_slots A p 1 (sbs p) b (PI p) gs MO SO _ s os Hin) as (y & Ey & ALy & _ & CB).
    assert (x = y) by (apply (mo_inj _ _ _ _ _ _ _ MO); auto). subst y. auto.
  - intros i k Hi. assert (N : ~ In i (map fst gs)).
    { intros Hin. apply in_map_iff in Hin as ([h [s os]] & <- & Hin). destruct (mo_group _ _ _ _ _ _ _ MO _ _ _ Hin) as (_ & x & E & AL & _). apply (Hi x AL). auto. }
    rewrite gathered_g_other, scattered_s_other by auto. auto.
Qed.

(** ** The buffer after an exchange *)
Lemma offsets_nth (s : nat -> nat) (piece : nat -> list T) : forall qs acc q o, (forall q, In q qs -> length (piece q) = s q * vn) -> In (q, o) (offsets s acc qs) ->
  forall j, j < s q * vn -> nth_error (flat_map piece qs) ((o - acc) * vn + j) = nth_error (piece q) j.
Proof.
  induction qs as [|q0 qs IH]; intros acc q o PL Hin j Hj; cbn [offsets In flat_map] in *; [destruct Hin|].
  pose proof (PL q0 (or_introl eq_refl)) as L0. destruct Hin as [E|Hin].
  - injection E as <- <-. rewrite Nat.sub_diag. cbn [Nat.mul Nat.add]. rewrite nth_error_app1 by lia. auto.
  - pose proof (in_offsets _ _ _ _ _ Hin) as (_ & Hge & _). rewrite nth_error_app2 by nia.
    rewrite <- (IH (acc + s q0) q o); auto. f_equal. nia.
Qed.
Lemma pieces_length (s : nat -> nat) (piece : nat -> list T) qs : (forall q, In q qs -> length (piece q) = s q * vn) -> length (flat_map piece qs) = ssum s qs * vn.
Proof.
  unfold ssum. induction qs as [|q qs IH]; intros PL; cbn [flat_map fold_right]; auto. rewrite app_length, IH by (intros; apply PL; right; auto). rewrite PL by (left; auto). lia.
Qed.

Lemma offsets_apart (s : nat -> nat) : forall qs acc q o q' o', NoDup qs -> In (q, o) (offsets s acc qs) -> In (q', o') (offsets s acc qs) -> (q, o) <> (q', o') ->
  o + s q <= o' \/ o' + s q' <= o.
Proof.
  induction qs as [|q0 qs IH]; intros acc q o q' o' ND H1 H2 N; cbn [offsets In] in *; [destruct H1|]. inversion ND; subst.
  destruct H1 as [E1|H1], H2 as [E2|H2].
  - congruence.
  - injection E1 as <- <-. left. apply in_offsets in H2. lia.
  - injection E2 as <- <-. right. apply in_offsets in H1. lia.
  - eapply IH; eauto.
Qed.
Lemma froms_NoDup bl N p : 2 <= N -> bl <= p < bl + N -> NoDup (p :: froms bl N p).
Proof.
  intros n2 Hp.
  assert (F : forall q, In q (froms bl N p) -> q <> p).
  { intros q Hq ->. apply (froms_other bl N n2) in Hq as [_ E]; auto. destruct (p <? bh bl N); discriminate. }
  constructor; [intros Hin; apply (F p Hin); auto|]. pose proof (nl_cases N n2) as Hn.
  destruct (froms_cases bl N p) as [[_ ->]|[[_ ->]|[R E]]]; try (rewrite E); repeat constructor; cbn; try tauto.
  intros [Et|[]]. unfold recvn in R. unfold targ in Et. unfold targ0 in *. unfold bh in *.
  destruct (Nat.eqb_spec (N mod 2) 1) as [Em|Em]; destruct (Nat.eqb_spec p (bl + nl N)) as [Eb|Eb]; cbn [andb] in R; destruct (Nat.eqb_spec p (N - 1 - (p - bl) + bl)); try lia.
Qed.
Lemma branches_NoDup bl N s p : 2 <= N -> bl <= p < bl + N -> NoDup (branches bl N s p).
Proof.
  intros n2 Hp. apply (NoDup_map_inv fst). unfold branches. cbn [map fst]. rewrite map_fst_offsets. apply froms_NoDup; auto.
Qed.
Lemma branches_apart bl N s p q o q' o' : 2 <= N -> bl <= p < bl + N -> In (q, o) (branches bl N s p) -> In (q', o') (branches bl N s p) -> (q, o) <> (q', o') ->
  forall i i', (q <> p -> i < s q) -> (q' <> p -> i' < s q') -> o + i <> o' + i'.
Proof.
  intros n2 Hp H1 H2 Nq i i' Hi Hi'. pose proof (froms_NoDup bl N p n2 Hp) as ND. inversion ND as [|? ? Np NF]; subst.
  destruct H1 as [E1|H1], H2 as [E2|H2].
  - congruence.
  - injection E1 as <- <-. apply in_offsets in H2 as (Hf & _ & Hb). assert (q' <> p) by (intros ->; auto). specialize (Hi' H). lia.
  - injection E2 as <- <-. apply in_offsets in H1 as (Hf & _ & Hb). assert (q <> p) by (intros ->; auto). specialize (Hi H). lia.
  - pose proof (in_offsets _ _ _ _ _ H1) as (Hf & _ & _). pose proof (in_offsets _ _ _ _ _ H2) as (Hf' & _ & _).
    assert (q <> p) by (intros ->; auto). assert (q' <> p) by (intros ->; auto). specialize (Hi H). specialize (Hi' H0).
    destruct (offsets_apart s _ 0 q o q' o' NF H1 H2 Nq); lia.
Qed.

Lemma nth_error_firstn' {X} (l : list X) : forall i k, i < k -> nth_error (firstn k l) i = nth_error l i.
Proof. induction l as [|x l IH]; intros [|i] [|k] H; cbn; auto; try lia. apply IH. lia. Qed.

(** ** One stage of an interval *)
Section Step.
Variable bl N : nat.
Hypothesis n2 : 2 <= N.
Variable A : nat -> list origin.
Variable st : nat -> cr_stage.
Variable beta : nat -> nat -> nat.
Notation I p := (bl <= p < bl + N).
Hypothesis r_ok : forall p, I p -> c_r (st p) = ssum (fun q => c_s (st q)) (froms bl N p) /\ c_s (st p) <= c_sk (st p).
Hypothesis tot_ok : forall p, I p -> c_total (st p) <= sbs p.
Hypothesis sk_ok : forall p x, I p -> alive (A p) bl N x -> beta p x < c_sk (st p).
Hypothesis s_ok : forall p x, I p -> (exists a, In a (A p) /\ src x (fst a) = true) ->
  (exists d, bl <= d < bl + N /\ dst x d = true /\ (p <? bh bl N) = negb (d <? bh bl N)) -> beta p x < c_s (st p).
Variable sb : nat -> list T.
Variable b : nat -> nat -> nat -> T.
Hypothesis sb_ok : forall p, I p -> holds_vec (sb p) (sbs p - c_r (st p)) vn (b p) /\
  forall x k, alive (A p) bl N x -> k < vn -> b p (beta p x) k = sumO x k (all_src x (A p)).
Notation piece := (fun q => firstn (c_s (st q) * vn) (sb q)).
Notation s := (fun q => c_s (st q)).

Lemma piece_length q : I q -> length (piece q) = c_s (st q) * vn.
Proof.
  intros Hq. destruct (sb_ok q Hq) as [[L _] _]. rewrite firstn_length, L. destruct (r_ok q Hq). pose proof (tot_ok q Hq). unfold c_total in *. nia.
Qed.
Definition next_buf (p : nat) : list T := flat_map piece (froms bl N p) ++ sb p.

Lemma next_slots p : I p -> exists b', holds_vec (next_buf p) (sbs p) vn b' /\
  slots_ok (next_origins bl N s beta A p) (if p <? bh bl N then bl else bh bl N) (if p <? bh bl N then nl N else N - nl N) (sbs p) b'.
Proof.
  intros Hp.
  assert (FI : forall q, In q (froms bl N p) -> I q /\ (p <? bh bl N) = negb (q <? bh bl N)) by (intros q Hq; apply (froms_other bl N n2); auto).
  destruct (r_ok p Hp) as [Er Es]. pose proof (tot_ok p Hp) as TO. unfold c_total in TO. destruct (sb_ok p Hp) as [[Lp Hbp] _].
  assert (LF : length (flat_map piece (froms bl N p)) = c_r (st p) * vn).
  { rewrite Er. apply (pieces_length s piece). intros q Hq. apply piece_length. apply FI; auto. }
  assert (LB : length (next_buf p) = sbs p * vn) by (unfold next_buf; rewrite app_length, LF, Lp; nia).
  exists (fun i k => nth (i * vn + k) (next_buf p) e). split; [apply holds_vec_any; auto|].
  assert (HB : forall d, (if p <? bh bl N then bl else bh bl N) <= d < (if p <? bh bl N then bl else bh bl N) + (if p <? bh bl N then nl N else N - nl N) ->
     I d /\ (d <? bh bl N) = (p <? bh bl N)).
  { intros d Hd. pose proof (nl_cases N n2) as Hn. unfold bh in *. destruct (Nat.ltb_spec p (bl + nl N)); (split; [lia|]); destruct (Nat.ltb_spec d (bl + nl N)); auto; lia. }
  intros a' x Ha' Hs (d & Hd & Hdx). apply HB in Hd as [Hd Hside].
  unfold next_origins in Ha'. apply in_flat_map in Ha' as ([q o] & Hb & Ha'). apply in_map_iff in Ha' as (a & <- & Ha). cbn [fst snd] in *.
  (* slots of the branches *)
  assert (BR : forall q o, In (q, o) (branches bl N s p) -> I q).
  { intros q' o' Hb'. apply in_branches in Hb' as [[-> _]|[Hq _]]; auto. apply FI; auto. }
  assert (SZ : forall q o a, In (q, o) (branches bl N s p) -> In a (A q) -> src x (fst a) = true -> q <> p -> beta q x < c_s (st q)).
  { intros q' o' a0 Hb' Ha0 Hs0 Nq. apply in_branches in Hb' as [[E _]|[Hq _]]; [congruence|]. destruct (FI q' Hq) as [Iq Oq].
    apply s_ok; eauto. exists d. split; auto. split; auto. rewrite Hside, Oq, negb_involutive. auto. }
  pose proof (BR q o Hb) as Iq.
  assert (AL : alive (A q) bl N x) by (split; eauto).
  assert (VAL : o + beta q x < sbs p /\ forall k, k < vn -> nth ((o + beta q x) * vn + k) (next_buf p) e = b q (beta q x) k).
  { pose proof Hb as Hb0. destruct Hb as [E|Hb].
    - injection E as <- <-. rewrite <- Er. pose proof (sk_ok p x Hp AL). split; [lia|]. intros k Hk.
      unfold next_buf. rewrite app_nth2 by (rewrite LF; nia). rewrite LF. apply nth_error_nth. rewrite <- (Hbp (beta p x) k) by lia. f_equal. nia.
    - pose proof (in_offsets _ _ _ _ _ Hb) as (Hf & _ & Hub). cbn [Nat.add] in Hub. assert (Nq : q <> p).
      { intros ->. destruct (FI p Hf) as [_ E]. destruct (p <? bh bl N); discriminate. }
      pose proof (SZ q o a Hb0 Ha Hs Nq) as LS. split; [lia|]. intros k Hk.
      assert (J : beta q x * vn + k < c_s (st q) * vn) by nia.
      apply nth_error_nth. unfold next_buf. rewrite nth_error_app1 by (rewrite LF; nia).
      replace ((o + beta q x) * vn + k) with ((o - 0) * vn + (beta q x * vn + k)) by nia.
      rewrite (offsets_nth s piece (froms bl N p) 0 q o) by (auto; intros q' Hq'; apply piece_length; apply FI; auto).
      rewrite nth_error_firstn' by auto.
      destruct (sb_ok q Iq) as [[_ Hbq] _]. apply Hbq; auto. destruct (r_ok q Iq). pose proof (tot_ok q Iq). unfold c_total in *. lia. }
  split; [apply VAL|]. intros k Hk. rewrite (proj2 VAL k Hk). destruct (sb_ok q Iq) as [_ ->]; auto. f_equal.
  unfold at_slot, all_src, next_origins. rewrite filter_flat_map.
  rewrite (flat_map_one _ (q, o)); [| apply branches_NoDup; auto|auto|].
  - rewrite filter_map, map_map. cbn [fst snd]. f_equal. apply filter_ext. intros a0. rewrite Nat.eqb_refl, andb_true_r. auto.
  - intros [q' o'] Hb' Nq. rewrite filter_map. cbn [fst snd]. rewrite filter_nil_all; auto. intros a0 Ha0.
    destruct (src x (fst a0)) eqn:Hs0; auto. cbn [andb]. apply Nat.eqb_neq. apply (branches_apart bl N s p q' o' q o); eauto.
Qed.
End Step.

(** ** All stages *)
Lemma sok_nonempty bl N A sts : sok bl N A sts -> forall p, bl <= p < bl + N -> sts p <> [].
Proof.
  intros H p Hp. inversion H; subst.
  - assert (p = bl) by lia. subst p. rewrite H0. discriminate.
  - destruct (H1 p Hp) as (-> & _). discriminate.
Qed.

Lemma next_fst bl N s beta A p : map fst (next_origins bl N s beta A p) = map fst (A p) ++ concat (map (fun q => map fst (A q)) (froms bl N p)).
Proof.
  unfold next_origins, branches. cbn [flat_map fst snd]. rewrite map_app, map_map. cbn [fst]. f_equal.
  generalize 0 as acc. induction (froms bl N p) as [|q qs IH]; intros acc; cbn [offsets flat_map map concat fst snd]; auto.
  rewrite map_app, map_map, IH. cbn [fst]. auto.
Qed.
Lemma next_perm_low bl N s beta A : 2 <= N ->
  Permutation (concat (map (fun p => map fst (next_origins bl N s beta A p)) (seq bl (nl N)))) (concat (map (fun p => map fst (A p)) (seq bl N))).
Proof.
  intros n2. rewrite (map_ext _ _ (next_fst bl N s beta A)). rewrite concat_map_app.
  rewrite (froms_low bl N n2 (fun q => map fst (A q))). pose proof (nl_cases N n2).
  replace (seq bl N) with (seq bl (nl N) ++ seq (bh bl N) (N - nl N)) by (unfold bh; rewrite <- seq_app; f_equal; lia).
  rewrite map_app, concat_app. reflexivity.
Qed.
Lemma next_perm_high bl N s beta A : 2 <= N ->
  Permutation (concat (map (fun p => map fst (next_origins bl N s beta A p)) (seq (bh bl N) (N - nl N)))) (concat (map (fun p => map fst (A p)) (seq bl N))).
Proof.
  intros n2. rewrite (map_ext _ _ (next_fst bl N s beta A)). rewrite concat_map_app.
  rewrite (froms_high bl N n2 (fun q => map fst (A q))). pose proof (nl_cases N n2).
  replace (seq bl N) with (seq bl (nl N) ++ seq (bh bl N) (N - nl N)) by (unfold bh; rewrite <- seq_app; f_equal; lia).
  rewrite map_app, concat_app. apply Permutation_app_comm.
Qed.

(** The result on process p, O being the processes whose data are combined. *)
Record crossed (O : list nat) (p : nat) (g : nat -> nat -> T) : Prop := {
  cx_at : forall x k, (exists o, In o O /\ src x o = true) -> dst x p = true -> k < vn -> g (PI p x) k = sumO x k (filter (src x) O);
  cx_else : forall i k, (forall x, (exists o, In o O /\ src x o = true) -> dst x p = true -> i <> PI p x) -> g i k = f p i k }.

Lemma crossed_perm O O' p g : Permutation O O' -> crossed O p g -> crossed O' p g.
Proof.
  intros P [C1 C2]. assert (E : forall x, (exists o, In o O /\ src x o = true) <-> (exists o, In o O' /\ src x o = true)).
  { intros x. split; intros (o & Ho & Hs); exists o; (split; [|auto]); [exact (Permutation_in o P Ho)|exact (Permutation_in o (Permutation_sym P) Ho)]. }
  constructor.
  - intros x k Hx Hd Hk. apply E in Hx. rewrite C1; auto. apply sumO_perm. apply Permutation_filter; auto.
  - intros i k Hi. apply C2. intros x Hx. apply Hi. apply E; auto.
Qed.

Theorem exec_goes bl N A sts : sok bl N A sts -> bl + N <= np -> forall K u old new,
  (forall p, bl <= p < bl + N -> data_ok mode vn (u p) (n p) (f p)) ->
  (forall p, bl <= p < bl + N -> length (old p) = sbs p * vn /\ length (new p) = sbs p * vn) ->
  (forall p st, bl <= p < bl + N -> In st (sts p) -> c_total st <= sbs p) ->
  (forall p, bl <= p < bl + N -> stage_in K bl N (A p) p (u p) (old p)) ->
  (K = 0 -> N = 1 -> forall x, ~ alive (A bl) bl 1 x) ->
  exists u' g, (forall p, bl <= p < bl + N -> data_ok mode vn (u' p) (n p) (g p) /\
       crossed (concat (map (fun p => map fst (A p)) (seq bl N))) p (g p)) /\
    forall P, (forall p, bl <= p < bl + N -> P p = cr_exec_loop op UMAX mode vn np K (sts p) (u p) (old p) (new p)) ->
    goes np P (fun p => if inI bl N p then Ret (u' p) else P p).
Proof.
  induction 1 as [bl A sts st gs Est SM MO|bl N A sts st rest beta gs n2 HS Slo IHlo Shi IHhi]; intros Hin K u old new DU LEN TOT SI K0.
  - (* last stage *)
    specialize (DU bl ltac:(lia)). specialize (LEN bl ltac:(lia)). specialize (SI bl ltac:(lia)).
    assert (B : exists b, holds_vec (old bl) (sbs bl) vn b /\ slots_ok (A bl) bl 1 (sbs bl) b).
    { unfold stage_in in SI. destruct (Nat.eqb_spec K 0) as [EK|EK]; auto. exists (fun i k => nth (i * vn + k) (old bl) e). split; [apply holds_vec_any; tauto|].
      intros a x Ha Hs Hd. exfalso. apply (K0 EK eq_refl x). split; eauto. }
    destruct (last_ok (A bl) bl (u bl) (old bl) gs st ltac:(lia) DU B MO SM) as (u' & g & E & D & C1 & C2).
    exists (fun _ => u'), (fun _ => g). split.
    + intros p Hp. assert (p = bl) by lia. subst p. split; auto. cbn [seq map concat]. rewrite app_nil_r.
      assert (IFF : forall x, (exists o, In o (map fst (A bl)) /\ src x o = true) -> dst x bl = true -> alive (A bl) bl 1 x).
      { intros x (o & Ho & Hs) Hd. apply in_map_iff in Ho as (a & <- & Ha). split; [eauto|exists bl; split; [lia|auto]]. }
      constructor.
      * intros x k Hx Hd Hk. rewrite C1; auto. f_equal. unfold all_src. rewrite filter_map. auto.
      * intros i k Hi. apply C2. intros x [(a & Ha & Hs) (d & Hd & Hdx)]. assert (d = bl) by lia. subst d. apply Hi; auto.
        exists (fst a). split; [apply in_map; auto|auto].
    + intros P HP. apply goes_ext. intros p Hp. destruct (inI bl 1 p) eqn:Ei; auto.
      assert (p = bl) by (unfold inI in Ei; apply andb_true_iff in Ei as [E1 E2]; apply Nat.leb_le in E1; apply Nat.ltb_lt in E2; lia). subst p.
      rewrite HP by lia. rewrite Est. cbn [cr_exec_loop]. rewrite E. reflexivity.
  - set (nl_ := nl N) in *. set (bh_ := bh bl N) in *. pose proof (nl_cases N n2) as Hn. fold nl_ in Hn.
    assert (Ebh : bh_ = bl + nl_) by reflexivity.
    assert (R_ok : forall p, bl <= p < bl + N -> c_r (st p) = ssum (fun q => c_s (st q)) (froms bl N p) /\ c_s (st p) <= c_sk (st p)) by (intros p Hp; destruct (HS p Hp); tauto).
    assert (T_ok : forall p, bl <= p < bl + N -> c_total (st p) <= sbs p).
    { intros p Hp. apply (TOT p); auto. destruct (HS p Hp) as (-> & _). left; auto. }
    assert (SK_ok : forall p x, bl <= p < bl + N -> alive (A p) bl N x -> beta p x < c_sk (st p)).
    { intros q x Hq Hx. destruct (HS q Hq) as (_ & _ & _ & _ & _ & _ & _ & _ & _ & BK & _). auto. }
    assert (S_ok : forall p x, bl <= p < bl + N -> (exists a, In a (A p) /\ src x (fst a) = true) ->
      (exists d, bl <= d < bl + N /\ dst x d = true /\ (p <? bh bl N) = negb (d <? bh bl N)) -> beta p x < c_s (st p)).
    { intros q x Hq Hx Hd. destruct (HS q Hq) as (_ & _ & _ & _ & _ & _ & _ & _ & _ & _ & BS). auto. }
    (* send buffers *)
    destruct (finite_choice (fun p (x : list T * (nat -> nat -> T)) => bl <= p < bl + N ->
        (let sendbuf := skipn (c_r (st p) * vn) (new p) in
         if K =? 0 then scatter_to_buf UMAX mode vn (c_scatter (st p)) (u p) sendbuf
         else b <- scatter_bb UMAX mode vn (c_scatter (st p)) (old p) sendbuf ;; gather_bb op UMAX mode vn (c_gather (st p)) (old p) b) = Ok (fst x) /\
        holds_vec (fst x) (sbs p - c_r (st p)) vn (snd x) /\
        forall y k, alive (A p) bl N y -> k < vn -> snd x (beta p y) k = sumO y k (all_src y (A p))) ([], fun _ _ => e) np) as [X HX].
    { intros p Hp. destruct (Nat.le_gt_cases bl p) as [H1|H1]; [|exists ([], fun _ _ => e); intros; lia].
      destruct (Nat.lt_ge_cases p (bl + N)) as [H2|H2]; [|exists ([], fun _ _ => e); intros; lia].
      pose proof (conj H1 H2) as Ip. destruct (HS p Ip) as (_ & SM & MO & _ & _ & _ & _ & _ & _ & BK & _).
      pose proof (T_ok p Ip) as TP. unfold c_total in TP.
      destruct (sendbuf_ok K bl N (A p) p (u p) (old p) (skipn (c_r (st p) * vn) (new p)) (sbs p - c_r (st p)) (beta p) (gs p) (st p)) as (sb & b & E & HB & V); auto.
      - pose proof (sbs_fit p Hp). lia.
      - rewrite skipn_length. destruct (LEN p Ip) as [_ ->]. nia.
      - intros x Hx. specialize (BK x Hx). lia.
      - exists (sb, b). intros _. auto. }
    set (sb := fun p => fst (X p)). set (b := fun p => snd (X p)).
    assert (SB : forall p, bl <= p < bl + N ->
        (let sendbuf := skipn (c_r (st p) * vn) (new p) in
         if K =? 0 then scatter_to_buf UMAX mode vn (c_scatter (st p)) (u p) sendbuf
         else b <- scatter_bb UMAX mode vn (c_scatter (st p)) (old p) sendbuf ;; gather_bb op UMAX mode vn (c_gather (st p)) (old p) b) = Ok (sb p)) by (intros p Hp; destruct (HX p ltac:(lia) Hp); tauto).
    assert (SBV : forall p, bl <= p < bl + N -> holds_vec (sb p) (sbs p - c_r (st p)) vn (b p) /\
        forall y k, alive (A p) bl N y -> k < vn -> b p (beta p y) k = sumO y k (all_src y (A p))) by (intros p Hp; destruct (HX p ltac:(lia) Hp); tauto).
    clearbody sb b. clear X HX.
    set (s := fun q => c_s (st q)) in *. set (A' := next_origins bl N s beta A) in *.
    set (nb := next_buf bl N st sb).
    assert (NS : forall p, bl <= p < bl + N -> exists b', holds_vec (nb p) (sbs p) vn b' /\
      slots_ok (A' p) (if p <? bh_ then bl else bh_) (if p <? bh_ then nl_ else N - nl_) (sbs p) b').
    { intros p Hp. apply (next_slots bl N n2 A st beta R_ok T_ok SK_ok S_ok sb b SBV p Hp). }
    assert (NL : forall p, bl <= p < bl + N -> length (nb p) = sbs p * vn) by (intros p Hp; destruct (NS p Hp) as (b' & [L _] & _); auto).
    assert (PL : forall q, bl <= q < bl + N -> length (firstn (c_s (st q) * vn) (sb q)) = c_s (st q) * vn).
    { intros q Hq. apply (piece_length bl N n2 A st beta R_ok T_ok SK_ok S_ok sb b SBV q Hq). }
    assert (TOT' : forall p s0, bl <= p < bl + N -> In s0 (rest p) -> c_total s0 <= sbs p).
    { intros p s0 Hp Hs. apply (TOT p); auto. destruct (HS p Hp) as (-> & _). right; auto. }
    destruct (IHlo ltac:(lia) (S K) u nb old) as (ulo & glo & Dlo & Glo).
    { intros p Hp. apply DU. lia. }
    { intros p Hp. split; [apply NL; lia|apply LEN; lia]. }
    { intros p s0 Hp. apply TOT'. lia. }
    { intros p Hp. unfold stage_in. cbn [Nat.eqb]. specialize (NS p ltac:(lia)). destruct (Nat.ltb_spec p bh_); [exact NS|lia]. }
    { discriminate. }
    destruct (IHhi ltac:(lia) (S K) u nb old) as (uhi & ghi & Dhi & Ghi).
    { intros p Hp. apply DU. lia. }
    { intros p Hp. split; [apply NL; lia|apply LEN; lia]. }
    { intros p s0 Hp. apply TOT'. lia. }
    { intros p Hp. unfold stage_in. cbn [Nat.eqb]. specialize (NS p ltac:(lia)). destruct (Nat.ltb_spec p bh_); [lia|exact NS]. }
    { discriminate. }
    exists (fun p => if p <? bh_ then ulo p else uhi p), (fun p => if p <? bh_ then glo p else ghi p). split.
    + intros p Hp. destruct (Nat.ltb_spec p bh_).
      * destruct (Dlo p ltac:(lia)) as [D C]. split; auto. eapply crossed_perm; [|exact C]. apply next_perm_low; auto.
      * destruct (Dhi p ltac:(lia)) as [D C]. split; auto. eapply crossed_perm; [|exact C]. apply next_perm_high; auto.
    + intros P HP.
      set (x := fun p => firstn (c_s (st p) * vn) (sb p)).
      set (k1 := fun p ms => cr_exec_loop op UMAX mode vn np (S K) (rest p) (u p)
         (pw_received vn (cr_msgs (c_nrecvn (st p)) (c_p1 (st p)) (c_p2 (st p)) (c_r1 (st p)) (c_r2 (st p))) ms (firstn (c_r (st p) * vn) (new p)) ++ sb p) (old p)).
      assert (INI : forall p, inI bl N p = true -> bl <= p < bl + N).
      { intros p Hp. unfold inI in Hp. apply andb_true_iff in Hp as [H1 H2]. apply Nat.leb_le in H1. apply Nat.ltb_lt in H2. lia. }
      assert (FI : forall p q, bl <= p < bl + N -> In q (froms bl N p) -> bl <= q < bl + N) by (intros p q Hp Hq; apply (froms_other bl N n2) in Hq; tauto).
      set (cap := fun p i => match i with 0 => c_r1 (st p) * vn | _ => c_r2 (st p) * vn end).
      eapply goes_trans; [apply (goes_comm np (inI bl N) P (fun p => if inI bl N p then k1 p (map x (froms bl N p)) else P p)
          (fun p => [(targ bl N p, np + K, x p)]) (fun p => exchange_recvs p (recvn bl N p) (targ bl N p) (np + K) (cap p)) k1 (fun p => map x (froms bl N p)))|].
      { apply (stage_matched np bl N n2 Hin). intros p i q Hp Hq. apply INI in Hp. destruct (HS p Hp) as (_ & _ & _ & E1 & E2 & E3 & EM & _).
        unfold x. rewrite PL by (apply (FI p); auto; eapply nth_error_In; eauto).
        rewrite E1, E2, E3 in EM. unfold cr_msgs in EM. unfold cap.
        destruct (froms_cases bl N p) as [[R F]|[[R F]|[R F]]]; rewrite R, F in EM; rewrite F in Hq; cbn in EM.
        - destruct i; discriminate.
        - injection EM as EM. destruct i as [|[|i]]; try discriminate. cbn in Hq. injection Hq as <-. nia.
        - injection EM as EM1 EM2. destruct i as [|[|[|i]]]; try discriminate; cbn in Hq; injection Hq as <-; nia. }
      { intros p _ E. rewrite E. auto. }
      { intros p Hp E. rewrite E. split; auto. apply INI in E. rewrite HP by auto. destruct (HS p E) as (-> & _ & _ & E1 & E2 & E3 & EM & _).
        assert (NE : rest p <> []).
        { destruct (Nat.ltb_spec p bh_); [apply (sok_nonempty _ _ _ _ Slo); lia|apply (sok_nonempty _ _ _ _ Shi); lia]. }
        unfold k1, x. cbn [cr_exec_loop]. destruct (rest p) as [|s0 r0] eqn:Er; [congruence|].
        cbv zeta. rewrite (SB p E : (if K =? 0 then _ else _) = _). cbn [plift pbind]. rewrite E1, E2, E3. f_equal.
        unfold cr_msgs, exchange_recvs, cap. destruct (recvn bl N p) as [|[|[|]]]; reflexivity. }
      assert (E2 : forall p, bl <= p < bl + N -> k1 p (map x (froms bl N p)) = cr_exec_loop op UMAX mode vn np (S K) (rest p) (u p) (nb p) (old p)).
      { intros p Hp. unfold k1, nb, next_buf. do 2 f_equal. destruct (HS p Hp) as (_ & _ & _ & _ & _ & _ & EM & Er & _). rewrite EM.
        set (pc := fun q => if In_dec Nat.eq_dec q (froms bl N p) then x q else repeat e (s q * vn)).
        assert (PE : forall q, In q (froms bl N p) -> pc q = x q) by (intros q Hq; unfold pc; destruct (in_dec Nat.eq_dec q (froms bl N p)); [auto|contradiction]).
        assert (PCL : forall q, length (pc q) = s q * vn).
        { intros q. unfold pc. destruct (in_dec Nat.eq_dec q (froms bl N p)); [apply PL; apply (FI p); auto|apply repeat_length]. }
        change (flat_map (fun q => firstn (c_s (st q) * vn) (sb q)) (froms bl N p)) with (flat_map x (froms bl N p)).
        rewrite <- (map_ext_in _ _ _ PE), <- (flat_map_ext_in _ _ _ PE).
        assert (LF : length (flat_map pc (froms bl N p)) = c_r (st p) * vn) by (rewrite Er; apply (pieces_length s pc); auto).
        assert (LN : length (firstn (c_r (st p) * vn) (new p)) = c_r (st p) * vn).
        { rewrite firstn_length. destruct (LEN p Hp) as [_ ->]. pose proof (T_ok p Hp). unfold c_total in *. nia. }
        rewrite (received_pieces vn s pc PCL) by lia. rewrite LF, skipn_all2 by lia. rewrite app_nil_r. auto. }
      set (P2 := fun p => if inI bl N p then k1 p (map x (froms bl N p)) else P p).
      eapply goes_trans; [apply (Glo P2)|].
      { intros p Hp. unfold P2. assert (inI bl N p = true) as -> by (unfold inI; apply andb_true_iff; split; [apply Nat.leb_le|apply Nat.ltb_lt]; lia). apply E2. lia. }
      eapply goes_trans; [apply Ghi|].
      { intros p Hp. assert (inI bl nl_ p = false) as -> by (unfold inI; apply andb_false_iff; right; apply Nat.ltb_ge; lia).
        unfold P2. assert (inI bl N p = true) as -> by (unfold inI; apply andb_true_iff; split; [apply Nat.leb_le|apply Nat.ltb_lt]; lia). apply E2. lia. }
      apply goes_ext. intros p Hp. unfold P2, inI.
      destruct (Nat.leb_spec bl p); destruct (Nat.ltb_spec p (bl + N)); destruct (Nat.leb_spec bh_ p);
       destruct (Nat.ltb_spec p (bl + nl_)); destruct (Nat.ltb_spec p bh_);
       destruct (Nat.ltb_spec p (bh_ + (N - nl_))); cbn [andb]; auto; lia.
Qed.
End Exec.
