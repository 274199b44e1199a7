(** C37-C39, C50: the Fortran interfaces. *)
From Verif Require Import Base BaseLemmas Ops Nonblock Fortran FortranSpec FortranProof FortranProof2.
Local Open Scope Z_scope.

(** C37: for every history of setups, uses and frees with any integers as handles, datatype and
    operation codes: the k-th setup returns the handle k (so handles are distinct and never
    reused), a use with valid codes reaches exactly the object set up under that handle, with the
    datatype and operation the codes stand for, and everything else (a number never handed out,
    negative, freed, codes out of range) stops the program; nothing is undefined. *)
Theorem C37_gs_handles : forall (Obj : Type) (INT_MAX : nat) (c : config) (cs : list (fcall Obj gs_request)),
  (let n := n_setups cs in n + n / 2 + 1 <= INT_MAX)%nat ->
  run_history (fgs_setup INT_MAX) (fgs_use c) fgs_free reg0 cs = ideal (@Some Obj) (gs_effect c) [] cs.
Proof. intros. apply gs_history. auto. Qed.
Print Assumptions C37_gs_handles.

Theorem C37_crystal_handles : forall (Obj : Type) (INT_MAX : nat) (cs : list (fcall Obj unit)),
  (let n := n_setups cs in n + n / 2 + 1 <= INT_MAX)%nat ->
  run_history (fcrystal_setup INT_MAX) (fun t h _ => fcrystal_use t h) fcrystal_free reg0 cs =
  ideal (@Some Obj) crystal_effect [] cs.
Proof. intros. apply crystal_history. auto. Qed.
Print Assumptions C37_crystal_handles.

(** findpts: besides, ndim must be 2 or 3, and an object is only ever given to the functions of its
    own dimension. *)
Theorem C37_findpts_handles : forall (O2 O3 : Type) (INT_MAX : nat) (cs : list (fcall (Z * O2 * O3) unit)),
  (forall ndim o2 o3, In (Setup (ndim, o2, o3)) cs -> - 2 ^ 31 <= ndim < 2 ^ 31) ->
  (let n := n_setups cs in n + n / 2 + 1 <= INT_MAX)%nat ->
  run_history (fun t '(ndim, o2, o3) => ffindpts_setup INT_MAX t ndim o2 o3) (fun t h _ => @ffindpts_use O2 O3 t h) ffindpts_free reg0 cs =
  ideal findpts_make findpts_effect [] cs.
Proof. intros. apply findpts_history; auto. Qed.
Print Assumptions C37_findpts_handles.

(** The conversion functions check nothing: a handle never handed out is undefined there. *)
Theorem C37_hf2c_unchecked_refuted : exists h : Z, gs_hf2c (reg0 : registry (@cell nat)) h = UB.
Proof. exists 0. reflexivity. Qed.

(** What the ideal table says, on a history: three objects, one freed in between, the freed
    handle used. *)
Example ex_history :
  let d := Request 3 1 0 (Plain 4096) in
  ideal (@Some nat) (gs_effect (Config TInt TLongLong)) []
    [Setup 70; Setup 71; Use 0 d; Free 0; Setup 72; Use 2 d; Use 0 d; Use 1 d]%nat =
  [Handle 0; Handle 1; Done (Cgs 70%nat gs_long_long gs_add false (Plain 4096)); Freed 70%nat; Handle 2;
   Done (Cgs 72%nat gs_long_long gs_add false (Plain 4096)); Stopped].
Proof. reflexivity. Qed.
Example ex_bad_codes : forall dom op, dom < 1 \/ 3 < dom \/ op < 1 \/ 4 < op ->
  ideal (@Some nat) (gs_effect (Config TInt TLongLong)) [] [Setup 70%nat; Use 0 (Request dom op 0 (Plain 4096))] = [Handle 0; Stopped].
Proof.
  intros dom op H. cbn [ideal]. unfold object_of. cbn [Z.ltb Z.compare nth_error app Z.to_nat].
  replace (gs_effect (Config TInt TLongLong) 70%nat (Request dom op 0 (Plain 4096))) with (@None (cgs nat)); auto.
  unfold gs_effect. cbn [r_dom r_op]. pose proof (codes (Config TInt TLongLong) dom op (Ok tt)) as C.
  destruct (Z.ltb_spec dom 1), (Z.ltb_spec 3 dom), (Z.ltb_spec op 1), (Z.ltb_spec 4 op); cbn [orb] in C;
    try lia; destruct (datatype (Config TInt TLongLong) dom), (operation op); auto; discriminate.
Qed.
Example ex_findpts :
  ideal (@findpts_make nat bool) findpts_effect [] [Setup (2, 5%nat, true); Setup (3, 6%nat, false); Use 0 tt; Free 0; Use 1 tt; Setup (4, 7%nat, true)] =
  [Handle 0; Handle 1; Done (inl 5%nat); Freed (inl 5%nat); Done (inr false); Stopped].
Proof. reflexivity. Qed.

(** C38: the expectation: gs_op_fields works on the n fields that start at u and are stride
    elements of the datatype apart. *)
Definition fields_strided (c : config) : Prop :=
  forall (Obj : Type) INT_MAX t (objs : list (option Obj)) h o dom d op p u stride n tr,
  reached INT_MAX t objs -> object_of objs h = Some o -> datatype c dom = Some d -> operation op = Some p ->
  0 <= n -> 0 <= stride -> stride * sizeof d < 2 ^ 32 -> addresses (fields_at u stride (sizeof d) (Z.to_nat n)) ->
  fgs_fields c t h u stride n dom op tr =
    Ok (Some (Cgs o d p (negb (tr =? 0)) (Many (fields_at u stride (sizeof d) (Z.to_nat n))))).

(** It holds when the integer types have the size of int. *)
Theorem C38_fields_32bit : forall c, t_sint c = TInt -> t_slong c = TInt -> fields_strided c.
Proof.
  intros c E1 E2 Obj M t objs h o dom d op p u stride n tr R Ho Hd Hp Hn Hs Hf A.
  assert (S : code_size c dom = sizeof d).
  { unfold datatype, gs_sint, gs_slong in Hd. rewrite E1, E2 in Hd.
    destruct dom as [|[[q|q|]|[q|q|]|]|]; try discriminate; injection Hd as <-; reflexivity. }
  rewrite <- S in *. eapply fields_ok; eauto. unfold offset_fits. rewrite E1. split; auto.
  apply Z.mul_nonneg_nonneg; auto. unfold code_size. destruct dom as [|[]|]; lia.
Qed.
Print Assumptions C38_fields_32bit.
(** Whatever the integer types, double precision works. *)
Theorem C38_fields_double : forall c (Obj : Type) INT_MAX t (objs : list (option Obj)) h o op p u stride n tr,
  reached INT_MAX t objs -> object_of objs h = Some o -> operation op = Some p -> 0 <= n ->
  offset_fits c (stride * 8) -> addresses (fields_at u stride 8 (Z.to_nat n)) ->
  fgs_fields c t h u stride n 1 op tr =
    Ok (Some (Cgs o gs_double p (negb (tr =? 0)) (Many (fields_at u stride 8 (Z.to_nat n))))).
Proof. intros. apply (fields_ok INT_MAX c t objs); auto. Qed.
Print Assumptions C38_fields_double.
(** With 64-bit integers (the global integers of the default build) the integer datatypes are
    taken 4 bytes per element, half of their size: all fields but the first are misplaced. *)
Theorem C38_fields_integers_misplaced : forall c (Obj : Type) INT_MAX t (objs : list (option Obj)) h o dom d op p u stride n tr,
  dom = 2 /\ t_sint c <> TInt \/ dom = 3 /\ t_slong c <> TInt ->
  reached INT_MAX t objs -> object_of objs h = Some o -> datatype c dom = Some d -> operation op = Some p ->
  0 <= n -> offset_fits c (stride * 4) -> addresses (fields_at u stride 4 (Z.to_nat n)) ->
  sizeof d = 8 /\
  fgs_fields c t h u stride n dom op tr =
    Ok (Some (Cgs o d p (negb (tr =? 0)) (Many (fields_at u stride 4 (Z.to_nat n))))).
Proof.
  intros c Obj M t objs h o dom d op p u stride n tr Hdom R Ho Hd Hp Hn F A. split.
  - destruct Hdom as [[-> N]|[-> N]]; cbn in Hd; injection Hd as <-; unfold gs_sint, gs_slong;
      [destruct (t_sint c)|destruct (t_slong c)]; congruence || reflexivity.
  - assert (S : code_size c dom = 4) by (destruct Hdom as [[-> _]|[-> _]]; reflexivity).
    rewrite <- S in F, A |- *. eapply fields_ok; eauto.
Qed.
Print Assumptions C38_fields_integers_misplaced.
(** So the expectation is false for every build with 64-bit global integers. *)
Theorem C38_fields_strided_refuted : forall c, t_slong c <> TInt -> ~ fields_strided c.
Proof.
  intros c N H.
  assert (E : exists t w, fgs_setup 100 (reg0 : registry (@cell nat)) 7%nat = Ok (t, w)) by (do 2 eexists; reflexivity).
  destruct E as (t & w & E).
  assert (R : reached 100 t ([] ++ [Some 7%nat])).
  { eapply reached_setup; [apply reached_start| |exact E]. cbn. lia. }
  assert (A8 : addresses (fields_at 4096 1 8 (Z.to_nat 2))). { intros a [<-|[<-|[]]]; cbn; lia. }
  assert (A4 : addresses (fields_at 4096 1 4 (Z.to_nat 2))). { intros a [<-|[<-|[]]]; cbn; lia. }
  destruct (C38_fields_integers_misplaced c nat 100 t _ 0 7%nat 3 (gs_slong c) 1 gs_add 4096 1 2 0 ltac:(auto) R eq_refl eq_refl eq_refl
    ltac:(lia) ltac:(unfold offset_fits; destruct (t_sint c); lia) A4) as [S E1].
  rewrite (H nat 100%nat t _ 0 7%nat 3 (gs_slong c) 1 gs_add 4096 1 2 0 R eq_refl eq_refl eq_refl) in E1; rewrite ?S in *; auto; try lia.
  vm_compute in E1. congruence.
Qed.
Print Assumptions C38_fields_strided_refuted.
(** Negative strides do not work either where sint is int: the offset becomes 2^32 - 8. *)
Theorem C38_negative_stride : forall c, t_sint c = TInt -> fields_offset c (-1) 8 = Ok (2 ^ 32 - 8).
Proof. intros c E. unfold fields_offset. rewrite E. reflexivity. Qed.

(** C39: the expectation: an operation started with igs_op_many can be waited for. *)
Definition igs_many_waitable (c : config) : Prop :=
  forall (Obj : Type) INT_MAX need (s s1 : @fstate Obj) h dom op tr uu w,
  nb_reached INT_MAX c need s -> figs_many INT_MAX c need s h dom op tr uu = Ok (s1, w) ->
  exists s2 k, fgs_wait s1 w = Ok (s2, Some k).
(** It never can: whatever happens in between, the wait reads the array of pointers that was a
    local variable of igs_op_many. *)
Theorem C39_igs_many_wait_undefined : forall (Obj : Type) INT_MAX c need (s s1 s2 : @fstate Obj) h dom op tr uu w,
  nb_reached INT_MAX c need s -> figs_many INT_MAX c need s h dom op tr uu = Ok (s1, w) -> uu <> [] ->
  later INT_MAX c need w s1 s2 -> fgs_wait s2 w = UB.
Proof. intros. eapply many_wait_undefined; eauto. Qed.
Print Assumptions C39_igs_many_wait_undefined.

(** A state with one live handle, and operations started on it. *)
Definition s_ex : @fstate nat := FState (Reg [Live 7%nat] 1 1) table0 [] 0.
Lemma s_ex_reached c need : nb_reached 100 c need s_ex.
Proof. apply (nb_setup _ _ _ (FState reg0 table0 [] 0) 7%nat (Reg [Live 7%nat] 1 1) 0); [apply nb_start|reflexivity]. Qed.
Theorem C39_igs_many_waitable_refuted : forall c, ~ igs_many_waitable c.
Proof.
  intros c H. set (need := fun _ : nat => 3).
  assert (E : exists s1 w, figs_many 100 c need s_ex 0 1 1 0 [4096; 8192] = Ok (s1, w)) by (do 2 eexists; reflexivity).
  destruct E as (s1 & w & E). destruct (H nat 100%nat need s_ex s1 0 1 1 0 [4096; 8192] w (s_ex_reached c need) E) as (s2 & k & W).
  rewrite (C39_igs_many_wait_undefined nat 100 c need s_ex s1 s1 0 1 1 0 [4096; 8192] w (s_ex_reached c need) E) in W; try discriminate.
  apply later_refl.
Qed.
Print Assumptions C39_igs_many_waitable_refuted.
(** igs_op and igs_op_vec can be waited for, whatever happens in between, and the wait completes
    exactly that operation. *)
Theorem C39_igs_waitable : forall (Obj : Type) INT_MAX c need (s s1 s2 : @fstate Obj) h dom op tr f w,
  nb_reached INT_MAX c need s -> figs INT_MAX c need s h dom op tr f = Ok (s1, w) -> later INT_MAX c need w s1 s2 ->
  exists s3 k, fgs_call c (f_reg s) h dom op tr f = Ok k /\ fgs_wait s2 w = Ok (s3, Some k).
Proof. intros. eapply igs_waitable; eauto. Qed.
Print Assumptions C39_igs_waitable.

(** C50: the expectation that other gs operations can be done while one is outstanding, which
    holds in C with two buffers (C34), holds in Fortran too. *)
Definition fortran_overlap (c : config) : Prop :=
  forall (Obj : Type) INT_MAX need (s s1 s2 : @fstate Obj) h dom op tr f w h2 dom2 op2 tr2 f2,
  nb_reached INT_MAX c need s -> figs INT_MAX c need s h dom op tr f = Ok (s1, w) -> later INT_MAX c need w s1 s2 ->
  fgs_any c need s2 h2 dom2 op2 tr2 f2 = fgs_call c (f_reg s2) h2 dom2 op2 tr2 f2.
(** All operations started from Fortran share one buffer, so while one that needs it is
    outstanding, any other that needs it, blocking or not, on the same handle or another, writes
    over messages in flight. *)
Theorem C50_fortran_overlap_undefined : forall (Obj : Type) INT_MAX c need (s s1 s2 : @fstate Obj) h dom op tr f w k h2 dom2 op2 tr2 f2 k2,
  nb_reached INT_MAX c need s -> figs INT_MAX c need s h dom op tr f = Ok (s1, w) ->
  fgs_call c (f_reg s) h dom op tr f = Ok k -> 0 < bytes need k ->
  later INT_MAX c need w s1 s2 ->
  fgs_call c (f_reg s2) h2 dom2 op2 tr2 f2 = Ok k2 -> 0 < bytes need k2 ->
  fgs_any c need s2 h2 dom2 op2 tr2 f2 = UB /\ figs INT_MAX c need s2 h2 dom2 op2 tr2 f2 = UB.
Proof.
  intros Obj M c need s s1 s2 h dom op tr f w k h2 dom2 op2 tr2 f2 k2 R E Ek Hk L Ek2 Hk2.
  unfold fgs_any, figs. rewrite Ek2. cbn [bind].
  rewrite (scratch_conflict M c need s h dom op tr f s1 w s2 k R E Ek Hk L (bytes need k2) Hk2). auto.
Qed.
Print Assumptions C50_fortran_overlap_undefined.
Theorem C50_fortran_overlap_refuted : forall c, ~ fortran_overlap c.
Proof.
  intros c H. set (need := fun _ : nat => 3).
  assert (E : exists s1 w, figs 100 c need s_ex 0 1 1 0 (Plain 4096) = Ok (s1, w)) by (do 2 eexists; reflexivity).
  destruct E as (s1 & w & E).
  assert (E2 : f_reg s1 = f_reg s_ex) by (cbv in E; injection E as <- _; reflexivity).
  pose proof (H nat 100%nat need s_ex s1 s1 0 1 1 0 (Plain 4096) w 0 1 1 0 (Plain 8192) (s_ex_reached c need) E (later_refl _ _ _ _ _)) as X.
  destruct (C50_fortran_overlap_undefined nat 100 c need s_ex s1 s1 0 1 1 0 (Plain 4096) w (Cgs 7%nat gs_double gs_add false (Plain 4096)) 0 1 1 0 (Plain 8192) (Cgs 7%nat gs_double gs_add false (Plain 8192))
     (s_ex_reached c need) E eq_refl ltac:(cbn; lia) (later_refl _ _ _ _ _)) as [Y _].
  - rewrite E2. reflexivity.
  - cbn. lia.
  - rewrite X, E2 in Y. discriminate.
Qed.
Print Assumptions C50_fortran_overlap_refuted.
(** When nothing is outstanding, or for operations that exchange nothing, there is no conflict. *)
Theorem C50_fortran_alone : forall (Obj : Type) INT_MAX c need (s : @fstate Obj) h dom op tr f,
  nb_reached INT_MAX c need s -> count (f_nb s) = 0%nat ->
  fgs_any c need s h dom op tr f = fgs_call c (f_reg s) h dom op tr f.
Proof. intros. eapply alone_no_conflict; eauto. Qed.
Print Assumptions C50_fortran_alone.
