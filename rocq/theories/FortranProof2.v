(** gs_op_fields; outstanding operations of the Fortran interface. *)
From Verif Require Import Base BaseLemmas Ops Nonblock NonblockProof Fortran FortranSpec FortranProof.
Local Open Scope Z_scope.

Lemma reached_ok {Obj} INT_MAX t (objs : list (option Obj)) : reached INT_MAX t objs -> reg_ok ptr_ok t objs.
Proof.
  induction 1 as [|t objs o t' h R IH B E|t objs h t' o R IH E].
  - apply reg0_ok.
  - destruct (fgs_setup_ok INT_MAX t objs o IH B) as (t1 & E1 & H1). rewrite E1 in E. injection E as <- _. auto.
  - pose proof (fgs_free_ok t objs h IH) as F. destruct (object_of objs h) as [o'|].
    + destruct F as (t1 & E1 & H1). rewrite E1 in E. injection E as <- _. auto.
    + congruence.
Qed.

Lemma fields_ptrs_at n : forall u off x, (off = x \/ off = uwrap 64 x) ->
  addresses (map (fun k => u + Z.of_nat k * x) (seq 0 n)) ->
  fields_ptrs n u off = map (fun k => u + Z.of_nat k * x) (seq 0 n).
Proof.
  induction n as [|n IH]; intros u off x Ho H; [reflexivity|]. cbn [fields_ptrs seq map].
  cbn [seq map] in H. rewrite <- seq_shift, map_map in H |- *. f_equal; [lia|]. destruct n as [|n]; [reflexivity|].
  assert (E : uwrap 64 (u + off) = u + x).
  { assert (I : 0 <= u + x < 2 ^ 64). { apply H. right. left. lia. }
    destruct Ho as [->| ->]; unfold uwrap; [apply Z.mod_small; auto|].
    rewrite Zplus_mod_idemp_r. apply Z.mod_small; auto. }
  rewrite E, (IH (u + x) off x Ho).
  - apply map_ext. intros k. rewrite Nat2Z.inj_succ. ring.
  - intros a Ia. apply H. right. apply in_map_iff in Ia. destruct Ia as (k & <- & Ik). apply in_map_iff.
    exists k. split; auto. rewrite Nat2Z.inj_succ. ring.
Qed.

Lemma fields_offset_fits c stride size : 0 < size < 2 ^ 32 -> offset_fits c (stride * size) ->
  exists off, fields_offset c stride size = Ok off /\ (off = stride * size \/ off = uwrap 64 (stride * size)).
Proof.
  intros Hs F. unfold offset_fits, fields_offset in *. destruct (t_sint c).
  - eexists. split; [reflexivity|]. left. unfold uwrap. rewrite Zmult_mod_idemp_l. apply Z.mod_small. auto.
  - destruct (Z.leb_spec (- 2 ^ 63) (stride * size)); [|lia]. destruct (Z.ltb_spec (stride * size) (2 ^ 63)); [|lia].
    eexists. split; [reflexivity|]. auto.
  - destruct (Z.leb_spec (- 2 ^ 63) (stride * size)); [|lia]. destruct (Z.ltb_spec (stride * size) (2 ^ 63)); [|lia].
    eexists. split; [reflexivity|]. auto.
Qed.

Definition code_size (c : config) (dom : Z) : Z := match dom with 1 => 8 | _ => 4 end.
Lemma fields_size c dom d : datatype c dom = Some d -> rd (gs_dom_size c) (Z.to_nat (dom - 1)) = Ok (code_size c dom).
Proof.
  unfold datatype. destruct dom as [|[[q|q|]|[q|q|]|]|]; try discriminate; intros _; reflexivity.
Qed.

Lemma fields_ok {Obj} INT_MAX c t (objs : list (option Obj)) h o dom d op p u stride n tr :
  reached INT_MAX t objs -> object_of objs h = Some o -> datatype c dom = Some d -> operation op = Some p ->
  0 <= n -> offset_fits c (stride * code_size c dom) ->
  addresses (fields_at u stride (code_size c dom) (Z.to_nat n)) ->
  fgs_fields c t h u stride n dom op tr =
    Ok (Some (Cgs o d p (negb (tr =? 0)) (Many (fields_at u stride (code_size c dom) (Z.to_nat n))))).
Proof.
  intros R Ho Hd Hp Hn F A. pose proof (reached_ok _ _ _ R) as H. unfold fgs_fields.
  rewrite (check_parms c t objs h dom op H), Ho, Hd, Hp. cbn [bind]. destruct (Z.ltb_spec n 0); [lia|].
  rewrite (fields_size c dom d Hd). cbn [bind].
  destruct (fields_offset_fits c stride (code_size c dom)) as (off & E & Eo); auto.
  { unfold code_size. destruct dom as [|[]|]; lia. }
  rewrite E. cbn [bind]. rewrite (fgs_call_ok c t objs h dom op tr _ H), Ho, Hd, Hp. cbn [bind].
  rewrite (fields_ptrs_at _ _ _ (stride * code_size c dom) Eo); auto.
Qed.

(** * Outstanding operations *)
Section Table.
Context {P : Type}.
Record tinv (t : table P) : Prop := {
  ti_len : length (dict t) = nmax t;
  ti_n : (nn t <= nmax t)%nat;
  ti_count : count t = live_count (dict t);
  ti_free : forall i, (nn t <= i)%nat -> nth_error (dict t) i <> None -> nth_error (dict t) i = Some Uninit }.
Lemma tinv0 : tinv table0.
Proof. constructor; auto. intros [|i] _ H; cbn in H; congruence. Qed.

Lemma enter_inv INT_MAX t op t' w : tinv t -> igs_enter INT_MAX t op = Ok (t', w) ->
  tinv t' /\ w = Z.of_nat (nn t) /\ nn t' = S (nn t) /\ nth_error (dict t') (nn t) = Some (Live op) /\
  forall i, (i < nn t)%nat -> nth_error (dict t') i = nth_error (dict t) i.
Proof.
  intros [Hl Hn Hc Hf] E. unfold igs_enter in E.
  assert (G : exists t1, (if (nn t =? nmax t)%nat then
          m <- int INT_MAX (nmax t + (nmax t / 2 + 1)) ;;
          Ok (Table (dict t ++ repeat Uninit (m - length (dict t))) m (nn t) (count t))
        else Ok t) = Ok t1 /\ tinv t1 /\ nn t1 = nn t /\ (nn t < nmax t1)%nat /\
        forall i, (i < nn t)%nat -> nth_error (dict t1) i = nth_error (dict t) i).
  { destruct (Nat.eqb_spec (nn t) (nmax t)) as [En|N].
    - unfold int in *. destruct (Nat.leb_spec (nmax t + (nmax t / 2 + 1)) INT_MAX); [|cbn in E; discriminate].
      eexists. split; [reflexivity|]. cbn [nn nmax dict count]. split; [|split; auto; split; [lia|]].
      + constructor; cbn [nn nmax dict count]; try lia.
        * rewrite app_length, repeat_length. lia.
        * rewrite live_app, live_uninit. lia.
        * intros i Li Hi. rewrite nth_error_app2 in * by lia.
          destruct (nth_error (repeat Uninit (nmax t + (nmax t / 2 + 1) - length (dict t))) (i - length (dict t))) eqn:X; [|congruence].
          apply nth_error_In, repeat_spec in X. subst. auto.
      + intros i Li. apply nth_error_app1. lia.
    - exists t. split; auto. split; [constructor; auto|]. split; auto. split; [lia|auto]. }
  destruct G as (t1 & G1 & [Hl1 Hn1 Hc1 Hf1] & G3 & G4 & G5). rewrite G1 in E. cbn [bind] in E.
  rewrite wr_lt in E by lia. cbn [bind] in E. unfold int in E.
  destruct (Nat.leb_spec (S (nn t1)) INT_MAX); [|discriminate]. cbn [bind] in E.
  destruct (Nat.leb_spec (S (count t1)) INT_MAX); [|discriminate]. cbn [bind] in E. injection E as <- <-.
  cbn [dict nn]. rewrite G3. split; [|split; auto; split; auto; split].
  - constructor; cbn [nn nmax dict count]; rewrite ?upd_length; try lia.
    + assert (X : nth_error (dict t1) (nn t1) = Some Uninit).
      { apply Hf1; auto. apply nth_error_Some. lia. }
      pose proof (live_upd (dict t1) (nn t1) _ (Live op) X) as U. cbn in U. rewrite <- G3. lia.
    + intros i Li Hi. rewrite nth_error_upd_ne in * by lia. apply Hf1; auto. lia.
  - apply nth_error_upd_eq. lia.
  - intros i Li. rewrite nth_error_upd_ne by lia. auto.
Qed.

Lemma wait_inv t h t' r j (op : P) : tinv t -> gs_wait_table t h = Ok (t', r) -> h <> Z.of_nat j ->
  nth_error (dict t) j = Some (Live op) -> tinv t' /\ nth_error (dict t') j = Some (Live op).
Proof.
  intros [Hl Hn Hc Hf] E Hj Ej. unfold gs_wait_table in E.
  destruct (Z.ltb_spec h (Z.of_nat (nn t))).
  - destruct (Z.ltb_spec h 0); [discriminate|].
    destruct (nth_error (dict t) (Z.to_nat h)) as [x|] eqn:X; [|unfold rd in E; rewrite X in E; discriminate].
    rewrite (rd_some _ _ _ X) in E. cbn [bind] in E. destruct x as [| |o]; try discriminate.
    rewrite wr_lt in E by (apply nth_error_Some; congruence). cbn [bind] in E. cbn [count] in E.
    pose proof (live_upd (dict t) (Z.to_nat h) _ Null X) as U. cbn in U.
    assert (Ej' : nth_error (upd (dict t) (Z.to_nat h) Null) j = Some (Live op)) by (rewrite nth_error_upd_ne by lia; auto).
    pose proof (live_upd (upd (dict t) (Z.to_nat h) Null) j _ Null Ej') as U2. cbn in U2.
    destruct (Nat.eqb_spec (count t - 1) 0); [lia|]. injection E as <- _. cbn [dict]. split; auto.
    constructor; cbn [nn nmax dict count]; rewrite ?upd_length; try lia.
    intros i Li Hi. rewrite nth_error_upd_ne in * by lia. auto.
  - cbn [bind] in E. pose proof (live_upd (dict t) j _ Null Ej) as U. cbn in U.
    destruct (Nat.eqb_spec (count t) 0); [lia|]. injection E as <- _. split; auto. constructor; auto.
Qed.
Lemma wait_inv' t h t' (r : option P) : tinv t -> gs_wait_table t h = Ok (t', r) -> tinv t'.
Proof.
  intros [Hl Hn Hc Hf] E. unfold gs_wait_table in E.
  destruct (Z.ltb_spec h (Z.of_nat (nn t))).
  - destruct (Z.ltb_spec h 0); [discriminate|].
    destruct (nth_error (dict t) (Z.to_nat h)) as [x|] eqn:X; [|unfold rd in E; rewrite X in E; discriminate].
    rewrite (rd_some _ _ _ X) in E. cbn [bind] in E. destruct x as [| |o]; try discriminate.
    rewrite wr_lt in E by (apply nth_error_Some; congruence). cbn [bind] in E. cbn [count] in E.
    pose proof (live_upd (dict t) (Z.to_nat h) _ Null X) as U. cbn in U.
    destruct (Nat.eqb_spec (count t - 1) 0); injection E as <- _; [apply tinv0|].
    constructor; cbn [nn nmax dict count]; rewrite ?upd_length; try lia.
    intros i Li Hi. rewrite nth_error_upd_ne in * by lia. auto.
  - cbn [bind] in E. destruct (Nat.eqb_spec (count t) 0); injection E as <- _; [apply tinv0|]. constructor; auto.
Qed.
End Table.

Section NB.
Context {Obj : Type}.
Variable INT_MAX : nat.
Variable c : config.
Variable need : Obj -> Z.
Notation fstate := (@fstate Obj).

Definition sinv (s : fstate) : Prop := tinv (f_nb s) /\ forall f, In f (f_frames s) -> (f < f_next s)%nat.
Lemma figs_inv s h dom op tr f s' w : sinv s -> figs INT_MAX c need s h dom op tr f = Ok (s', w) ->
  exists k r, fgs_call c (f_reg s) h dom op tr f = Ok k /\ igs_enter INT_MAX (f_nb s) (Entry k None (bytes need k)) = Ok (r, w) /\
    s' = FState (f_reg s) r (f_frames s) (f_next s) /\ sinv s'.
Proof.
  intros [I F] E. unfold figs in E. destruct (fgs_call c (f_reg s) h dom op tr f) as [k| | |]; try discriminate. cbn [bind] in E.
  destruct (use_scratch s (bytes need k)); try discriminate. cbn [bind] in E.
  destruct (igs_enter INT_MAX (f_nb s) (Entry k None (bytes need k))) as [[r w']| | |] eqn:G; try discriminate. cbn [bind fst snd] in E.
  injection E as <- <-. exists k, r. do 3 (split; auto). apply (enter_inv _ _ _ _ _ I) in G. split; cbn; auto. apply G.
Qed.
Lemma figs_many_inv s h dom op tr uu s' w : sinv s -> figs_many INT_MAX c need s h dom op tr uu = Ok (s', w) ->
  exists k r, fgs_call c (f_reg s) h dom op tr (Many uu) = Ok k /\
    igs_enter INT_MAX (f_nb s) (Entry k (Some (f_next s)) (bytes need k)) = Ok (r, w) /\
    f_reg s' = f_reg s /\ f_nb s' = r /\ f_next s' = S (f_next s) /\ ~ In (f_next s) (f_frames s') /\
    incl (f_frames s') (f_frames s) /\ sinv s'.
Proof.
  intros [I F] E. unfold figs_many in E. destruct (fgs_call c (f_reg s) h dom op tr (Many uu)) as [k| | |]; try discriminate. cbn [bind] in E.
  destruct (use_scratch s (bytes need k)); try discriminate. cbn [bind] in E.
  destruct (igs_enter INT_MAX (f_nb s) (Entry k (Some (f_next s)) (bytes need k))) as [[r w']| | |] eqn:G; try discriminate. cbn [bind fst snd] in E.
  match type of E with context [filter ?g ?l] => remember (filter g l) as fr eqn:Efr end.
  assert (Inc : incl fr (f_frames s)).
  { intros f Hf. subst fr. apply filter_In in Hf. destruct Hf as [[<-|Hf] Nf]; auto. rewrite Nat.eqb_refl in Nf. discriminate. }
  assert (Nin : ~ In (f_next s) fr).
  { intros Hf. subst fr. apply filter_In in Hf. destruct Hf as [_ Nf]. rewrite Nat.eqb_refl in Nf. discriminate. }
  clear Efr. injection E as <- <-. exists k, r. cbn [f_reg f_nb f_next f_frames]. do 5 (split; auto).
  split; auto. split; auto. split; [apply (enter_inv _ _ _ _ _ I) in G; apply G|].
  cbn [f_frames f_next]. intros f Hf. apply Inc in Hf. specialize (F f Hf). lia.
Qed.
Lemma fgs_wait_inv (s : fstate) w s' k : fgs_wait s w = Ok (s', k) ->
  exists r e, gs_wait_table (f_nb s) w = Ok (r, e) /\ s' = FState (f_reg s) r (f_frames s) (f_next s).
Proof.
  unfold fgs_wait. intros E. destruct (gs_wait_table (f_nb s) w) as [[r e]| | |]; try discriminate. cbn [bind fst snd] in E.
  exists r, e. split; auto. destruct e as [e|].
  - destruct (match e_frame e with Some f => _ | None => _ end); try discriminate. cbn [bind] in E. injection E as <- _. auto.
  - injection E as <- _. auto.
Qed.

Lemma nb_sinv s : nb_reached INT_MAX c need s -> sinv s.
Proof.
  induction 1 as [|s o t' h R IH E|s h t' o R IH E|s h dom op tr f s' w R IH E|s h dom op tr uu s' w R IH E|s w s' k R IH E].
  - split; [apply tinv0|intros f []].
  - auto.
  - auto.
  - destruct (figs_inv _ _ _ _ _ _ _ _ IH E) as (k & r & _ & _ & _ & X). auto.
  - destruct (figs_many_inv _ _ _ _ _ _ _ _ IH E) as (k & r & X). apply X.
  - destruct (fgs_wait_inv _ _ _ _ E) as (r & e & G & ->). destruct IH as [I F]. split; auto. cbn. eapply wait_inv'; eauto.
Qed.

(** While an operation is outstanding its cell stays, and a frame that is gone stays gone. *)
Lemma later_inv j s1 s2 e : later INT_MAX c need (Z.of_nat j) s1 s2 -> sinv s1 ->
  nth_error (dict (f_nb s1)) j = Some (Live e) -> (j < nn (f_nb s1))%nat ->
  sinv s2 /\ nth_error (dict (f_nb s2)) j = Some (Live e) /\ (j < nn (f_nb s2))%nat /\
  forall f, (f < f_next s1)%nat -> ~ In f (f_frames s1) -> (f < f_next s2)%nat /\ ~ In f (f_frames s2).
Proof.
  induction 1 as [s|s1 s o t' h R IH E|s1 s h t' o R IH E|s1 s h dom op tr f s' w' R IH E|s1 s h dom op tr uu s' w' R IH E|s1 s w' s' k R IH Nw E];
    intros I1 Ej Hj; try specialize (IH I1 Ej Hj); auto.
  - destruct IH as (Is & Es & Hs & F). destruct (figs_inv _ _ _ _ _ _ _ _ Is E) as (k & r & _ & G & -> & Is').
    destruct (enter_inv _ _ _ _ _ (proj1 Is) G) as (_ & _ & N & _ & K). cbn [f_nb f_frames f_next].
    split; auto. split; [rewrite K; auto|]. split; [lia|]. auto.
  - destruct IH as (Is & Es & Hs & F). destruct (figs_many_inv _ _ _ _ _ _ _ _ Is E) as (k & r & _ & G & _ & <- & N & N2 & Inc & Is').
    destruct (enter_inv _ _ _ _ _ (proj1 Is) G) as (_ & _ & N' & _ & K).
    split; auto. split; [rewrite K; auto|]. split; [lia|]. intros f Lf Nf. destruct (F f Lf Nf). split; [lia|]. intros X. apply Inc in X. auto.
  - destruct IH as (Is & Es & Hs & F). destruct (fgs_wait_inv _ _ _ _ E) as (r & e' & G & ->).
    destruct (wait_inv _ _ _ _ j e (proj1 Is) G Nw Es) as [I' E']. cbn [f_nb f_frames f_next].
    split; [split; auto; apply Is|]. split; auto. split; [|auto].
    destruct (Nat.lt_ge_cases j (nn r)) as [|L]; auto. exfalso.
    pose proof (ti_free _ I' j L ltac:(congruence)). congruence.
Qed.

Lemma many_wait_undefined s h dom op tr uu s1 w s2 :
  nb_reached INT_MAX c need s -> figs_many INT_MAX c need s h dom op tr uu = Ok (s1, w) -> uu <> [] ->
  later INT_MAX c need w s1 s2 -> fgs_wait s2 w = UB.
Proof.
  intros R E Hu L. pose proof (nb_sinv s R) as I. destruct (figs_many_inv _ _ _ _ _ _ _ _ I E) as (k & r & Ek & G & _ & <- & N & N2 & Inc & I1).
  destruct (enter_inv _ _ _ _ _ (proj1 I) G) as (_ & -> & N' & Ej & _).
  destruct (later_inv _ _ _ _ L I1 Ej ltac:(lia)) as (I2 & E2 & H2 & F2).
  destruct (F2 (f_next s) ltac:(lia) N2) as [_ F3].
  unfold fgs_wait, gs_wait_table. destruct (Z.ltb_spec (Z.of_nat (nn (f_nb s))) (Z.of_nat (nn (f_nb s2)))); [|lia].
  destruct (Z.ltb_spec (Z.of_nat (nn (f_nb s))) 0); [lia|]. rewrite Nat2Z.id, (rd_some _ _ _ E2). cbn [bind].
  rewrite wr_lt by (apply nth_error_Some; congruence). cbn [bind snd e_frame e_call].
  assert (Ed : c_data k = Many uu).
  { unfold fgs_call in Ek. destruct (fgs_check_parms (f_reg s) h dom op); try discriminate. cbn [bind] in Ek.
    destruct (rd (fgs_dom c) (Z.to_nat dom)); try discriminate. cbn [bind] in Ek.
    destruct (op_number (op - 1)); try discriminate. cbn [bind] in Ek. destruct (fgs_info (f_reg s) h); try discriminate. cbn [bind] in Ek.
    destruct (follow _); try discriminate. cbn [bind] in Ek. injection Ek as <-. auto. }
  rewrite Ed. replace (existsb (Nat.eqb (f_next s)) (f_frames s2)) with false.
  - destruct uu as [|x uu]; [congruence|]. cbn [vn_of length orb]. destruct (Z.eqb_spec (Z.of_nat (S (length uu))) 0); [lia|]. reflexivity.
  - symmetry. apply not_true_is_false. intros X. apply existsb_exists in X. destruct X as (f & Hf & Ef). apply Nat.eqb_eq in Ef. subst f. auto.
Qed.

Lemma outstanding_busy j (s : fstate) e : nth_error (dict (f_nb s)) j = Some (Live e) -> 0 < e_bytes e -> busy s = true.
Proof.
  intros E B. apply existsb_exists. exists (Live e). split; [eapply nth_error_In; eauto|]. apply Z.ltb_lt. auto.
Qed.

Lemma scratch_conflict s h dom op tr f s1 w s2 k :
  nb_reached INT_MAX c need s -> figs INT_MAX c need s h dom op tr f = Ok (s1, w) ->
  fgs_call c (f_reg s) h dom op tr f = Ok k -> 0 < bytes need k ->
  later INT_MAX c need w s1 s2 -> forall b, 0 < b -> use_scratch s2 b = UB.
Proof.
  intros R E Ek Hb L b B. pose proof (nb_sinv s R) as I. destruct (figs_inv _ _ _ _ _ _ _ _ I E) as (k' & r & Ek' & G & -> & I1).
  rewrite Ek in Ek'. injection Ek' as <-.
  destruct (enter_inv _ _ _ _ _ (proj1 I) G) as (_ & -> & N' & Ej & _).
  destruct (later_inv _ _ _ _ L I1 Ej ltac:(cbn; lia)) as (I2 & E2 & H2 & F2).
  unfold use_scratch. rewrite (outstanding_busy _ _ _ E2 Hb). destruct (Z.ltb_spec 0 b); [auto|lia].
Qed.

Lemma igs_waitable s h dom op tr f s1 w s2 :
  nb_reached INT_MAX c need s -> figs INT_MAX c need s h dom op tr f = Ok (s1, w) ->
  later INT_MAX c need w s1 s2 ->
  exists s3 k, fgs_call c (f_reg s) h dom op tr f = Ok k /\ fgs_wait s2 w = Ok (s3, Some k).
Proof.
  intros R E L. pose proof (nb_sinv s R) as I. destruct (figs_inv _ _ _ _ _ _ _ _ I E) as (k & r & Ek & G & -> & I1).
  destruct (enter_inv _ _ _ _ _ (proj1 I) G) as (_ & -> & N' & Ej & _).
  destruct (later_inv _ _ _ _ L I1 Ej ltac:(cbn; lia)) as (I2 & E2 & H2 & F2).
  unfold fgs_wait, gs_wait_table. destruct (Z.ltb_spec (Z.of_nat (nn (f_nb s))) (Z.of_nat (nn (f_nb s2)))); [|lia].
  destruct (Z.ltb_spec (Z.of_nat (nn (f_nb s))) 0); [lia|]. rewrite Nat2Z.id, (rd_some _ _ _ E2). cbn [bind].
  rewrite wr_lt by (apply nth_error_Some; congruence). cbn [bind snd e_frame e_call]. do 2 eexists. split; [exact Ek|reflexivity].
Qed.
Lemma alone_no_conflict s h dom op tr f : nb_reached INT_MAX c need s -> count (f_nb s) = 0%nat ->
  fgs_any c need s h dom op tr f = fgs_call c (f_reg s) h dom op tr f.
Proof.
  intros R C. pose proof (proj1 (nb_sinv s R)) as I. unfold fgs_any.
  destruct (fgs_call c (f_reg s) h dom op tr f) as [k| | |]; auto. cbn [bind]. unfold use_scratch.
  replace (busy s) with false; [rewrite andb_false_r; auto|]. symmetry. apply not_true_is_false. intros X.
  apply existsb_exists in X. destruct X as (x & Hx & Bx). destruct x as [| |e]; try discriminate.
  rewrite (ti_count _ I) in C. unfold live_count in C. apply length_zero_iff_nil in C.
  assert (In (Live e) (filter live (dict (f_nb s)))) by (apply filter_In; auto). rewrite C in H. auto.
Qed.
End NB.
