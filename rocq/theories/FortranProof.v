(** The handle tables do what is expected of them. *)
From Verif Require Import Base BaseLemmas Ops Nonblock NonblockProof Fortran FortranSpec.
Local Open Scope Z_scope.

Section Reg.
Context {C Obj : Type}.
Variable INT_MAX : nat.
(** The cell of an object, of a freed object. *)
Variable cell_ok : C -> option Obj -> Prop.
Variable blank : C.

Record reg_ok (t : registry C) (objs : list (option Obj)) : Prop := {
  ro_len : length (arr t) = rmax t;
  ro_n : rn t = length objs;
  ro_le : (rn t <= rmax t)%nat;
  ro_max : (rmax t <= rn t + rn t / 2 + 1)%nat;
  ro_cell : forall i x, nth_error objs i = Some x -> exists y, nth_error (arr t) i = Some y /\ cell_ok y x }.

Lemma reg0_ok : reg_ok reg0 [].
Proof. constructor; cbn; auto; try lia. intros [|i] x E; discriminate. Qed.

Lemma grow_ok t objs : reg_ok t objs ->
  (length objs + length objs / 2 + 1 <= INT_MAX)%nat ->
  exists t', (if (rn t =? rmax t)%nat then
          m <- int INT_MAX (rmax t + (rmax t / 2 + 1)) ;;
          Ok (Reg (arr t ++ repeat blank (m - length (arr t))) m (rn t))
        else Ok t) = Ok t' /\ reg_ok t' objs /\ (rn t' < rmax t')%nat.
Proof.
  intros [Hl Hn Hle Hm Hc] B. destruct (Nat.eqb_spec (rn t) (rmax t)) as [E|N].
  - unfold int. destruct (Nat.leb_spec (rmax t + (rmax t / 2 + 1)) INT_MAX) as [_|L].
    2:{ rewrite <- E, Hn in L. lia. }
    cbn [bind]. eexists. split; [reflexivity|]. split; [|cbn [rn rmax]; lia].
    constructor; cbn [arr rmax rn]; auto; try lia.
    + rewrite app_length, repeat_length. lia.
    + rewrite <- E. lia.
    + intros i x Ex. destruct (Hc i x Ex) as (y & Ey & Hy). exists y. split; auto.
      rewrite nth_error_app1; auto. apply nth_error_Some. congruence.
  - exists t. split; auto. split; [constructor; auto|lia].
Qed.

Lemma add_ok t objs y x : reg_ok t objs -> (rn t < rmax t)%nat -> cell_ok y (Some x) ->
  reg_ok (Reg (upd (arr t) (rn t) y) (rmax t) (S (rn t))) (objs ++ [Some x]).
Proof.
  intros [Hl Hn Hle Hm Hc] L Hy. constructor; cbn [arr rmax rn]; auto.
  - rewrite upd_length. auto.
  - rewrite app_length. cbn. lia.
  - pose proof (Nat.div_le_mono (rn t) (S (rn t)) 2 ltac:(lia) ltac:(lia)). lia.
  - intros i z E. destruct (Nat.lt_ge_cases i (length objs)) as [Li|Li].
    + rewrite nth_error_app1 in E by auto. destruct (Hc i z E) as (w & Ew & Hw). exists w. split; auto.
      rewrite nth_error_upd_ne by lia. auto.
    + rewrite nth_error_app2 in E by auto. destruct (i - length objs)%nat as [|k] eqn:K.
      * injection E as <-. assert (i = rn t) as -> by lia. exists y. split; auto.
        apply nth_error_upd_eq. lia.
      * cbn in E. destruct k; discriminate.
Qed.

Lemma del_ok t objs i y : reg_ok t objs -> (i < length objs)%nat -> cell_ok y None ->
  reg_ok (Reg (upd (arr t) i y) (rmax t) (rn t)) (upd objs i None).
Proof.
  intros [Hl Hn Hle Hm Hc] L Hy. constructor; cbn [arr rmax rn]; auto; rewrite ?upd_length; auto.
  intros j z E. destruct (Nat.eq_dec j i) as [->|Nj].
  - rewrite nth_error_upd_eq in E by auto. injection E as <-. exists y. split; auto. apply nth_error_upd_eq. lia.
  - rewrite nth_error_upd_ne in E by auto. destruct (Hc j z E) as (w & Ew & Hw). exists w. split; auto.
    rewrite nth_error_upd_ne; auto.
Qed.

(** Looking up a handle. *)
Lemma object_cases t objs h : reg_ok t objs ->
  (object_of objs h = None /\ (h < 0 \/ Z.of_nat (rn t) <= h)) \/
  (0 <= h /\ (Z.to_nat h < length objs)%nat /\ h < Z.of_nat (rn t) /\
   exists x y, nth_error objs (Z.to_nat h) = Some x /\ object_of objs h = x /\
     nth_error (arr t) (Z.to_nat h) = Some y /\ cell_ok y x).
Proof.
  intros H. pose proof H as [Hl Hn Hle Hm Hc]. unfold object_of. destruct (Z.ltb_spec h 0); [left; auto|].
  destruct (Z_le_gt_dec (Z.of_nat (rn t)) h) as [L|L].
  - left. split; auto. replace (nth_error objs (Z.to_nat h)) with (@None (option Obj)); auto. symmetry. apply nth_error_None. lia.
  - right. split; auto. split; [lia|]. split; [lia|].
    destruct (nth_error objs (Z.to_nat h)) as [x|] eqn:E; [|apply nth_error_None in E; lia].
    destruct (Hc _ _ E) as (y & Ey & Hy). exists x, y. repeat split; auto. destruct x; auto.
Qed.
End Reg.

(** A generic simulation. *)
Section Sim.
Context {C Arg Obj Req Ans : Type}.
Variable INT_MAX : nat.
Variable cell_ok : C -> option Obj -> Prop.
Variable make : Arg -> option Obj.
Variable effect : Obj -> Req -> option Ans.
Variable setup : registry C -> Arg -> res (registry C * Z).
Variable use : registry C -> Z -> Req -> res Ans.
Variable free : registry C -> Z -> res (registry C * Obj).
Variable arg_ok : Arg -> Prop.
Hypothesis setup_ok : forall t objs a, arg_ok a -> reg_ok cell_ok t objs -> (length objs + length objs / 2 + 1 <= INT_MAX)%nat ->
  match make a with
  | Some o => exists t', setup t a = Ok (t', Z.of_nat (length objs)) /\ reg_ok cell_ok t' (objs ++ [Some o])
  | None => setup t a = Abort
  end.
Hypothesis use_ok : forall t objs h r, reg_ok cell_ok t objs ->
  use t h r = match object_of objs h with
              | Some o => match effect o r with Some x => Ok x | None => Abort end
              | None => Abort
              end.
Hypothesis free_ok : forall t objs h, reg_ok cell_ok t objs ->
  match object_of objs h with
  | Some o => exists t', free t h = Ok (t', o) /\ reg_ok cell_ok t' (upd objs (Z.to_nat h) None)
  | None => free t h = Abort
  end.

Lemma sim cs : forall t objs, reg_ok cell_ok t objs -> (forall a, In (Setup a) cs -> arg_ok a) ->
  (let n := length objs + n_setups cs in n + n / 2 + 1 <= INT_MAX)%nat ->
  run_history setup use free t cs = ideal make effect objs cs.
Proof.
  induction cs as [|[a|h r|h] cs IH]; intros t objs H A B; cbn [run_history ideal]; auto;
    assert (A' : forall a, In (Setup a) cs -> arg_ok a) by (intros; apply A; right; auto).
  - assert (B0 : (length objs + length objs / 2 + 1 <= INT_MAX)%nat).
    { cbv zeta in B. pose proof (Nat.div_le_mono (length objs) (length objs + n_setups (Setup a :: cs)) 2 ltac:(lia) ltac:(lia)). lia. }
    pose proof (setup_ok t objs a (A _ (or_introl eq_refl)) H B0) as S. destruct (make a) as [o|].
    + destruct S as (t' & E & H'). rewrite E. cbn [answers fst snd]. f_equal. apply IH; auto.
      unfold n_setups in B. cbn [filter length] in B. rewrite app_length. cbn [length]. cbv zeta in B |- *.
      replace (length objs + 1 + n_setups cs)%nat with (length objs + S (n_setups cs))%nat by lia. exact B.
    + rewrite S. auto.
  - rewrite (use_ok t objs h r H). destruct (object_of objs h) as [o|]; auto. destruct (effect o r); auto.
    cbn [answers]. f_equal. apply IH; auto.
  - pose proof (free_ok t objs h H) as F. destruct (object_of objs h) as [o|].
    + destruct F as (t' & E & H'). rewrite E. cbn [answers fst snd]. f_equal. apply IH; auto.
      rewrite upd_length. auto.
    + rewrite F. auto.
Qed.
End Sim.

(** * gs *)
Definition ptr_ok {Obj} (y : @cell Obj) (x : option Obj) : Prop :=
  match x with Some o => y = Live o | None => y = Null end.

Section Gs.
Context {Obj : Type}.
Variable INT_MAX : nat.
Variable c : config.
Notation ok := (@reg_ok (@cell Obj) Obj ptr_ok).

Lemma fgs_setup_ok t objs o : ok t objs -> (length objs + length objs / 2 + 1 <= INT_MAX)%nat ->
  exists t', fgs_setup INT_MAX t o = Ok (t', Z.of_nat (length objs)) /\ ok t' (objs ++ [Some o]).
Proof.
  intros H B. unfold fgs_setup. destruct (grow_ok INT_MAX ptr_ok Uninit t objs H B) as (t' & E & H' & L).
  rewrite E. cbn [bind]. rewrite wr_lt by (rewrite (ro_len _ _ _ H'); auto). cbn [bind]. unfold int.
  pose proof (ro_n _ _ _ H').
  destruct (Nat.leb_spec (S (rn t')) INT_MAX); [|lia]. cbn [bind]. eexists. rewrite <- (ro_n _ _ _ H').
  split; [reflexivity|]. apply add_ok; auto. reflexivity.
Qed.

Lemma check_handle t objs h : ok t objs ->
  fgs_check_handle t h = match object_of objs h with Some _ => Ok tt | None => Abort end.
Proof.
  intros H. unfold fgs_check_handle. destruct (object_cases ptr_ok t objs h H) as [[-> [L|L]]|(L1 & L2 & L3 & x & y & E & -> & Ey & Hy)].
  - destruct (Z.ltb_spec h 0); [auto|lia].
  - destruct (Z.leb_spec (Z.of_nat (rn t)) h); [|lia]. rewrite orb_true_r. auto.
  - destruct (Z.ltb_spec h 0); [lia|]. destruct (Z.leb_spec (Z.of_nat (rn t)) h); [lia|]. cbn [orb].
    rewrite (rd_some _ _ _ Ey). cbn [bind]. destruct x; cbn in Hy; subst y; auto.
Qed.
Lemma info_ok t objs h o : ok t objs -> object_of objs h = Some o -> fgs_info t h = Ok (Live o).
Proof.
  intros H E. destruct (object_cases ptr_ok t objs h H) as [[E' _]|(L1 & L2 & L3 & x & y & Ex & E' & Ey & Hy)]; [congruence|].
  rewrite E in E'. subst x. cbn in Hy. subst y. unfold fgs_info. destruct (Z.ltb_spec h 0); [lia|]. apply rd_some. auto.
Qed.

Lemma codes dom op (h : res unit) : 
  (if (dom <? 1) || (3 <? dom) then Abort else if (op <? 1) || (4 <? op) then Abort else h) =
  match datatype c dom, operation op with Some _, Some _ => h | _, _ => Abort end.
Proof.
  assert (D : datatype c dom = None /\ ((dom <? 1) || (3 <? dom) = true) \/
    (exists d, datatype c dom = Some d) /\ ((dom <? 1) || (3 <? dom) = false)).
  { destruct (Z.ltb_spec dom 1); [left|]. { split; auto. destruct dom as [|[]|]; auto; lia. }
    destruct (Z.ltb_spec 3 dom); [left|right].
    { split; auto. destruct dom as [|[[[]|[]|]|[[]|[]|]|]|]; auto; try lia. }
    split; auto. assert (dom = 1 \/ dom = 2 \/ dom = 3) as [->|[->| ->]] by lia; cbn; eauto. }
  assert (P : operation op = None /\ ((op <? 1) || (4 <? op) = true) \/
    (exists d, operation op = Some d) /\ ((op <? 1) || (4 <? op) = false)).
  { destruct (Z.ltb_spec op 1); [left|]. { split; auto. destruct op as [|[]|]; auto; lia. }
    destruct (Z.ltb_spec 4 op); [left|right].
    { split; auto. destruct op as [|[[[]|[]|]|[[]|[]|]|]|]; auto; try lia. }
    split; auto. assert (op = 1 \/ op = 2 \/ op = 3 \/ op = 4) as [->|[->|[->| ->]]] by lia; cbn; eauto. }
  destruct D as [[D1 D2]|[[d D1] D2]]; rewrite D1, D2; auto.
  destruct P as [[P1 P2]|[[p P1] P2]]; rewrite P1, P2; auto.
Qed.
Lemma dom_code dom d : datatype c dom = Some d -> rd (fgs_dom c) (Z.to_nat dom) = Ok d.
Proof.
  unfold datatype. destruct dom as [|[[| |]|[| |]|]|]; try discriminate; intros [= <-]; reflexivity.
Qed.
Lemma op_code op p : operation op = Some p -> op_number (op - 1) = Ok p.
Proof.
  unfold operation. destruct op as [|[[q|q|]|[[q|q|]|[q|q|]|]|]|]; try discriminate; intros H; injection H as <-; reflexivity.
Qed.

Lemma check_parms t objs h dom op : ok t objs ->
  fgs_check_parms t h dom op = match datatype c dom, operation op, object_of objs h with
                               | Some _, Some _, Some _ => Ok tt
                               | _, _, _ => Abort
                               end.
Proof.
  intros H. unfold fgs_check_parms. rewrite (codes dom op), (check_handle t objs h H).
  destruct (datatype c dom), (operation op), (object_of objs h); auto.
Qed.

Lemma fgs_call_ok t objs h dom op tr f : ok t objs ->
  fgs_call c t h dom op tr f =
    match datatype c dom, operation op, object_of objs h with
    | Some d, Some p, Some o => Ok (Cgs o d p (negb (tr =? 0)) f)
    | _, _, _ => Abort
    end.
Proof.
  intros H. unfold fgs_call. rewrite (check_parms t objs h dom op H).
  destruct (datatype c dom) as [d|] eqn:D; auto. destruct (operation op) as [p|] eqn:P; auto.
  destruct (object_of objs h) as [o|] eqn:E; auto. cbn [bind].
  rewrite (dom_code _ _ D), (op_code _ _ P), (info_ok _ _ _ _ H E). reflexivity.
Qed.

Lemma fgs_use_ok t objs h r : ok t objs ->
  fgs_use c t h r = match object_of objs h with
              | Some o => match gs_effect c o r with Some x => Ok x | None => Abort end
              | None => Abort
              end.
Proof.
  intros H. unfold fgs_use, gs_effect. rewrite (fgs_call_ok _ _ _ _ _ _ _ H).
  destruct (datatype c (r_dom r)), (operation (r_op r)), (object_of objs h); auto.
Qed.

Lemma fgs_free_ok t objs h : ok t objs ->
  match object_of objs h with
  | Some o => exists t', fgs_free t h = Ok (t', o) /\ ok t' (upd objs (Z.to_nat h) None)
  | None => fgs_free t h = Abort
  end.
Proof.
  intros H. unfold fgs_free. rewrite (check_handle t objs h H). destruct (object_of objs h) as [o|] eqn:E; auto.
  cbn [bind]. rewrite (info_ok _ _ _ _ H E). cbn [bind follow].
  destruct (object_cases ptr_ok t objs h H) as [[E' _]|(L1 & L2 & L3 & x & y & Ex & E' & Ey & Hy)]; [congruence|].
  rewrite wr_lt by (rewrite (ro_len _ _ _ H); pose proof (ro_le _ _ _ H); pose proof (ro_n _ _ _ H); lia). cbn [bind].
  eexists. split; [reflexivity|]. apply del_ok; auto. reflexivity.
Qed.

Theorem gs_history cs :
  (let n := n_setups cs in n + n / 2 + 1 <= INT_MAX)%nat ->
  run_history (fgs_setup INT_MAX) (fgs_use c) fgs_free reg0 cs = ideal (@Some Obj) (gs_effect c) [] cs.
Proof.
  intros B. apply (sim INT_MAX ptr_ok) with (arg_ok := fun _ => True); auto.
  - intros t objs o _ H B'. apply fgs_setup_ok; auto.
  - apply fgs_use_ok.
  - apply fgs_free_ok.
  - apply reg0_ok.
Qed.
End Gs.

(** * crystal *)
Section Crystal.
Context {Obj : Type}.
Variable INT_MAX : nat.
Notation ok := (@reg_ok (@cell Obj) Obj ptr_ok).
Lemma fcrystal_use_ok t objs h : ok t objs ->
  fcrystal_use t h = match object_of objs h with Some o => Ok o | None => Abort end.
Proof.
  intros H. unfold fcrystal_use. destruct (object_cases ptr_ok t objs h H) as [[-> [L|L]]|(L1 & L2 & L3 & x & y & E & -> & Ey & Hy)].
  - destruct (Z.ltb_spec h 0); [auto|lia].
  - destruct (Z.leb_spec (Z.of_nat (rn t)) h); [|lia]. rewrite orb_true_r. auto.
  - destruct (Z.ltb_spec h 0); [lia|]. destruct (Z.leb_spec (Z.of_nat (rn t)) h); [lia|]. cbn [orb].
    rewrite (rd_some _ _ _ Ey). cbn [bind]. destruct x; cbn in Hy; subst y; auto.
Qed.
Theorem crystal_history cs :
  (let n := n_setups cs in n + n / 2 + 1 <= INT_MAX)%nat ->
  run_history (fcrystal_setup INT_MAX) (fun t h _ => fcrystal_use t h) fcrystal_free reg0 cs =
  ideal (@Some Obj) crystal_effect [] cs.
Proof.
  intros B. apply (sim INT_MAX ptr_ok) with (arg_ok := fun _ => True); auto.
  - intros t objs o _ H B'. apply (fgs_setup_ok INT_MAX t objs o H B').
  - intros t objs h r H. rewrite (fcrystal_use_ok _ _ _ H). unfold crystal_effect. destruct (object_of objs h); auto.
  - intros t objs h H. unfold fcrystal_free. rewrite (fcrystal_use_ok _ _ _ H).
    destruct (object_of objs h) as [o|] eqn:E; auto. cbn [bind].
    destruct (object_cases ptr_ok t objs h H) as [[E' _]|(L1 & L2 & L3 & x & y & Ex & E' & Ey & Hy)]; [congruence|].
    rewrite wr_lt by (rewrite (ro_len _ _ _ H); pose proof (ro_le _ _ _ H); pose proof (ro_n _ _ _ H); lia). cbn [bind].
    eexists. split; [reflexivity|]. apply del_ok; auto. reflexivity.
  - apply reg0_ok.
Qed.
End Crystal.

(** * findpts *)
Section Findpts.
Context {O2 O3 : Type}.
Variable INT_MAX : nat.
Definition fp_ok (y : @cell (@fdata O2 O3) * Z) (x : option (O2 + O3)) : Prop :=
  match x with
  | Some (inl o) => y = (Live (Fd2 o), 2)
  | Some (inr o) => y = (Live (Fd3 o), 3)
  | None => fst y = Null
  end.
Notation ok := (reg_ok fp_ok).
Lemma ndim_cases ndim (o2 : O2) (o3 : O3) : - 2 ^ 31 <= ndim < 2 ^ 31 ->
  (ndim = 2 /\ findpts_make (ndim, o2, o3) = Some (inl o2) /\ uwrap 32 ndim = 2) \/
  (ndim = 3 /\ findpts_make (ndim, o2, o3) = Some (inr o3) /\ uwrap 32 ndim = 3) \/
  (findpts_make (ndim, o2, o3) = None /\ uwrap 32 ndim <> 2 /\ uwrap 32 ndim <> 3).
Proof.
  intros B. destruct (Z.eq_dec ndim 2) as [->|N2]; [left; auto|].
  destruct (Z.eq_dec ndim 3) as [->|N3]; [right; left; auto|]. right. right. split.
  - unfold findpts_make. destruct ndim as [|[[]|[]|]|]; auto; lia.
  - unfold uwrap. destruct (Z_lt_le_dec ndim 0).
    + replace (ndim mod 2 ^ 32) with (ndim + 2 ^ 32); [lia|]. apply (Z.mod_unique _ _ (-1)); lia.
    + rewrite Z.mod_small by lia. lia.
Qed.
Lemma ffindpts_use_ok t objs h : ok t objs ->
  ffindpts_use t h = match object_of objs h with Some o => Ok o | None => Abort end.
Proof.
  intros H. unfold ffindpts_use. destruct (object_cases fp_ok t objs h H) as [[-> [L|L]]|(L1 & L2 & L3 & x & y & E & -> & Ey & Hy)].
  - destruct (Z.ltb_spec h 0); [auto|lia].
  - destruct (Z.leb_spec (Z.of_nat (rn t)) h); [|lia]. rewrite orb_true_r. auto.
  - destruct (Z.ltb_spec h 0); [lia|]. destruct (Z.leb_spec (Z.of_nat (rn t)) h); [lia|]. cbn [orb].
    rewrite (rd_some _ _ _ Ey). cbn [bind]. destruct x as [[o|o]|]; cbn in Hy; [subst y; auto|subst y; auto|].
    rewrite Hy. auto.
Qed.
Theorem findpts_history cs :
  (forall ndim o2 o3, In (Setup (ndim, o2, o3)) cs -> - 2 ^ 31 <= ndim < 2 ^ 31) ->
  (let n := n_setups cs in n + n / 2 + 1 <= INT_MAX)%nat ->
  run_history (fun t '(ndim, o2, o3) => ffindpts_setup INT_MAX t ndim o2 o3) (fun t h _ => @ffindpts_use O2 O3 t h) ffindpts_free reg0 cs =
  ideal findpts_make findpts_effect [] cs.
Proof.
  intros A B. apply (sim INT_MAX fp_ok) with (arg_ok := fun '(ndim, o2, o3) => - 2 ^ 31 <= ndim < 2 ^ 31); auto.
  - intros t objs [[ndim o2] o3] Hn H B'. unfold ffindpts_setup.
    destruct (grow_ok INT_MAX fp_ok (Uninit, 0) t objs H B') as (t' & E & H' & L).
    rewrite E. cbn [bind].
    destruct (ndim_cases ndim o2 o3 Hn) as [(-> & -> & ->)|[(-> & -> & ->)|(-> & N2 & N3)]].
    + cbn [bind Z.eqb Pos.eqb]. rewrite wr_lt by (rewrite (ro_len _ _ _ H'); auto). cbn [bind]. unfold int.
      pose proof (ro_n _ _ _ H'). destruct (Nat.leb_spec (S (rn t')) INT_MAX); [|lia]. cbn [bind]. eexists. rewrite <- (ro_n _ _ _ H').
      split; [reflexivity|]. apply add_ok; auto. reflexivity.
    + cbn [bind Z.eqb Pos.eqb]. rewrite wr_lt by (rewrite (ro_len _ _ _ H'); auto). cbn [bind]. unfold int.
      pose proof (ro_n _ _ _ H'). destruct (Nat.leb_spec (S (rn t')) INT_MAX); [|lia]. cbn [bind]. eexists. rewrite <- (ro_n _ _ _ H').
      split; [reflexivity|]. apply add_ok; auto. reflexivity.
    + destruct (Z.eqb_spec (uwrap 32 ndim) 2); [lia|]. destruct (Z.eqb_spec (uwrap 32 ndim) 3); [lia|]. reflexivity.
  - intros t objs h r H. rewrite (ffindpts_use_ok _ _ _ H). unfold findpts_effect. destruct (object_of objs h); auto.
  - intros t objs h H. unfold ffindpts_free. rewrite (ffindpts_use_ok _ _ _ H).
    destruct (object_of objs h) as [o|] eqn:E; auto. cbn [bind].
    destruct (object_cases fp_ok t objs h H) as [[E' _]|(L1 & L2 & L3 & x & y & Ex & E' & Ey & Hy)]; [congruence|].
    rewrite (rd_some _ _ _ Ey). cbn [bind].
    rewrite wr_lt by (rewrite (ro_len _ _ _ H); pose proof (ro_le _ _ _ H); pose proof (ro_n _ _ _ H); lia). cbn [bind].
    eexists. split; [reflexivity|]. apply del_ok; auto. reflexivity.
  - apply reg0_ok.
  - intros [[ndim o2] o3] I. apply (A _ _ _ I).
Qed.
End Findpts.
