(** The nodes, the setup and the evaluations with rounding. *)
From Verif Require Import Base BaseLemmas Poly PolySpec PolyProof1 PolyProof2 PolyImpSyntax PolyImp PolyGll PolyGllSpec PolyImpProof PolyGllProof.
From Verif Require Import TensorSpec TensorRoundSpec HalvingRound TensorRoundProof PolyRound PolyRoundSpec PolyRoundProof1 PolyRoundProof2 PolyRoundProof3.
From Verif Require Import PolyGllRound PolyGllRoundSpec PolyGllRoundProof1 PolyGllRoundProof2.
From Coq Require Import Reals Lra.
Open Scope R_scope.
Local Notation get := PolySpec.get.

(** The nodes are in [-1,1], and further apart than 1/500. *)
Definition gap_check (n : nat) : bool :=
  let l := gll_list_Z n in
  forallb (fun i => (Z.abs (nth i l 0) <=? 10 ^ 52)%Z) (seq 0 n) &&
  forallb (fun i => (nth i l 0 + 2 * 10 ^ 49 <? nth (S i) l 0)%Z) (seq 0 (n - 1)).
Lemma gaps_checked : forallb gap_check (seq 2 23) = true.
Proof. vm_compute. reflexivity. Qed.
Lemma gap_ok n i : (2 <= n <= 24)%nat -> (i + 1 < n)%nat -> get (gll_list n) i + 2 / 1000 < get (gll_list n) (S i).
Proof.
  intros Hn Hi. pose proof gaps_checked as C. rewrite forallb_forall in C. specialize (C n ltac:(apply in_seq; lia)). apply andb_prop in C. destruct C as [_ C].
  rewrite forallb_forall in C. specialize (C i ltac:(apply in_seq; lia)). apply Z.ltb_lt, IZR_lt in C. rewrite plus_IZR in C.
  rewrite gll_list_entry, !get_entry. unfold entry. pose proof pow10_pos as P. apply (Rmult_lt_reg_r (10 ^ 52)); auto.
  rewrite Rmult_plus_distr_r. unfold Rdiv. rewrite !Rmult_assoc, Rinv_l by lra. replace (IZR (2 * 10 ^ 49)) with (2 * / 1000 * 10 ^ 52) in C; [lra|].
  rewrite mult_IZR. change (10 ^ 49)%Z with (Z.pow 10 (Z.of_nat 49)). rewrite <- pow_IZR. change 52%nat with (3 + 49)%nat. rewrite pow_add. cbn [pow]. lra.
Qed.
Lemma gll_abs n i : (2 <= n <= 24)%nat -> (i < n)%nat -> Rabs (get (gll_list n) i) <= 1.
Proof.
  intros Hn Hi. pose proof gaps_checked as C. rewrite forallb_forall in C. specialize (C n ltac:(apply in_seq; lia)). apply andb_prop in C. destruct C as [C _].
  rewrite forallb_forall in C. specialize (C i ltac:(apply in_seq; lia)). apply Z.leb_le, IZR_le in C. rewrite abs_IZR, IZR_pow52 in C.
  rewrite gll_list_entry, !get_entry. unfold entry. pose proof pow10_pos as P. unfold Rdiv. rewrite Rabs_mult, Rabs_inv, (Rabs_pos_eq (10 ^ 52)) by lra.
  apply (Rmult_le_reg_r (10 ^ 52)); auto. rewrite Rmult_assoc, Rinv_l by lra. lra.
Qed.

Definition tabl (n : nat) : list Z := if (n <? 4)%nat then [] else tz n.
Section L.
Variable eps : R.
Variables add sub mul div : R -> R -> R.
Hypothesis H : arithmetic eps add sub mul div.
Variable F : R -> Prop.
Hypothesis D2 : doubling F mul.
Variable lit : Z -> R.
Hypothesis Hl : literals F eps lit.
Hypothesis He : eps <= / 1000.
Variable n : nat.
Hypothesis Hn : (2 <= n <= 24)%nat.
Let t := tabl n.
Definition zl (i : nat) : R := zval (map lit t) (zform n i).
Lemma zl_near i : (i < n)%nat -> Rabs (zl i - get (gll_list n) i) <= eps * Rabs (get (gll_list n) i).
Proof.
  intros Hi. destruct (table_parts n Hn) as (_ & _ & Hg & _ & _). fold (tabl n) in Hg. fold t in Hg. rewrite (Hg i Hi). unfold zl. pose proof (ar_eps _ _ _ _ _ H) as E0.
  assert (Z0 : lit 0 = 0). { pose proof (proj2 (Hl 0%Z)) as Q. rewrite entry_0, Rabs_R0, Rmult_0_r, Rminus_0_r in Q. pose proof (Rabs_pos (lit 0)). destruct (Req_dec (lit 0) 0) as [|N]; [auto|]. pose proof (Rabs_pos_lt _ N). lra. }
  assert (G : forall k, get (map lit t) k = lit (nth k t 0%Z)). { intros k. unfold get. rewrite <- Z0 at 1. rewrite map_nth. reflexivity. }
  assert (X : forall a, Rabs (a - a) <= eps * Rabs a). { intros a. rewrite Rminus_diag_eq, Rabs_R0 by auto. apply Rmult_le_pos; [lra|apply Rabs_pos]. }
  destruct (zform n i) as [|k| |k|]; cbn [zval]; auto; rewrite G, get_entry; [|apply (proj2 (Hl _))].
  replace (- lit (nth k t 0%Z) - - entry (nth k t 0%Z)) with (- (lit (nth k t 0%Z) - entry (nth k t 0%Z))) by ring. rewrite !Rabs_Ropp. apply (proj2 (Hl _)).
Qed.
Lemma zl_bounds i : (i < n)%nat -> - eps <= zl i - get (gll_list n) i <= eps.
Proof.
  intros Hi. pose proof (zl_near i Hi) as Q. pose proof (gll_abs n i Hn Hi) as B. pose proof (ar_eps _ _ _ _ _ H) as E0.
  assert (eps * Rabs (get (gll_list n) i) <= eps) by (rewrite <- (Rmult_1_r eps) at 2; apply Rmult_le_compat_l; lra).
  pose proof (Rle_abs (zl i - get (gll_list n) i)); pose proof (Rle_abs (- (zl i - get (gll_list n) i))); rewrite Rabs_Ropp in *. lra.
Qed.
Lemma zl_inc i : (i + 1 < n)%nat -> zl i < zl (S i).
Proof.
  intros Hi. pose proof (gap_ok n i Hn Hi). pose proof (zl_bounds i ltac:(lia)). pose proof (zl_bounds (S i) ltac:(lia)). lra.
Qed.
Lemma nodes_fix_fl_ok z : (n <= length z)%nat ->
  exists z', lobatto_nodes_fix_fl lit z n = Ok z' /\ same_out z z' 0 n /\ reg z' 0 n zl.
Proof.
  intros Hz. destruct (table_parts n Hn) as (Lt & _). change (length t = (n / 2 - 1)%nat) in Lt.
  assert (Hg : forall i, (i < n)%nat -> zl i = zval (map lit t) (zform n i)) by reflexivity. set (g := map lit t) in *. assert (Lg : length g = (n / 2 - 1)%nat) by (unfold g; rewrite map_length; auto).
  assert (DV : (n = 2 * (n / 2) + n mod 2)%nat) by (apply Nat.div_mod; lia). assert (MB := Nat.mod_upper_bound n 2 ltac:(lia)).
  assert (ODD : Nat.odd n = (n mod 2 =? 1)%nat).
  { rewrite <- Nat.bit0_mod, Nat.bit0_odd. destruct (Nat.odd n); reflexivity. }
  assert (D1 : ((n + 1) / 2 = n / 2 + n mod 2)%nat).
  { symmetry. apply (Nat.div_unique (n + 1) 2 _ (1 - n mod 2)%nat); lia. }
  unfold lobatto_nodes_fix_fl. remember (n / 2)%nat as h eqn:Eh. rewrite wr_get by lia. cbn [bind]. rewrite wr_get by (rewrite upd_length'; lia). cbn [bind].
  set (z1 := upd (upd z 0 (-1)) (n - 1) 1).
  assert (A1 : length z1 = length z /\ forall k, get z1 k = if (k =? n - 1)%nat then 1 else if (k =? 0)%nat then -1 else get z k).
  { unfold z1. split; [rewrite !upd_length'; auto|]. intros k. rewrite !get_upd by (rewrite ?upd_length'; lia). auto. }
  clearbody z1. destruct A1 as [L1 A1].
  assert (A2 : exists z2, (if Nat.odd n then wr z1 h 0 else Ok z1) = Ok z2 /\ length z2 = length z /\
            forall k, (n <= k)%nat -> get z2 k = get z k).
  { destruct (Nat.odd n); [rewrite wr_get by lia|]; eexists; (split; [reflexivity|]); rewrite ?upd_length'; split; auto;
      intros k Hk; rewrite ?get_upd by lia; rewrite A1; repeat match goal with |- context [(?a =? ?b)%nat] => destruct (Nat.eqb_spec a b); try lia end; auto. }
  assert (A3 : exists z2, (if Nat.odd n then wr z1 h 0 else Ok z1) = Ok z2 /\ length z2 = length z /\ (forall k, (n <= k)%nat -> get z2 k = get z k) /\
            get z2 0 = -1 /\ get z2 (n - 1) = 1 /\ forall k, (2 * k + 1 = n)%nat -> (0 < k)%nat -> get z2 k = 0).
  { destruct A2 as (z2 & E2 & L2 & O2). exists z2. split; [auto|]. split; [auto|]. split; [auto|].
    destruct (Nat.odd n); cbn [bind] in E2.
    - rewrite wr_get in E2 by lia. injection E2 as <-. assert (n <> 2)%nat by (intros Q2; clear - ODD Q2; rewrite Q2 in ODD; discriminate ODD). 
      symmetry in ODD. apply Nat.eqb_eq in ODD. rewrite !get_upd by lia. rewrite !A1. split; [|split].
      + repeat match goal with |- context [(?a =? ?b)%nat] => destruct (Nat.eqb_spec a b); try lia end; auto.
      + repeat match goal with |- context [(?a =? ?b)%nat] => destruct (Nat.eqb_spec a b); try lia end; auto.
      + intros k Hk K0. rewrite get_upd by lia. destruct (Nat.eqb_spec k h); [auto|lia].
    - injection E2 as <-. symmetry in ODD. apply Nat.eqb_neq in ODD. rewrite !A1. split; [|split].
      + repeat match goal with |- context [(?a =? ?b)%nat] => destruct (Nat.eqb_spec a b); try lia end; auto.
      + repeat match goal with |- context [(?a =? ?b)%nat] => destruct (Nat.eqb_spec a b); try lia end; auto.
      + intros k Hk K0. lia. }
  clear A2. destruct A3 as (z2 & E2 & L2 & O2 & F0 & FN & FM). rewrite E2. cbn [bind]. clear E2.
  destruct (Nat.ltb_spec n 4) as [H4|H4].
  { exists z2. split; [auto|]. split; [split; [auto|intros k Hk; apply O2; lia]|]. intros i Hi. cbn [Nat.add]. rewrite Hg by auto.
    destruct (Nat.eq_dec i 0) as [->|]; [rewrite F0; reflexivity|]. destruct (Nat.eq_dec i (n - 1)) as [->|]; [rewrite FN, (zform_last n Hn); reflexivity|].
    assert (2 * i + 1 = n)%nat by lia. rewrite (FM i) by lia. unfold zform.
    repeat match goal with |- context [(?a =? ?b)%nat] => destruct (Nat.eqb_spec a b); try lia end. reflexivity. }
  assert (Et : nth_error gllz_table (n - 4) = Some t).
  { unfold t, tabl, tz. destruct (Nat.ltb_spec n 4); [lia|]. apply nth_error_nth'. change (length gllz_table) with 21%nat. lia. }
  rewrite Et. fold g.
  (* left half *)
  assert (G1 : forall k, (k <= h - 1)%nat -> exists z3, foldM (fun z i => gi <- rd g (i - 1) ;; wr z i (- gi)) (seq 1 k) z2 = Ok z3 /\ length z3 = length z /\
            (forall j, (1 <= j <= k)%nat -> get z3 j = - get g (j - 1)) /\ (forall j, (j < 1 \/ k < j)%nat -> get z3 j = get z2 j)).
  { induction k as [|k IH]; intros Hk; [exists z2; split; [auto|]; split; [auto|]; split; auto; intros; lia|].
    destruct IH as (z3 & E3 & L3 & I3 & O3); [lia|]. rewrite seq_S, foldM_snoc, E3. cbn [bind]. rewrite rd_get by lia. cbn [bind]. rewrite wr_get by lia.
    eexists. split; [reflexivity|]. split; [rewrite upd_length'; auto|]. split.
    - intros j Hj. rewrite get_upd by lia. destruct (Nat.eqb_spec j (1 + k)) as [->|]; [auto|apply I3; lia].
    - intros j Hj. rewrite get_upd by lia. destruct (Nat.eqb_spec j (1 + k)); [lia|apply O3; lia]. }
  destruct (G1 (h - 1)%nat ltac:(lia)) as (z3 & E3 & L3 & I3 & O3). rewrite E3. cbn [bind].
  (* right half *)
  set (a := ((n + 1) / 2)%nat) in *.
  assert (G2 : forall k, (k <= n - 1 - a)%nat -> exists z4, foldM (fun '(z, i) j => gi <- rd g (i - 1) ;; z <- wr z j gi ;; Ok (z, (i - 1)%nat)) (seq a k) (z3, (h - 1)%nat) =
            Ok (z4, (h - 1 - k)%nat) /\ length z4 = length z /\
            (forall j, (a <= j < a + k)%nat -> get z4 j = get g (n - 2 - j)) /\ (forall j, (j < a \/ a + k <= j)%nat -> get z4 j = get z3 j)).
  { induction k as [|k IH]; intros Hk; [exists z3; split; [rewrite Nat.sub_0_r; auto|]; split; [auto|]; split; auto; intros; lia|].
    destruct IH as (z4 & E4 & L4 & I4 & O4); [lia|]. rewrite seq_S, foldM_snoc, E4. cbn [bind]. rewrite rd_get by lia. cbn [bind]. rewrite wr_get by lia. cbn [bind].
    replace (h - 1 - S k)%nat with (h - 1 - k - 1)%nat by lia. eexists. split; [reflexivity|]. split; [rewrite upd_length'; auto|]. split.
    - intros j Hj. rewrite get_upd by lia. destruct (Nat.eqb_spec j (a + k)) as [->|]; [f_equal; lia|apply I4; lia].
    - intros j Hj. rewrite get_upd by lia. destruct (Nat.eqb_spec j (a + k)); [lia|apply O4; lia]. }
  destruct (G2 (n - 1 - a)%nat ltac:(lia)) as (z4 & E4 & L4 & I4 & O4). rewrite E4. cbn [bind]. exists z4. split; [auto|]. split.
  - split; [auto|]. intros k Hk. rewrite O4, O3, O2 by lia. auto.
  - intros i Hi. cbn [Nat.add]. rewrite Hg by auto. unfold zform. rewrite <- Eh.
    destruct (Nat.eqb_spec i 0) as [->|]; [rewrite O4, O3 by lia; auto|].
    destruct (Nat.eqb_spec i (n - 1)) as [->|]; [rewrite O4, O3 by lia; auto|].
    destruct (Nat.eqb_spec (2 * i + 1) n); [rewrite O4, O3 by lia; apply FM; lia|].
    destruct (Nat.ltb_spec i h); cbn [zval].
    + rewrite O4 by lia. apply I3. lia.
    + apply I4. lia.
Qed.

Definition nodesl : list R := map zl (seq 0 n).
Lemma nodesl_get i : (i < n)%nat -> get nodesl i = zl i.
Proof. intros Hi. unfold nodesl, get. rewrite (nth_indep _ 0 (zl 0)) by (rewrite map_length, seq_length; auto). rewrite map_nth, seq_nth by auto. reflexivity. Qed.
Lemma nodesl_length : length nodesl = n.
Proof. unfold nodesl. rewrite map_length, seq_length. auto. Qed.
Lemma nodesl_distinct : distinct nodesl n.
Proof. apply increasing_distinct. intros i Hi. rewrite !nodesl_get by lia. apply zl_inc. auto. Qed.
Lemma nodes_list_ok : lobatto_nodes_fix_fl lit (repeat 0 n) n = Ok nodesl.
Proof.
  destruct (nodes_fix_fl_ok (repeat 0 n)) as (z & E & [L _] & Rz); [rewrite repeat_length; auto|]. rewrite E. f_equal. rewrite repeat_length in L.
  apply (nth_ext z nodesl 0 0); [rewrite nodesl_length; auto|]. intros i Hi. change (get z i = get nodesl i). rewrite nodesl_get by lia. apply (Rz i). lia.
Qed.

Lemma nodesl_F i : (i < n)%nat -> F (get nodesl i).
Proof.
  intros Hi. rewrite nodesl_get by auto. unfold zl. destruct D2 as [F0 F1 FO _ _].
  assert (G : forall k, F (get (map lit t) k)).
  { intros k. unfold get. destruct (Nat.ltb_spec k (length (map lit t))) as [L|L].
    - rewrite (nth_indep _ 0 (lit 0)) by auto. rewrite map_nth. apply (proj1 (Hl _)).
    - rewrite nth_overflow by auto. auto. }
  destruct (zform n i) as [|k| |k|]; cbn [zval]; auto. replace (-1) with (- (1)) by ring. auto.
Qed.
Let f := nth (n - 2) gll_lag_table gll_lag_02.
Lemma f_checkf : checkf2 n f = true.
Proof.
  pose proof all_checkf as A. rewrite forallb_forall in A. apply (A (n, f)).
  assert (E : nth (n - 2) (combine (seq 2 23) gll_lag_table) (2%nat, gll_lag_02) = (n, f)).
  { rewrite combine_nth by reflexivity. rewrite seq_nth by lia. f_equal. lia. }
  rewrite <- E. apply nth_In. rewrite combine_length, seq_length, table_length. cbn. lia.
Qed.
Lemma f_calls kw B0 p w der x wS : checkf n kw B0 (7 * n) (7 * n + 2) f = true ->
  (n <= length w)%nat -> (n * (der + 1) <= length p)%nat -> (der <= 2)%nat -> F x -> (forall i, (i < n)%nat -> rel eps kw (get w i) (wS i)) ->
  exists p', gll_lag_fl add sub mul lit f p w n der x = Ok (p', w) /\ same_out p p' 0 (n * (der + 1)) /\
    (forall i, (i < n)%nat -> rel eps B0 (get p' i) (wS i * L0 (get nodesl) n x i)) /\
    ((1 <= der)%nat -> forall i, (i < n)%nat -> near (inv_eps eps) (7 * n) (get p' (n + i)) (wS i * L1 (get nodesl) n x i) (Rabs (wS i) * L1 (mz (get nodesl) x) n 0 i)) /\
    ((2 <= der)%nat -> forall i, (i < n)%nat -> near (inv_eps eps) (7 * n + 2) (get p' (2 * n + i)) (wS i * L2 (get nodesl) n x i) (Rabs (wS i) * L2 (mz (get nodesl) x) n 0 i)).
Proof.
  intros C Hw Hp Hd Fx Hr. destruct (callf_ok eps add sub mul div H F D2 lit (fun k => proj1 (Hl k)) n kw B0 _ _ f C p w der x wS Hw Hp Hd Fx Hr) as (p' & E & S & R0 & R1 & R2).
  destruct (table_parts n Hn) as (_ & _ & _ & _ & Et). fold (tabl n) in Et. fold t in Et. fold f in Et. rewrite <- Et in *.
  assert (X : forall j, (j < n)%nat -> zval (map lit t) (zform n j) = get nodesl j) by (intros; rewrite nodesl_get; auto).
  assert (Y : forall j, (j < n)%nat -> mz (fun i => zval (map lit t) (zform n i)) x j = mz (get nodesl) x j) by (intros j Hj; unfold mz; rewrite X; auto).
  exists p'. split; [auto|]. split; [auto|]. split; [|split].
  - intros i Hi. destruct (L_ext _ _ n x i Hi X) as (<- & _ & _). auto.
  - intros K i Hi. destruct (L_ext _ _ n x i Hi X) as (_ & <- & _). destruct (L_ext _ _ n 0 i Hi Y) as (_ & <- & _). auto.
  - intros K i Hi. destruct (L_ext _ _ n x i Hi X) as (_ & _ & <-). destruct (L_ext _ _ n 0 i Hi Y) as (_ & _ & <-). auto.
Qed.

Definition ready_glf (data : arr) : Prop := (n <= length data)%nat /\ forall i, (i < n)%nat -> rel eps (3 * n) (get data i) (wt nodesl n i).
Lemma setup_glf_ok nn data : (n <= length data)%nat ->
  exists data', gll_lag_setup_fl add sub mul div lit nn data n = Ok (Some (gll_lag_fl add sub mul lit f), data') /\ same_out data data' 0 n /\ ready_glf data'.
Proof.
  intros Hd. unfold gll_lag_setup_fl, lobatto_nodes_fl. rewrite table_24. destruct (Nat.ltb_spec n 2); [lia|]. destruct (Nat.leb_spec n 24); [|lia].
  destruct (Nat.ltb_spec 24 n); [lia|]. destruct (Nat.leb_spec 2 n); [|lia]. unfold f. rewrite f_nth by auto. fold f.
  rewrite nodes_list_ok. cbn [bind]. pose proof nodesl_length as Lz. pose proof nodesl_distinct as D.
  unfold lagrange_coef_fl.
  lazymatch goal with |- context [fill ?a ?o ?k ?h] => destruct (fill_ok a o k h (fun _ => 1)) as (m2 & E2 & S2 & R2) end; [lia|auto|rewrite E2; cbn [bind]; clear E2].
  match goal with |- context [foldM ?h (seq 0 n) (repeat 0 n, m2)] => set (FF := h) end.
  assert (G : forall k, (k <= n)%nat -> exists p m, foldM FF (seq 0 k) (repeat 0 n, m2) = Ok (p, m) /\ length p = n /\ same_out data m 0 n /\
            (forall i, (i < k)%nat -> rel eps (3 * n) (get m i) (wt nodesl n i)) /\ forall i, (k <= i < n)%nat -> get m i = 1).
  { induction k as [|k IH]; intros Hk.
    - exists (repeat 0 n), m2. split; [auto|]. split; [apply repeat_length|]. split; [auto|]. split; [intros; lia|]. intros i Hi. apply (R2 i). lia.
    - destruct IH as (p & m & E & Lp & Sm & W1 & W2); [lia|]. rewrite seq_S, foldM_snoc, E. cbn [bind Nat.add]. unfold FF. rewrite rd_get by lia. cbn [bind].
      assert (Lm : length m = length data) by apply Sm.
      pose proof f_checkf as C. unfold checkf2 in C. apply andb_prop in C. destruct C as [C _].
      destruct (f_calls _ _ p m 0 (get nodesl k) (get m) C) as (p' & E' & Sp & Rp & _); try lia; [apply nodesl_F; lia|intros i Hi; apply rel_exact|].
      rewrite E'. cbn [bind]. rewrite rd_get by (destruct Sp; lia). cbn [bind]. specialize (Rp k ltac:(lia)). rewrite W2, Rmult_1_l in Rp by lia.
      pose proof (L0_nz nodesl n k D ltac:(lia)) as NZ. destruct (rel_inv eps add sub mul div H _ _ _ NZ Rp) as [PN RI].
      assert (RD : rel eps (3 * n) (div 1 (get p' k)) (wt nodesl n k)).
      { eapply (rel_le eps add sub mul div H); [|eapply (rel_op eps add sub mul div H); [apply (ar_div _ _ _ _ _ H); exact PN|exact RI]]. lia. }
      rewrite wr_get by lia. cbn [bind]. eexists; eexists. split; [reflexivity|]. split; [destruct Sp; lia|]. split; [split|split].
      + rewrite upd_length'. auto.
      + intros j Hj. rewrite get_upd by lia. destruct (Nat.eqb_spec j (0 + k)); [lia|]. destruct Sm as [_ Sm]. apply Sm. lia.
      + intros j Hj. rewrite get_upd by lia. destruct (Nat.eqb_spec j (0 + k)) as [->|]; [exact RD|]. apply W1. lia.
      + intros j Hj. rewrite get_upd by lia. destruct (Nat.eqb_spec j (0 + k)) as [->|]; [lia|]. apply W2. lia. }
  destruct (G n ltac:(lia)) as (p & m & E & Lp & Sm & W1 & _). rewrite E. cbn [bind]. exists m. split; [auto|]. split; [auto|].
  split; [destruct Sm; lia|auto].
Qed.
Lemma eval_glf_ok data p der x : ready_glf data -> F x -> (der <= 2)%nat -> (n * (der + 1) <= length p)%nat ->
  exists p', gll_lag_fl add sub mul lit f p data n der x = Ok (p', data) /\ evaluates_fl eps nodesl n der x p p'.
Proof.
  intros [Ld Rw] Fx Hder Hp. pose proof f_checkf as C. unfold checkf2 in C. apply andb_prop in C. destruct C as [_ C]. pose proof nodesl_distinct as D.
  destruct (f_calls _ _ p data der x (wt nodesl n) C Ld Hp Hder Fx Rw) as (p' & E & Sp & R0 & R1 & R2). exists p'. split; [auto|].
  destruct Sp as [Lp Sp]. split; [auto|]. split; [intros k Hk; apply Sp; lia|].
  assert (B : forall i y, (i < n)%nat -> basis nodesl n i y = wt nodesl n i * L0 (get nodesl) n y i) by (intros; apply basis_L0; auto).
  assert (D1 : forall i y, (i < n)%nat -> derivable_pt_lim (basis nodesl n i) y (wt nodesl n i * L1 (get nodesl) n y i)).
  { intros i y Hi. apply (derivable_pt_lim_ext (fun y => wt nodesl n i * L0 (get nodesl) n y i)); [intros; symmetry; apply B; auto|]. apply der_scal, L0_der. }
  assert (M1 : forall i y, (i < n)%nat -> derivable_pt_lim (shifted nodesl n i x) y (Rabs (wt nodesl n i) * L1 (mz (get nodesl) x) n y i)).
  { intros i y Hi. apply (derivable_pt_lim_ext (fun y => Rabs (wt nodesl n i) * L0 (mz (get nodesl) x) n y i)); [intros; symmetry; apply maj_L0; auto|]. apply der_scal, L0_der. }
  split; [|split].
  - intros i Hi. pose proof (R0 i Hi) as Q. apply (rel_near eps add sub mul div H) in Q. rewrite <- B in Q by auto. exact Q.
  - intros Hd. exists (fun i => wt nodesl n i * L1 (get nodesl) n x i), (fun i => Rabs (wt nodesl n i) * L1 (mz (get nodesl) x) n 0 i). split; [|intros i Hi; split; auto].
    intros i Hi. exact (R1 Hd i Hi).
  - intros Hd. exists (fun i => wt nodesl n i * L2 (get nodesl) n x i), (fun i => Rabs (wt nodesl n i) * L2 (mz (get nodesl) x) n 0 i). split.
    + intros i Hi. exact (R2 Hd i Hi).
    + intros i Hi. split.
      * exists (fun y => wt nodesl n i * L1 (get nodesl) n y i). split; [intros y; apply D1; auto|]. apply der_scal, L1_der.
      * exists (fun y => Rabs (wt nodesl n i) * L1 (mz (get nodesl) x) n y i). split; [intros y; apply M1; auto|]. apply der_scal, L1_der.
Qed.
Lemma evals_glf_ok calls data : ready_glf data -> Forall (valid_call n) calls -> Forall (machine_call F) calls ->
  exists outs, evals (gll_lag_fl add sub mul lit f) data n calls = Ok outs /\ Forall2 (fun '(p, der, x) p' => evaluates_fl eps nodesl n der x p p') calls outs.
Proof.
  intros Hr. induction calls as [|[[p der] x] calls IH]; intros HF HM.
  - exists []. split; [reflexivity|constructor].
  - apply Forall_cons_iff in HF. destruct HF as [Hv HF']. apply Forall_cons_iff in HM. destruct HM as [Fx HM']. destruct (eval_glf_ok data p der x Hr) as (p' & E & Ev); try apply Hv; [exact Fx|].
    destruct (IH HF' HM') as (outs & E' & FF). cbn [evals]. rewrite E. cbn [bind]. rewrite E'. cbn [bind]. eexists. split; [reflexivity|]. constructor; auto.
Qed.
End L.

(** n > 24: the nodes found by Newton's method. *)
Lemma setup_big_fl_ok eps add sub mul div lit nn data n z : arithmetic eps add sub mul div -> (24 < n)%nat -> (9 * n <= length data)%nat -> nn data n = Ok z -> length z = length data -> distinct z n ->
  (forall k, (n <= k)%nat -> get z k = get data k) ->
  exists data', gll_lag_setup_fl add sub mul div lit nn data n = Ok (Some (lagrange_eval_fl add sub mul), data') /\ same_out data data' 0 (9 * n) /\ ready_fl eps z data' n.
Proof.
  intros H Hn Hd Ez Lz D Oz. unfold gll_lag_setup_fl, lobatto_nodes_fl. rewrite table_24. destruct (Nat.ltb_spec n 2); [lia|]. destruct (Nat.leb_spec n 24); [lia|].
  destruct (Nat.ltb_spec 24 n); [|lia]. rewrite Ez. cbn [bind].
  destruct (setup_fl_ok eps add sub mul div H z z n) as (d' & E & L & O & Hr); [lia|lia|lia|auto|].
  unfold lagrange_setup_fl, copy in E.
  assert (C : fill z 0 n (fun _ i => rd z i) = Ok z).
  { unfold fill. assert (G : forall l, Forall (fun i => i < n)%nat l -> foldM (fun a i => v <- rd z i ;; wr a (0 + i) v) l z = Ok z).
    { induction l as [|i l IH]; intros HF; [reflexivity|]. apply Forall_cons_iff in HF. destruct HF as [Hi HF]. cbn [foldM Nat.add]. rewrite rd_get by lia. cbn [bind].
      rewrite wr_get by lia. cbn [bind]. replace (upd z i (get z i)) with z by (symmetry; apply upd_same; apply nth_error_nth'; lia). apply IH. auto. }
    apply G. apply Forall_forall. intros i Hi. apply in_seq in Hi. lia. }
  rewrite C in E. cbn [bind] in E. rewrite E. cbn [bind]. exists d'. split; [auto|]. split; [|auto]. split; [lia|]. intros k Hk. rewrite O, Oz by lia. auto.
Qed.
