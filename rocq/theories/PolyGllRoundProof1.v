(** The rounding error of the programs of poly_imp.h: a count of operations for every program. *)
From Verif Require Import Base BaseLemmas Poly PolySpec PolyProof1 PolyProof2 PolyImpSyntax PolyImp PolyGll PolyImpProof.
From Verif Require Import TensorSpec TensorRoundSpec HalvingRound TensorRoundProof PolyRound PolyRoundSpec PolyRoundProof2 PolyGllRound PolyGllRoundSpec.
From Coq Require Import Reals Lra.
Open Scope nat_scope.
Local Notation get := PolySpec.get.

Definition is0 (v : var) : bool := match v with d _ | u0 _ | v0 _ => true | _ => false end.
Fixpoint prod (e : ex) : bool :=
  match e with
  | K _ | W _ => true
  | V v => is0 v
  | Mul a b => prod a && prod b
  | _ => false
  end.
Fixpoint lookc (cs : list (var * nat)) (v : var) : option nat :=
  match cs with
  | [] => None
  | (v', c) :: cs => if var_eqb v v' then Some c else lookc cs v
  end.
Section Check.
Variables n gl kw : nat.
(** The number of roundings in an expression, given those in the variables; kw for the weights. *)
Fixpoint cost (cs : list (var * nat)) (e : ex) : option nat :=
  match e with
  | K z => if (0 <=? z)%Z then Some 0 else None
  | W i => if i <? n then Some kw else None
  | V v => lookc cs v
  | Add a b => match cost cs a, cost cs b with Some k, Some l => Some (1 + Nat.max k l) | _, _ => None end
  | Mul a b => match cost cs a, cost cs b with Some k, Some l => Some (1 + (k + l)) | _, _ => None end
  | X | G _ | Sub _ _ => None
  end.
Definition inG (z : zf) : bool := match z with ZMG k | ZPG k => k <? gl | _ => true end.
Definition letc (cs : list (var * nat)) (v : var) (e : ex) : option nat :=
  match v with
  | d i => if (i <? n) && inG (zform n i) && ex_eqb e (dex (zform n i)) then Some 1 else None
  | _ => if range n v && ex_eqb (simp e) (simp (intend n v)) && (if is0 v then prod e else true) then cost cs e else None
  end.
Fixpoint fchk (B : nat) (pr : bool) (cs : list (var * nat)) (outs : list (nat * ex)) (l : list stmt) : option (list (var * nat)) :=
  match l with
  | [] => match outs with [] => Some cs | _ => None end
  | Let v e :: l => match letc cs v e with Some c => fchk B pr ((v, c) :: cs) outs l | None => None end
  | Out i e :: l =>
      match outs with
      | (j, f) :: outs =>
          match cost cs e with
          | Some c => if (i =? j) && (c <=? B) && (if pr then prod e && prod f else true) && ex_eqb (simp e) (simp f) then fchk B pr cs outs l else None
          | None => None
          end
      | [] => None
      end
  end.
End Check.
Definition checkf (n kw B0 B1 B2 : nat) (f : prog) : bool :=
  let gl := length (nodes f) in
  match fchk n gl kw B0 true [] (outs_of n 0 (eo0 n)) (b0 f) with
  | Some d0 =>
      match fchk n gl kw B1 false d0 (outs_of n n (eo1 n)) (b1 f) with
      | Some d1 => match fchk n gl kw B2 false d1 (outs_of n (2 * n) (eo2 n)) (b2 f) with Some _ => true | None => false end
      | None => false
      end
  | None => false
  end.
(** Weights known, and weights with the error of the setup. *)
Definition checkf2 (n : nat) (f : prog) : bool := checkf n 0 (3 * n - 1) (7 * n) (7 * n + 2) f && checkf n (3 * n) (6 * n - 1) (7 * n) (7 * n + 2) f.
Lemma all_checkf : forallb (fun '(n, f) => checkf2 n f) (combine (seq 2 23) gll_lag_table) = true.
Proof. vm_compute. reflexivity. Qed.

Open Scope R_scope.
(** The values meant, for arbitrary nodes, argument and weights. *)
Section Meaning.
Variable n : nat.
Variable zz : nat -> R.
Variable xx : R.
Variable ww gg : nat -> R.
Definition gmean (v : var) : R :=
  match v with
  | d i => dd zz xx i
  | u0 i => U0 zz xx i | u1 i => U1 zz xx i | u2 i => U2 zz xx i
  | v0 i => V0 zz n xx i | v1 i => V1 zz n xx i | v2 i => V2 zz n xx i
  end.
Fixpoint gmex (e : ex) : R :=
  match e with
  | X => xx * 2
  | K z => IZR z
  | G k => gg k
  | W i => ww i
  | V v => gmean v
  | Add a b => gmex a + gmex b
  | Sub a b => gmex a - gmex b
  | Mul a b => gmex a * gmex b
  end.
Lemma gmex_smul a b : gmex (smul a b) = gmex a * gmex b.
Proof.
  assert (S1 : forall a b, gmex (match b with K 0 => K 0 | K 1 => a | _ => Mul a b end) = gmex a * gmex b).
  { intros a0 b0'. destruct b0' as [|[|[| |]|]| | | | | |]; cbn [gmex]; ring. }
  unfold smul. destruct a as [|[|[| |]|]| | | | | |]; try apply (S1 _ b); destruct b as [|[|[| |]|]| | | | | |]; cbn [gmex]; ring.
Qed.
Lemma gmex_sadd a b : gmex (sadd a b) = gmex a + gmex b.
Proof.
  unfold sadd. destruct a as [|[|[| |]|]| | | | | |]; destruct b as [|[|[| |]|]| | | | | |]; cbn [gmex]; ring.
Qed.
Lemma gmex_simp e : gmex (simp e) = gmex e.
Proof. induction e; cbn [simp gmex]; auto; rewrite ?gmex_smul, ?gmex_sadd; cbn [gmex]; congruence. Qed.
Lemma gmex_eq e f : ex_eqb (simp e) (simp f) = true -> gmex e = gmex f.
Proof. intros E. apply ex_eqb_eq in E. rewrite <- (gmex_simp e), E, gmex_simp. auto. Qed.

Lemma gmex_eu0 i : gmex (eu0 i) = U0 zz xx i.
Proof. unfold eu0. destruct i; reflexivity. Qed.
Lemma gmex_eu1 i : gmex (eu1 i) = U1 zz xx i.
Proof. unfold eu1. destruct i as [|[|i]]; cbn [Nat.eqb gmex gmean U1 U0]; ring. Qed.
Lemma gmex_eu2 i : gmex (eu2 i) = U2 zz xx i.
Proof. unfold eu2. destruct i as [|[|[|i]]]; cbn [Nat.eqb Nat.ltb Nat.leb gmex gmean U2 U1 U0]; ring. Qed.
Lemma gmex_ev0 i : (i < n)%nat -> gmex (ev0 n i) = V0 zz n xx i.
Proof. intros H. unfold ev0. destruct (Nat.eqb_spec (i + 1) n); [|reflexivity]. replace i with (n - 1)%nat by lia. rewrite V0_last. reflexivity. Qed.
Lemma gmex_ev1 i : (i < n)%nat -> gmex (ev1 n i) = V1 zz n xx i.
Proof.
  intros H. unfold ev1. destruct (Nat.eqb_spec (i + 1) n); [replace i with (n - 1)%nat by lia; rewrite V1_last; reflexivity|].
  destruct (Nat.eqb_spec (i + 2) n); [|reflexivity]. replace i with (n - 1 - 1)%nat by lia. rewrite V1_step by lia. rewrite V1_last, V0_last. cbn [gmex]. ring.
Qed.
Lemma gmex_ev2 i : (i < n)%nat -> gmex (ev2 n i) = V2 zz n xx i.
Proof.
  intros H. unfold ev2. destruct (Nat.leb_spec n (i + 2)).
  - destruct (Nat.eq_dec (i + 1) n); [replace i with (n - 1)%nat by lia; rewrite V2_last; reflexivity|].
    replace i with (n - 1 - 1)%nat by lia. rewrite V2_step by lia. rewrite V2_last, V1_last. cbn [gmex]. ring.
  - destruct (Nat.eqb_spec (i + 3) n); [|reflexivity]. replace i with (n - 1 - 1 - 1)%nat by lia. rewrite (V2_step zz n xx (n - 1 - 1)), (V2_step zz n xx (n - 1)), (V1_step zz n xx (n - 1)) by lia.
    rewrite V2_last, V1_last, V0_last. cbn [gmex]. ring.
Qed.
Definition isd (v : var) : bool := match v with d _ => true | _ => false end.
Lemma gintend_ok v : isd v = false -> range n v = true -> gmex (intend n v) = gmean v.
Proof.
  destruct v as [i|i|i|i|i|i|i]; cbn [range intend isd]; intros ND H.
  - discriminate.
  - apply andb_prop in H. destruct H as [H1 H2]. apply Nat.leb_le in H1. destruct i as [|i]; [lia|]. replace (S i - 1)%nat with i by lia.
    cbn [gmex gmean U0]. rewrite gmex_eu0. reflexivity.
  - apply Nat.ltb_lt in H. cbn [gmex gmean]. rewrite gmex_ev0 by auto. pose proof (V0_step zz n xx (i + 1)) as E. replace (i + 1 - 1)%nat with i in E by lia.
    rewrite E by lia. reflexivity.
  - apply andb_prop in H. destruct H as [H1 H2]. apply Nat.leb_le in H1. destruct i as [|i]; [lia|]. replace (S i - 1)%nat with i by lia.
    cbn [gmex gmean U1]. rewrite gmex_eu0, gmex_eu1. reflexivity.
  - apply Nat.ltb_lt in H. cbn [gmex gmean]. rewrite gmex_ev0, gmex_ev1 by auto. pose proof (V1_step zz n xx (i + 1)) as E. replace (i + 1 - 1)%nat with i in E by lia.
    rewrite E by lia. reflexivity.
  - apply andb_prop in H. destruct H as [H1 H2]. apply Nat.leb_le in H1. destruct i as [|i]; [lia|]. replace (S i - 1)%nat with i by lia.
    cbn [gmex gmean U2]. rewrite gmex_eu1, gmex_eu2. reflexivity.
  - apply Nat.ltb_lt in H. cbn [gmex gmean]. rewrite gmex_ev1, gmex_ev2 by auto. pose proof (V2_step zz n xx (i + 1)) as E. replace (i + 1 - 1)%nat with i in E by lia.
    rewrite E by lia. reflexivity.
Qed.
End Meaning.

Section Sound.
Variable eps : R.
Variables add sub mul div : R -> R -> R.
Hypothesis H : arithmetic eps add sub mul div.
Variable F : R -> Prop.
Hypothesis D2 : doubling F mul.
Variables n kw : nat.
Variable g w : list R.
Variable xh : R.
Hypothesis Fx : F xh.
Hypothesis Fg : forall k, (k < length g)%nat -> F (get g k).
Hypothesis Hw : (n <= length w)%nat.
Variable wS : nat -> R.
Hypothesis Hrel : forall i, (i < n)%nat -> rel eps kw (get w i) (wS i).
Notation z := (fun i => zval g (zform n i)).
Let eta := inv_eps eps.
Notation rel := (rel eps).
Notation near := (near eta).
Notation M := (gmex n z xh wS (get g)).
Notation A := (gmex n (mz z xh) 0 (fun i => Rabs (wS i)) (fun _ => 0)).
Notation mM := (gmean n z xh).
Notation mA := (gmean n (mz z xh) 0).

Lemma d_ok i env : inG (length g) (zform n i) = true -> exists r, eval_fl add sub mul g w (mul xh 2) env (dex (zform n i)) = Ok r /\ rel 1 r (dd z xh i).
Proof.
  intros Hi. rewrite (dbl_right _ _ D2 xh Fx). assert (dd z xh i = 2 * (xh - zval g (zform n i))) as -> by reflexivity.
  destruct (zform n i) as [|k| |k|]; cbn [dex eval_fl bind inG zval] in *.
  - eexists. split; [reflexivity|]. apply (rel_op eps add sub mul div H 0 _ (xh * 2 + 2)); [apply (ar_add _ _ _ _ _ H)|]. replace (2 * (xh - -1)) with (xh * 2 + 2) by ring. apply rel_exact.
  - apply Nat.ltb_lt in Hi. rewrite rd_get by auto. cbn [bind]. eexists. split; [reflexivity|]. rewrite (dbl_left _ _ D2) by auto.
    apply (rel_op eps add sub mul div H 0 _ (xh * 2 + 2 * get g k)); [apply (ar_add _ _ _ _ _ H)|]. replace (2 * (xh - - get g k)) with (xh * 2 + 2 * get g k) by ring. apply rel_exact.
  - eexists. split; [reflexivity|]. replace (2 * (xh - 0)) with (xh * 2) by ring. apply (rel_le eps add sub mul div H 0); [lia|apply rel_exact].
  - apply Nat.ltb_lt in Hi. rewrite rd_get by auto. cbn [bind]. eexists. split; [reflexivity|]. rewrite (dbl_left _ _ D2) by auto.
    apply (rel_op eps add sub mul div H 0 _ (xh * 2 - 2 * get g k)); [apply (ar_sub _ _ _ _ _ H)|]. replace (2 * (xh - get g k)) with (xh * 2 - 2 * get g k) by ring. apply rel_exact.
  - eexists. split; [reflexivity|]. apply (rel_op eps add sub mul div H 0 _ (xh * 2 - 2)); [apply (ar_sub _ _ _ _ _ H)|]. replace (2 * (xh - 1)) with (xh * 2 - 2) by ring. apply rel_exact.
Qed.
Definition good (v : var) (c : nat) (r : R) : Prop := near c r (mM v) (mA v) /\ (is0 v = true -> rel c r (mM v)).
Definition envf_ok (cs : list (var * nat)) (env : list (var * R)) : Prop :=
  forall v c, lookc cs v = Some c -> exists r, lookup env v = Ok r /\ good v c r.
Lemma eval_fl_ok cs env x e : envf_ok cs env -> forall c, cost n kw cs e = Some c ->
  exists r, eval_fl add sub mul g w x env e = Ok r /\ near c r (M e) (A e) /\ (prod e = true -> rel c r (M e)).
Proof.
  intros HE. induction e as [|k|k|k|v|a IHa b IHb|a IHa b IHb|a IHa b IHb]; cbn [cost eval_fl gmex prod]; intros c C; try discriminate.
  - destruct (Z.leb_spec 0 k); [|discriminate]. injection C as <-. eexists. split; [reflexivity|].
    pose proof (near_exact eta (IZR k)) as N. rewrite Rabs_pos_eq in N by (apply IZR_le; auto). split; [exact N|]. intros _. apply rel_exact.
  - destruct (Nat.ltb_spec k n); [|discriminate]. injection C as <-. rewrite rd_get by lia. eexists. split; [reflexivity|]. split; [apply (rel_near eps add sub mul div H)|intros _]; apply Hrel; auto.
  - destruct (HE v c C) as (r & E & N & Q). exists r. auto.
  - destruct (cost n kw cs a) as [k|] eqn:Ca; [|discriminate]. destruct (cost n kw cs b) as [l|] eqn:Cb; [|discriminate]. injection C as <-.
    destruct (IHa _ eq_refl) as (r & Er & Nr & _). destruct (IHb _ eq_refl) as (s & Es & Ns & _). rewrite Er, Es. cbn [bind]. eexists. split; [reflexivity|]. split; [|discriminate].
    pose proof (eta0 eps add sub mul div H) as E0. apply (near_addop eps add sub mul div H); (eapply (near_le (inv_eps eps) E0); [|eassumption]); lia.
  - destruct (cost n kw cs a) as [k|] eqn:Ca; [|discriminate]. destruct (cost n kw cs b) as [l|] eqn:Cb; [|discriminate]. injection C as <-.
    destruct (IHa _ eq_refl) as (r & Er & Nr & Qr). destruct (IHb _ eq_refl) as (s & Es & Ns & Qs). rewrite Er, Es. cbn [bind]. eexists. split; [reflexivity|]. split.
    + apply (near_mulop eps add sub mul div H); auto.
    + intros P. apply andb_prop in P. destruct P. apply (rel_mul eps add sub mul div H); auto.
Qed.
Lemma letc_ok cs env v e c : envf_ok cs env -> letc n (length g) kw cs v e = Some c ->
  exists r, eval_fl add sub mul g w (mul xh 2) env e = Ok r /\ good v c r.
Proof.
  intros HE C. assert (T : isd v = false -> (if range n v && ex_eqb (simp e) (simp (intend n v)) && (if is0 v then prod e else true) then cost n kw cs e else None) = Some c ->
     exists r, eval_fl add sub mul g w (mul xh 2) env e = Ok r /\ good v c r).
  { intros Hd C'. destruct (range n v && ex_eqb (simp e) (simp (intend n v)) && (if is0 v then prod e else true)) eqn:Q; [|discriminate].
    apply andb_prop in Q. destruct Q as [Q Q3]. apply andb_prop in Q. destruct Q as [Q1 Q2].
    destruct (eval_fl_ok cs env (mul xh 2) e HE c C') as (r & Er & Nr & Qr). exists r. split; [auto|]. unfold good.
    rewrite <- (gintend_ok n z xh wS (get g) v Hd Q1), <- (gintend_ok n (mz z xh) 0 (fun i => Rabs (wS i)) (fun _ => 0) v Hd Q1).
    rewrite <- (gmex_eq n z xh wS (get g) _ _ Q2), <- (gmex_eq n (mz z xh) 0 (fun i => Rabs (wS i)) (fun _ => 0) _ _ Q2).
    split; [auto|]. intros I. rewrite I in Q3. auto. }
  destruct v as [i| | | | | |]; try (apply T; [reflexivity|exact C]). cbn [letc] in C. destruct ((i <? n)%nat && _ && _) eqn:Q; [|discriminate]. injection C as <-.
  apply andb_prop in Q. destruct Q as [Q Q3]. apply andb_prop in Q. destruct Q as [Q1 Q2]. apply ex_eqb_eq in Q3. subst e.
  destruct (d_ok i env Q2) as (r & Er & Rr). exists r. split; [auto|]. split; [|auto]. cbn [gmean]. rewrite <- dd_abs. apply (rel_near eps add sub mul div H). auto.
Qed.

(** The outputs of a block. *)
Definition outok (B : nat) (pr : bool) (r : R) (f : ex) : Prop := near B r (M f) (A f) /\ (pr = true -> rel B r (M f)).
Inductive putsf (B : nat) (pr : bool) : list R -> list (nat * ex) -> list R -> Prop :=
| putsf_nil p : putsf B pr p [] p
| putsf_cons p i f r outs p' : outok B pr r f -> putsf B pr (upd p i r) outs p' -> putsf B pr p ((i, f) :: outs) p'.
Lemma fchk_ok B pr l : forall cs outs env p cs', fchk n (length g) kw B pr cs outs l = Some cs' -> envf_ok cs env ->
  Forall (fun '(j, _) => j < length p)%nat outs ->
  exists env' p', run_fl add sub mul g w (mul xh 2) l env p = Ok (env', p') /\ putsf B pr p outs p' /\ envf_ok cs' env'.
Proof.
  induction l as [|s l IH]; intros cs outs env p cs' C HE HF; cbn [fchk run_fl] in *.
  - destruct outs; [|discriminate]. injection C as <-. exists env, p. split; [auto|]. split; [constructor|auto].
  - destruct s as [v e|i e].
    + destruct (letc n (length g) kw cs v e) as [c|] eqn:L; [|discriminate]. destruct (letc_ok cs env v e c HE L) as (r & Er & Gr). rewrite Er. cbn [bind]. eapply IH; eauto.
      intros u k Hu. cbn [lookup lookc] in *. destruct (var_eqb u v) eqn:E; [|auto]. injection Hu as <-. apply var_eqb_eq in E. subst u. eauto.
    + destruct outs as [|[j f] outs]; [discriminate|]. destruct (cost n kw cs e) as [c|] eqn:Ce; [|discriminate].
      destruct ((i =? j)%nat && (c <=? B)%nat && (if pr then prod e && prod f else true) && ex_eqb (simp e) (simp f)) eqn:Q; [|discriminate].
      apply andb_prop in Q. destruct Q as [Q Q4]. apply andb_prop in Q. destruct Q as [Q Q3]. apply andb_prop in Q. destruct Q as [Q1 Q2].
      apply Nat.eqb_eq in Q1. subst j. apply Nat.leb_le in Q2. apply Forall_cons_iff in HF. destruct HF as [Hi HF].
      destruct (eval_fl_ok cs env (mul xh 2) e HE c Ce) as (r & Er & Nr & Qr). rewrite Er. cbn [bind]. rewrite wr_get by auto. cbn [bind].
      destruct (IH cs outs env (upd p i r) cs' C HE) as (env' & p' & E & P & HE').
      { eapply Forall_impl; [|exact HF]. intros [k ?]. rewrite upd_length'. auto. }
      exists env', p'. split; [auto|]. split; [|auto]. econstructor; [|exact P]. unfold outok.
      rewrite <- (gmex_eq n z xh wS (get g) _ _ Q4), <- (gmex_eq n (mz z xh) 0 (fun i => Rabs (wS i)) (fun _ => 0) _ _ Q4).
      split; [eapply (near_le eta (eta0 eps add sub mul div H)); eauto|]. intros ->. apply andb_prop in Q3. eapply (rel_le eps add sub mul div H); [exact Q2|]. apply Qr, Q3.
Qed.
Lemma putsf_ok B pr off Fo p p' : (off + n <= length p)%nat -> putsf B pr p (outs_of n off Fo) p' ->
  same_out p p' off n /\ forall i, (i < n)%nat -> outok B pr (get p' (off + i)) (Fo i).
Proof.
  unfold outs_of. intros L. assert (G : forall m s p0, (s + m <= n)%nat -> length p0 = length p ->
     putsf B pr p0 (map (fun i => (off + i, Fo i)%nat) (seq s m)) p' ->
     length p' = length p /\ (forall k, (k < off + s \/ off + s + m <= k)%nat -> get p' k = get p0 k) /\ forall i, (s <= i < s + m)%nat -> outok B pr (get p' (off + i)) (Fo i)).
  { induction m as [|m IH]; intros s p0 Hs Lp P; cbn [seq map] in P; inversion P as [|? ? ? r ? ? O P']; subst.
    - split; [auto|]. split; [auto|]. intros; lia.
    - destruct (IH (S s) (upd p0 (off + s) r) ltac:(lia) ltac:(rewrite upd_length'; auto) P') as (L' & O' & I'). split; [auto|]. split.
      + intros k Hk. rewrite O' by lia. rewrite get_upd by lia. destruct (Nat.eqb_spec k (off + s)); [lia|auto].
      + intros i Hi. destruct (Nat.eq_dec i s) as [->|]; [|apply I'; lia]. rewrite O' by lia. rewrite get_upd by lia. rewrite Nat.eqb_refl. auto. }
  intros P. destruct (G n 0%nat p ltac:(lia) eq_refl P) as (L' & O' & I'). split; [split; [auto|]|].
  - intros k Hk. apply O'. lia.
  - intros i Hi. apply I'. lia.
Qed.
End Sound.
