(** The programs of poly_imp.h compute what lagrange_eval does. *)
From Verif Require Import Base BaseLemmas Poly PolySpec PolyProof1 PolyProof2 PolyImpSyntax PolyImp PolyGll.
From Coq Require Import Reals Lra.
Open Scope nat_scope.

Fixpoint ex_eqb (a b : ex) : bool :=
  match a, b with
  | X, X => true
  | K x, K y => Z.eqb x y
  | G i, G j | W i, W j => Nat.eqb i j
  | V v, V w => var_eqb v w
  | Add a b, Add a' b' | Sub a b, Sub a' b' | Mul a b, Mul a' b' => ex_eqb a a' && ex_eqb b b'
  | _, _ => false
  end.
Lemma var_eqb_eq a b : var_eqb a b = true -> a = b.
Proof. destruct a, b; cbn; intros H; try discriminate; apply Nat.eqb_eq in H; congruence. Qed.
Lemma var_eqb_refl a : var_eqb a a = true.
Proof. destruct a; apply Nat.eqb_refl. Qed.
Lemma ex_eqb_eq a : forall b, ex_eqb a b = true -> a = b.
Proof.
  induction a; intros b'; destruct b'; cbn [ex_eqb]; intros H; try discriminate; auto.
  - apply Z.eqb_eq in H. congruence.
  - apply Nat.eqb_eq in H. congruence.
  - apply Nat.eqb_eq in H. congruence.
  - apply var_eqb_eq in H. congruence.
  - apply andb_prop in H. destruct H. f_equal; auto.
  - apply andb_prop in H. destruct H. f_equal; auto.
  - apply andb_prop in H. destruct H. f_equal; auto.
Qed.

(** Removing multiplications by 0 and 1 and additions of 0. *)
Definition smul (a b : ex) : ex :=
  match a, b with
  | K 0, _ => K 0 | _, K 0 => K 0
  | K 1, _ => b | _, K 1 => a
  | _, _ => Mul a b
  end.
Definition sadd (a b : ex) : ex :=
  match a, b with
  | K 0, _ => b | _, K 0 => a
  | _, _ => Add a b
  end.
Fixpoint simp (e : ex) : ex :=
  match e with
  | Add a b => sadd (simp a) (simp b)
  | Mul a b => smul (simp a) (simp b)
  | Sub a b => Sub (simp a) (simp b)
  | _ => e
  end.

(** The nodes. *)
Inductive zf := ZM1 | ZMG (k : nat) | Z00 | ZPG (k : nat) | ZP1.
Definition zform (n i : nat) : zf :=
  if i =? 0 then ZM1 else if i =? n - 1 then ZP1 else if 2 * i + 1 =? n then Z00
  else if i <? n / 2 then ZMG (i - 1) else ZPG (n - 2 - i).
Definition dex (z : zf) : ex :=
  match z with ZM1 => X + 2 | ZMG k => X + 2 * G k | Z00 => X | ZPG k => X - 2 * G k | ZP1 => X - 2 end%ex.

(** What the variables are for; constants at the ends. *)
Section Intended.
Variable n : nat.
Definition eu0 (i : nat) : ex := if i =? 0 then K 1 else V (u0 i).
Definition eu1 (i : nat) : ex := if i =? 0 then K 0 else if i =? 1 then K 1 else V (u1 i).
Definition eu2 (i : nat) : ex := if i <? 2 then K 0 else if i =? 2 then K 2 else V (u2 i).
Definition ev0 (i : nat) : ex := if i + 1 =? n then K 1 else V (v0 i).
Definition ev1 (i : nat) : ex := if i + 1 =? n then K 0 else if i + 2 =? n then K 1 else V (v1 i).
Definition ev2 (i : nat) : ex := if n <=? i + 2 then K 0 else if i + 3 =? n then K 2 else V (v2 i).
Definition intend (v : var) : ex :=
  match v with
  | d i => dex (zform n i)
  | u0 i => eu0 (i - 1) * d (i - 1)
  | u1 i => eu1 (i - 1) * d (i - 1) + eu0 (i - 1)
  | u2 i => eu2 (i - 1) * d (i - 1) + 2 * eu1 (i - 1)
  | v0 i => d (i + 1) * ev0 (i + 1)
  | v1 i => d (i + 1) * ev1 (i + 1) + ev0 (i + 1)
  | v2 i => d (i + 1) * ev2 (i + 1) + 2 * ev1 (i + 1)
  end%ex.
Definition range (v : var) : bool :=
  match v with
  | d i => i <? n
  | u0 i | u1 i | u2 i => (1 <=? i) && (i <? n)
  | v0 i | v1 i | v2 i => i + 1 <? n
  end.
Definition eo0 (i : nat) : ex := (W i * eu0 i * ev0 i)%ex.
Definition eo1 (i : nat) : ex := (2 * W i * (eu1 i * ev0 i + eu0 i * ev1 i))%ex.
Definition eo2 (i : nat) : ex := (4 * W i * (eu2 i * ev0 i + 2 * eu1 i * ev1 i + eu0 i * ev2 i))%ex.
End Intended.

Section Check.
Variable n gl : nat.
Fixpoint okx (defs : list var) (e : ex) : bool :=
  match e with
  | X | K _ => true
  | G k => k <? gl
  | W i => i <? n
  | V v => existsb (var_eqb v) defs
  | Add a b | Sub a b | Mul a b => okx defs a && okx defs b
  end.
Fixpoint chk (defs : list var) (outs : list (nat * ex)) (l : list stmt) : option (list var) :=
  match l with
  | [] => match outs with [] => Some defs | _ => None end
  | Let v e :: l =>
      if range n v && okx defs e && ex_eqb (simp e) (simp (intend n v)) then chk (v :: defs) outs l else None
  | Out i e :: l =>
      match outs with
      | (j, f) :: outs => if (i =? j) && okx defs e && ex_eqb (simp e) (simp f) then chk defs outs l else None
      | [] => None
      end
  end.
Definition outs_of (off : nat) (f : nat -> ex) : list (nat * ex) := map (fun i => (off + i, f i)) (seq 0 n).
End Check.
Definition check (n : nat) (f : prog) : bool :=
  let gl := length (nodes f) in
  match chk n gl [] (outs_of n 0 (eo0 n)) (b0 f) with
  | Some d0 =>
      match chk n gl d0 (outs_of n n (eo1 n)) (b1 f) with
      | Some d1 => match chk n gl d1 (outs_of n (2 * n) (eo2 n)) (b2 f) with Some _ => true | None => false end
      | None => false
      end
  | None => false
  end.
Lemma all_checked : forallb (fun '(n, f) => check n f) (combine (seq 2 23) gll_lag_table) = true.
Proof. vm_compute. reflexivity. Qed.
Lemma table_24 : GLL_LAG_FIX_MAX = 24. Proof. reflexivity. Qed.
Lemma table_length : length gll_lag_table = 23. Proof. reflexivity. Qed.

Open Scope R_scope.
Lemma outs_range n off F (p : list R) : (off + n <= length p)%nat -> Forall (fun '(j, _) => j < length p)%nat (outs_of n off F).
Proof. intros H. unfold outs_of. rewrite Forall_map. apply Forall_forall. intros i Hi. apply in_seq in Hi. lia. Qed.
Section Sound.
Variable n : nat.
Variable g w : list R.
Variable xh : R.
Hypothesis Hw : (n <= length w)%nat.
Definition zval (z : zf) : R :=
  match z with ZM1 => -1 | ZMG k => - get g k | Z00 => 0 | ZPG k => get g k | ZP1 => 1 end.
Notation z := (fun i => zval (zform n i)).
Definition mean (v : var) : R :=
  match v with
  | d i => dd z xh i
  | u0 i => U0 z xh i | u1 i => U1 z xh i | u2 i => U2 z xh i
  | v0 i => V0 z n xh i | v1 i => V1 z n xh i | v2 i => V2 z n xh i
  end.
Fixpoint mex (e : ex) : R :=
  match e with
  | X => xh * 2
  | K z => IZR z
  | G k => get g k
  | W i => get w i
  | V v => mean v
  | Add a b => mex a + mex b
  | Sub a b => mex a - mex b
  | Mul a b => mex a * mex b
  end.
Lemma mex_smul a b : mex (smul a b) = mex a * mex b.
Proof.
  assert (S1 : forall a b, mex (match b with K 0 => K 0 | K 1 => a | _ => Mul a b end) = mex a * mex b).
  { intros a0 b0'. destruct b0' as [|[|[| |]|]| | | | | |]; cbn [mex]; ring. }
  unfold smul. destruct a as [|[|[| |]|]| | | | | |]; try apply (S1 _ b); destruct b as [|[|[| |]|]| | | | | |]; cbn [mex]; ring.
Qed.
Lemma mex_sadd a b : mex (sadd a b) = mex a + mex b.
Proof.
  unfold sadd. destruct a as [|[|[| |]|]| | | | | |]; destruct b as [|[|[| |]|]| | | | | |]; cbn [mex]; ring.
Qed.
Lemma mex_simp e : mex (simp e) = mex e.
Proof. induction e; cbn [simp mex]; auto; rewrite ?mex_smul, ?mex_sadd; cbn [mex]; congruence. Qed.

Lemma mex_eu0 i : mex (eu0 i) = U0 z xh i.
Proof. unfold eu0. destruct i; reflexivity. Qed.
Lemma mex_eu1 i : mex (eu1 i) = U1 z xh i.
Proof. unfold eu1. destruct i as [|[|i]]; cbn [Nat.eqb mex mean U1 U0]; ring. Qed.
Lemma mex_eu2 i : mex (eu2 i) = U2 z xh i.
Proof. unfold eu2. destruct i as [|[|[|i]]]; cbn [Nat.eqb Nat.ltb Nat.leb mex mean U2 U1 U0]; ring. Qed.
Lemma mex_ev0 i : (i < n)%nat -> mex (ev0 n i) = V0 z n xh i.
Proof. intros H. unfold ev0. destruct (Nat.eqb_spec (i + 1) n); [|reflexivity]. replace i with (n - 1)%nat by lia. rewrite V0_last. reflexivity. Qed.
Lemma mex_ev1 i : (i < n)%nat -> mex (ev1 n i) = V1 z n xh i.
Proof.
  intros H. unfold ev1. destruct (Nat.eqb_spec (i + 1) n); [replace i with (n - 1)%nat by lia; rewrite V1_last; reflexivity|].
  destruct (Nat.eqb_spec (i + 2) n); [|reflexivity]. replace i with (n - 1 - 1)%nat by lia. rewrite V1_step by lia. rewrite V1_last, V0_last. cbn [mex]. ring.
Qed.
Lemma mex_ev2 i : (i < n)%nat -> mex (ev2 n i) = V2 z n xh i.
Proof.
  intros H. unfold ev2. destruct (Nat.leb_spec n (i + 2)).
  - destruct (Nat.eq_dec (i + 1) n); [replace i with (n - 1)%nat by lia; rewrite V2_last; reflexivity|].
    replace i with (n - 1 - 1)%nat by lia. rewrite V2_step by lia. rewrite V2_last, V1_last. cbn [mex]. ring.
  - destruct (Nat.eqb_spec (i + 3) n); [|reflexivity]. replace i with (n - 1 - 1 - 1)%nat by lia. rewrite (V2_step z n xh (n - 1 - 1)), (V2_step z n xh (n - 1)), (V1_step z n xh (n - 1)) by lia.
    rewrite V2_last, V1_last, V0_last. cbn [mex]. ring.
Qed.
Lemma intend_ok v : range n v = true -> mex (intend n v) = mean v.
Proof.
  destruct v as [i|i|i|i|i|i|i]; cbn [range intend]; intros H.
  - cbn [mean]. unfold dd. destruct (zform n i); cbn [dex mex zval]; ring.
  - apply andb_prop in H. destruct H as [H1 H2]. apply Nat.leb_le in H1. destruct i as [|i]; [lia|]. replace (S i - 1)%nat with i by lia.
    cbn [mex mean U0]. rewrite mex_eu0. reflexivity.
  - apply Nat.ltb_lt in H. cbn [mex mean]. rewrite mex_ev0 by auto. pose proof (V0_step z n xh (i + 1)) as E. replace (i + 1 - 1)%nat with i in E by lia.
    rewrite E by lia. reflexivity.
  - apply andb_prop in H. destruct H as [H1 H2]. apply Nat.leb_le in H1. destruct i as [|i]; [lia|]. replace (S i - 1)%nat with i by lia.
    cbn [mex mean U1]. rewrite mex_eu0, mex_eu1. reflexivity.
  - apply Nat.ltb_lt in H. cbn [mex mean]. rewrite mex_ev0, mex_ev1 by auto. pose proof (V1_step z n xh (i + 1)) as E. replace (i + 1 - 1)%nat with i in E by lia.
    rewrite E by lia. reflexivity.
  - apply andb_prop in H. destruct H as [H1 H2]. apply Nat.leb_le in H1. destruct i as [|i]; [lia|]. replace (S i - 1)%nat with i by lia.
    cbn [mex mean U2]. rewrite mex_eu1, mex_eu2. reflexivity.
  - apply Nat.ltb_lt in H. cbn [mex mean]. rewrite mex_ev1, mex_ev2 by auto. pose proof (V2_step z n xh (i + 1)) as E. replace (i + 1 - 1)%nat with i in E by lia.
    rewrite E by lia. reflexivity.
Qed.

Definition env_ok (defs : list var) (env : list (var * R)) : Prop := forall v, existsb (var_eqb v) defs = true -> lookup env v = Ok (mean v).
Lemma eval_mex defs env e : env_ok defs env -> okx n (length g) defs e = true -> eval g w (xh * 2) env e = Ok (mex e).
Proof.
  intros HE. induction e; cbn [okx eval mex]; intros H; auto.
  - apply Nat.ltb_lt in H. apply rd_get. auto.
  - apply Nat.ltb_lt in H. apply rd_get. lia.
  - apply andb_prop in H. destruct H as [H1 H2]. rewrite IHe1, IHe2 by auto. reflexivity.
  - apply andb_prop in H. destruct H as [H1 H2]. rewrite IHe1, IHe2 by auto. reflexivity.
  - apply andb_prop in H. destruct H as [H1 H2]. rewrite IHe1, IHe2 by auto. reflexivity.
Qed.
Definition puts (p : list R) (outs : list (nat * ex)) : list R := fold_left (fun p '(j, e) => upd p j (mex e)) outs p.
Lemma chk_ok l : forall defs outs env p defs', chk n (length g) defs outs l = Some defs' -> env_ok defs env ->
  Forall (fun '(j, _) => j < length p)%nat outs ->
  exists env', run g w (xh * 2) l env p = Ok (env', puts p outs) /\ env_ok defs' env'.
Proof.
  induction l as [|s l IH]; intros defs outs env p defs' H HE HF; cbn [chk run] in *.
  - destruct outs; [|discriminate]. injection H as <-. exists env. auto.
  - destruct s as [v e|i e].
    + destruct (_ && _ && _) eqn:C in H; [|discriminate]. apply andb_prop in C. destruct C as [C Ce]. apply andb_prop in C. destruct C as [Cr Co].
      rewrite (eval_mex defs) by auto. cbn [bind]. eapply IH; eauto.
      intros u Hu. cbn [lookup existsb] in *. destruct (var_eqb u v) eqn:E; [|auto].
      apply var_eqb_eq in E. subst u. rewrite <- (intend_ok v) by auto. apply ex_eqb_eq in Ce. rewrite <- (mex_simp e), Ce, mex_simp. reflexivity.
    + destruct outs as [|[j f] outs]; [discriminate|]. destruct (_ && _ && _) eqn:C in H; [|discriminate]. apply andb_prop in C. destruct C as [C Ce]. apply andb_prop in C. destruct C as [Cr Co].
      apply Nat.eqb_eq in Cr. subst j. apply Forall_cons_iff in HF. destruct HF as [Hi HF].
      rewrite (eval_mex defs) by auto. cbn [bind]. rewrite wr_get by auto. cbn [bind].
      apply ex_eqb_eq in Ce. rewrite <- (mex_simp e), Ce, mex_simp. unfold puts. cbn [fold_left]. eapply IH; eauto.
      eapply Forall_impl; [|exact HF]. intros [k ?]. rewrite upd_length'. auto.
Qed.
Lemma puts_ok off F (p : list R) : (off + n <= length p)%nat ->
  same_out p (puts p (outs_of n off F)) off n /\ reg (puts p (outs_of n off F)) off n (fun i => mex (F i)).
Proof.
  intros H. unfold outs_of.
  assert (G : forall k, (k <= n)%nat -> let p' := puts p (map (fun i => (off + i, F i)%nat) (seq 0 k)) in same_out p p' off n /\ reg p' off k (fun i => mex (F i))).
  { induction k as [|k IH]; intros Hk; cbv zeta; [split; [split; auto|intros i Hi; lia]|]. destruct IH as [[L O] Rg]; [lia|].
    rewrite seq_S, map_app. unfold puts in *. rewrite fold_left_app. cbn [map fold_left Nat.add]. split; [split|].
    - rewrite upd_length'. auto.
    - intros j Hj. rewrite get_upd by lia. destruct (Nat.eqb_spec j (off + k)); [lia|auto].
    - intros i Hi. rewrite get_upd by lia. destruct (Nat.eqb_spec (off + i) (off + k)); [do 2 f_equal; lia|apply Rg; lia]. }
  apply (G n). lia.
Qed.
End Sound.

Lemma call_ok n f w xh p der : check n f = true -> (n <= length w)%nat -> (n * (der + 1) <= length p)%nat -> (der <= 2)%nat ->
  let g := map entry (nodes f) in let z := fun i => zval g (zform n i) in
  exists p', call f p w der xh = Ok p' /\ same_out p p' 0 (n * (der + 1)) /\
    reg p' 0 n (fun i => get w i * L0 z n xh i) /\
    ((1 <= der)%nat -> reg p' n n (fun i => get w i * L1 z n xh i)) /\ ((2 <= der)%nat -> reg p' (2 * n) n (fun i => get w i * L2 z n xh i)).
Proof.
  intros C Hw Hp Hder g z. unfold check in C. unfold call. fold g. replace (length (nodes f)) with (length g) in C by apply map_length.
  destruct (chk _ _ [] _ (b0 f)) as [d0|] eqn:C0; [|discriminate]. destruct (chk _ _ d0 _ (b1 f)) as [d1|] eqn:C1; [|discriminate].
  destruct (chk _ _ d1 _ (b2 f)) as [d2|] eqn:C2; [|discriminate].
  destruct (chk_ok n g w xh Hw _ _ _ [] p _ C0) as (e0 & E0 & H0); [intros v Hv; discriminate|apply outs_range; nia|]. rewrite E0. cbn [bind].
  destruct (puts_ok n g w xh Hw 0 (eo0 n) p) as [S0 R0]; [nia|]. set (p0 := puts _ _ _ _ p _) in *.
  assert (R0' : reg p0 0 n (fun i => get w i * L0 z n xh i)).
  { intros i Hi. rewrite (R0 i Hi). unfold eo0, L0. cbn [mex]. rewrite mex_eu0, mex_ev0 by auto. fold z. ring. }
  destruct (Nat.eqb_spec der 0) as [->|N0].
  { exists p0. split; [auto|]. split; [eapply same_out_wide; [exact S0|lia|lia]|]. split; [auto|]. split; intros; lia. }
  destruct (chk_ok n g w xh Hw _ _ _ e0 p0 _ C1) as (e1 & E1 & H1); [auto|apply outs_range; destruct S0; nia|]. rewrite E1. cbn [bind].
  destruct (puts_ok n g w xh Hw n (eo1 n) p0) as [S1 R1]; [destruct S0; nia|]. set (p1 := puts _ _ _ _ p0 _) in *.
  assert (R1' : reg p1 n n (fun i => get w i * L1 z n xh i)).
  { intros i Hi. rewrite (R1 i Hi). unfold eo1, L1. cbn [mex]. rewrite mex_eu0, mex_eu1, mex_ev0, mex_ev1 by auto. fold z. ring. }
  pose proof (same_out_reg _ _ _ _ _ _ _ S1 R0' ltac:(lia)) as R01.
  pose proof (same_out_trans _ _ _ _ _ _ _ 0 (n * (der + 1)) S0 S1 ltac:(lia) ltac:(nia) ltac:(lia) ltac:(nia)) as T. rewrite Nat.sub_0_r in T.
  destruct (Nat.eqb_spec der 1) as [->|N1].
  { exists p1. split; [auto|]. split; [exact T|]. split; [auto|]. split; intros; [auto|lia]. }
  assert (der = 2%nat) as -> by lia.
  destruct (chk_ok n g w xh Hw _ _ _ e1 p1 _ C2) as (e2 & E2 & H2); [auto|apply outs_range; destruct T; nia|]. rewrite E2. cbn [bind].
  destruct (puts_ok n g w xh Hw (2 * n) (eo2 n) p1) as [S2 R2]; [destruct T; nia|]. set (p2 := puts _ _ _ _ p1 _) in *.
  exists p2. split; [auto|].
  pose proof (same_out_trans _ _ _ _ _ _ _ 0 (n * (2 + 1)) T S2 ltac:(lia) ltac:(nia) ltac:(lia) ltac:(nia)) as T2. rewrite Nat.sub_0_r in T2.
  split; [exact T2|]. split; [exact (same_out_reg _ _ _ _ _ _ _ S2 R01 ltac:(lia))|]. split; intros _.
  - exact (same_out_reg _ _ _ _ _ _ _ S2 R1' ltac:(lia)).
  - intros i Hi. rewrite (R2 i Hi). unfold eo2, L2. cbn [mex]. rewrite mex_eu0, mex_eu1, mex_eu2, mex_ev0, mex_ev1, mex_ev2 by auto. fold z. ring.
Qed.
