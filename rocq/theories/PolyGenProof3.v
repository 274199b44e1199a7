(** The functions printed for n points evaluate the basis of their nodes, for every n. *)
From Verif Require Import Base BaseLemmas Poly PolySpec PolyProof1 PolyProof2 PolyImpSyntax PolyImp PolyGll PolyGllSpec PolyImpProof PolyGllProof.
From Verif Require Import TensorSpec TensorRoundSpec HalvingRound TensorRoundProof PolyRound PolyRoundSpec PolyRoundProof1 PolyRoundProof2 PolyRoundProof3.
From Verif Require Import PolyGllRound PolyGllRoundSpec PolyGllRoundProof1 PolyGllRoundProof2 PolyGen PolyGenSpec PolyGenProof1 PolyGenProof2.
From Coq Require Import Reals Lra.
Open Scope R_scope.
Local Notation get := PolySpec.get.

Lemma symmetric_length n g : (2 <= n)%nat -> length g = (n / 2 - 1)%nat -> length (symmetric n g) = n.
Proof.
  intros Hn Lg. assert (DV : (n = 2 * (n / 2) + n mod 2)%nat) by (apply Nat.div_mod; lia). assert (MB := Nat.mod_upper_bound n 2 ltac:(lia)).
  unfold symmetric. rewrite !app_length, rev_length, map_length, Lg. cbn [length].
  assert (ODD : Nat.odd n = (n mod 2 =? 1)%nat) by (rewrite <- Nat.bit0_mod, Nat.bit0_odd; destruct (Nat.odd n); reflexivity). rewrite ODD.
  destruct (Nat.eqb_spec (n mod 2) 1); cbn [length]; lia.
Qed.
Lemma symmetric_get n g i : (2 <= n)%nat -> length g = (n / 2 - 1)%nat -> (i < n)%nat -> get (symmetric n g) i = zval g (zform n i).
Proof.
  intros Hn Lg Hi. assert (DV : (n = 2 * (n / 2) + n mod 2)%nat) by (apply Nat.div_mod; lia). assert (MB := Nat.mod_upper_bound n 2 ltac:(lia)).
  assert (ODD : Nat.odd n = (n mod 2 =? 1)%nat) by (rewrite <- Nat.bit0_mod, Nat.bit0_odd; destruct (Nat.odd n); reflexivity).
  unfold symmetric, zform, get. destruct (Nat.eqb_spec i 0) as [->|N0]; [reflexivity|]. destruct i as [|i]; [lia|]. cbn [app nth].
  destruct (Nat.ltb_spec i (length g)) as [L|L].
  - rewrite app_nth1 by (rewrite map_length; auto). rewrite (nth_indep _ 0 (- 0)) by (rewrite map_length; auto). rewrite (map_nth Ropp).
    destruct (Nat.eqb_spec (S i) (n - 1)); [lia|]. destruct (Nat.eqb_spec (2 * S i + 1) n); [lia|]. destruct (Nat.ltb_spec (S i) (n / 2)); [|lia]. cbn [zval]. unfold get. do 2 f_equal. lia.
  - rewrite app_nth2 by (rewrite map_length; auto). rewrite map_length. rewrite ODD.
    destruct (Nat.eqb_spec (n mod 2) 1) as [E|E].
    + destruct (Nat.eqb_spec i (length g)) as [->|N1].
      * rewrite Nat.sub_diag. cbn [app nth]. destruct (Nat.eqb_spec (S (length g)) (n - 1)); [lia|]. destruct (Nat.eqb_spec (2 * S (length g) + 1) n); [reflexivity|lia].
      * replace (i - length g)%nat with (S (i - length g - 1)) by lia. cbn [app nth].
        destruct (Nat.eqb_spec (S i) (n - 1)).
        { rewrite app_nth2 by (rewrite rev_length; lia). rewrite rev_length. replace (i - length g - 1 - length g)%nat with 0%nat by lia. reflexivity. }
        rewrite app_nth1 by (rewrite rev_length; lia). rewrite rev_nth by lia. destruct (Nat.eqb_spec (2 * S i + 1) n); [lia|]. destruct (Nat.ltb_spec (S i) (n / 2)); [lia|]. cbn [zval]. unfold get. f_equal. lia.
    + cbn [app]. destruct (Nat.eqb_spec (S i) (n - 1)).
      { rewrite app_nth2 by (rewrite rev_length; lia). rewrite rev_length. replace (i - length g - length g)%nat with 0%nat by lia. reflexivity. }
      rewrite app_nth1 by (rewrite rev_length; lia). rewrite rev_nth by lia. destruct (Nat.eqb_spec (2 * S i + 1) n); [lia|]. destruct (Nat.ltb_spec (S i) (n / 2)); [lia|]. cbn [zval]. unfold get. f_equal. lia.
Qed.

Section L.
Variable eps : R.
Variables add sub mul div : R -> R -> R.
Hypothesis H : arithmetic eps add sub mul div.
Variable F : R -> Prop.
Hypothesis D2 : doubling F mul.
Variable lit : Z -> R.
Hypothesis Fl : forall k, F (lit k).
Variable n : nat.
Hypothesis Hn : (2 <= n)%nat.
Variable t : list Z.
Hypothesis Ht : length t = (n / 2 - 1)%nat.
Let z := symmetric n (map lit t).
Hypothesis D : distinct z n.
Let f := print_gll_lag_fix n t.
Lemma z_get i : (i < n)%nat -> get z i = zval (map lit t) (zform n i).
Proof. intros Hi. apply symmetric_get; auto. rewrite map_length. auto. Qed.
Lemma z_F i : (i < n)%nat -> F (get z i).
Proof.
  intros Hi. rewrite z_get by auto. destruct D2 as [F0 F1 FO _ _].
  assert (G : forall k, F (get (map lit t) k)).
  { intros k. unfold get. destruct (Nat.ltb_spec k (length (map lit t))) as [L|L].
    - rewrite (nth_indep _ 0 (lit 0)) by auto. rewrite map_nth. apply Fl.
    - rewrite nth_overflow by auto. auto. }
  destruct (zform n i) as [|k| |k|]; cbn [zval]; auto. replace (-1) with (- (1)) by ring. auto.
Qed.
Lemma f_checkf : checkf2 n f = true.
Proof. apply printed_checkf; auto. Qed.
Lemma f_calls kw B0 p w der x wS : checkf n kw B0 (7 * n) (7 * n + 2) f = true ->
  (n <= length w)%nat -> (n * (der + 1) <= length p)%nat -> (der <= 2)%nat -> F x -> (forall i, (i < n)%nat -> rel eps kw (get w i) (wS i)) ->
  exists p', gll_lag_fl add sub mul lit f p w n der x = Ok (p', w) /\ same_out p p' 0 (n * (der + 1)) /\
    (forall i, (i < n)%nat -> rel eps B0 (get p' i) (wS i * L0 (get z) n x i)) /\
    ((1 <= der)%nat -> forall i, (i < n)%nat -> near (inv_eps eps) (7 * n) (get p' (n + i)) (wS i * L1 (get z) n x i) (Rabs (wS i) * L1 (mz (get z) x) n 0 i)) /\
    ((2 <= der)%nat -> forall i, (i < n)%nat -> near (inv_eps eps) (7 * n + 2) (get p' (2 * n + i)) (wS i * L2 (get z) n x i) (Rabs (wS i) * L2 (mz (get z) x) n 0 i)).
Proof.
  intros C Hw Hp Hd Fx Hr. destruct (callf_ok eps add sub mul div H F D2 lit Fl n kw B0 _ _ f C p w der x wS Hw Hp Hd Fx Hr) as (p' & E & S & R0 & R1 & R2).
  cbn [nodes f print_gll_lag_fix] in *.
  assert (X : forall j, (j < n)%nat -> zval (map lit t) (zform n j) = get z j) by (intros; rewrite z_get; auto).
  assert (Y : forall j, (j < n)%nat -> mz (fun i => zval (map lit t) (zform n i)) x j = mz (get z) x j) by (intros j Hj; unfold mz; rewrite X; auto).
  exists p'. split; [auto|]. split; [auto|]. split; [|split].
  - intros i Hi. destruct (L_ext _ _ n x i Hi X) as (<- & _ & _). auto.
  - intros K i Hi. destruct (L_ext _ _ n x i Hi X) as (_ & <- & _). destruct (L_ext _ _ n 0 i Hi Y) as (_ & <- & _). auto.
  - intros K i Hi. destruct (L_ext _ _ n x i Hi X) as (_ & _ & <-). destruct (L_ext _ _ n 0 i Hi Y) as (_ & _ & <-). auto.
Qed.


Definition ready_glf (data : arr) : Prop := (n <= length data)%nat /\ forall i, (i < n)%nat -> rel eps (3 * n) (get data i) (wt z n i).
Lemma coef_gen_ok data : (n <= length data)%nat ->
  exists data', lagrange_coef_fl div (gll_lag_fl add sub mul lit f) (repeat 0 n) data 0 z n = Ok data' /\ same_out data data' 0 n /\ ready_glf data'.
Proof.
  intros Hd. assert (Lz : length z = n) by (apply symmetric_length; auto; rewrite map_length; auto).
  unfold lagrange_coef_fl.
  lazymatch goal with |- context [fill ?a ?o ?k ?h] => destruct (fill_ok a o k h (fun _ => 1)) as (m2 & E2 & S2 & R2) end; [lia|auto|rewrite E2; cbn [bind]; clear E2].
  match goal with |- context [foldM ?h (seq 0 n) (repeat 0 n, m2)] => set (FF := h) end.
  assert (G : forall k, (k <= n)%nat -> exists p m, foldM FF (seq 0 k) (repeat 0 n, m2) = Ok (p, m) /\ length p = n /\ same_out data m 0 n /\
            (forall i, (i < k)%nat -> rel eps (3 * n) (get m i) (wt z n i)) /\ forall i, (k <= i < n)%nat -> get m i = 1).
  { induction k as [|k IH]; intros Hk.
    - exists (repeat 0 n), m2. split; [auto|]. split; [apply repeat_length|]. split; [auto|]. split; [intros; lia|]. intros i Hi. apply (R2 i). lia.
    - destruct IH as (p & m & E & Lp & Sm & W1 & W2); [lia|]. rewrite seq_S, foldM_snoc, E. cbn [bind Nat.add]. unfold FF. rewrite rd_get by lia. cbn [bind].
      assert (Lm : length m = length data) by apply Sm.
      pose proof f_checkf as C. unfold checkf2 in C. apply andb_prop in C. destruct C as [C _].
      destruct (f_calls _ _ p m 0 (get z k) (get m) C) as (p' & E' & Sp & Rp & _); try lia; [apply z_F; lia|intros i Hi; apply rel_exact|].
      rewrite E'. cbn [bind]. rewrite rd_get by (destruct Sp; lia). cbn [bind]. specialize (Rp k ltac:(lia)). rewrite W2, Rmult_1_l in Rp by lia.
      pose proof (L0_nz z n k D ltac:(lia)) as NZ. destruct (rel_inv eps add sub mul div H _ _ _ NZ Rp) as [PN RI].
      assert (RD : rel eps (3 * n) (div 1 (get p' k)) (wt z n k)).
      { eapply (rel_le eps add sub mul div H); [|eapply (rel_op eps add sub mul div H); [apply (ar_div _ _ _ _ _ H); exact PN|exact RI]]. lia. }
      rewrite wr_get by lia. cbn [bind]. eexists; eexists. split; [reflexivity|]. split; [destruct Sp; lia|]. split; [split|split].
      + rewrite upd_length'. auto.
      + intros j Hj. rewrite get_upd by lia. destruct (Nat.eqb_spec j (0 + k)); [lia|]. destruct Sm as [_ Sm]. apply Sm. lia.
      + intros j Hj. rewrite get_upd by lia. destruct (Nat.eqb_spec j (0 + k)) as [->|]; [exact RD|]. apply W1. lia.
      + intros j Hj. rewrite get_upd by lia. destruct (Nat.eqb_spec j (0 + k)) as [->|]; [lia|]. apply W2. lia. }
  destruct (G n ltac:(lia)) as (p & m & E & Lp & Sm & W1 & _). rewrite E. cbn [bind]. exists m. split; [auto|]. split; [auto|].
  split; [destruct Sm; lia|auto].
Qed.
Lemma eval_glf_ok data p der x : ready_glf data -> F x -> (der <= 2)%nat -> (n * (der + 1) <= length p)%nat ->
  exists p', gll_lag_fl add sub mul lit f p data n der x = Ok (p', data) /\ evaluates_fl eps z n der x p p'.
Proof.
  intros [Ld Rw] Fx Hder Hp. pose proof f_checkf as C. unfold checkf2 in C. apply andb_prop in C. destruct C as [_ C]. 
  destruct (f_calls _ _ p data der x (wt z n) C Ld Hp Hder Fx Rw) as (p' & E & Sp & R0 & R1 & R2). exists p'. split; [auto|].
  destruct Sp as [Lp Sp]. split; [auto|]. split; [intros k Hk; apply Sp; lia|].
  assert (B : forall i y, (i < n)%nat -> basis z n i y = wt z n i * L0 (get z) n y i) by (intros; apply basis_L0; auto).
  assert (D1 : forall i y, (i < n)%nat -> derivable_pt_lim (basis z n i) y (wt z n i * L1 (get z) n y i)).
  { intros i y Hi. apply (derivable_pt_lim_ext (fun y => wt z n i * L0 (get z) n y i)); [intros; symmetry; apply B; auto|]. apply der_scal, L0_der. }
  assert (M1 : forall i y, (i < n)%nat -> derivable_pt_lim (shifted z n i x) y (Rabs (wt z n i) * L1 (mz (get z) x) n y i)).
  { intros i y Hi. apply (derivable_pt_lim_ext (fun y => Rabs (wt z n i) * L0 (mz (get z) x) n y i)); [intros; symmetry; apply maj_L0; auto|]. apply der_scal, L0_der. }
  split; [|split].
  - intros i Hi. pose proof (R0 i Hi) as Q. apply (rel_near eps add sub mul div H) in Q. rewrite <- B in Q by auto. exact Q.
  - intros Hd. exists (fun i => wt z n i * L1 (get z) n x i), (fun i => Rabs (wt z n i) * L1 (mz (get z) x) n 0 i). split; [|intros i Hi; split; auto].
    intros i Hi. exact (R1 Hd i Hi).
  - intros Hd. exists (fun i => wt z n i * L2 (get z) n x i), (fun i => Rabs (wt z n i) * L2 (mz (get z) x) n 0 i). split.
    + intros i Hi. exact (R2 Hd i Hi).
    + intros i Hi. split.
      * exists (fun y => wt z n i * L1 (get z) n y i). split; [intros y; apply D1; auto|]. apply der_scal, L1_der.
      * exists (fun y => Rabs (wt z n i) * L1 (mz (get z) x) n y i). split; [intros y; apply M1; auto|]. apply der_scal, L1_der.
Qed.
Lemma evals_glf_ok calls data : ready_glf data -> Forall (valid_call n) calls -> Forall (machine_call F) calls ->
  exists outs, evals (gll_lag_fl add sub mul lit f) data n calls = Ok outs /\ Forall2 (fun '(p, der, x) p' => evaluates_fl eps z n der x p p') calls outs.
Proof.
  intros Hr. induction calls as [|[[p der] x] calls IH]; intros HF HM.
  - exists []. split; [reflexivity|constructor].
  - apply Forall_cons_iff in HF. destruct HF as [Hv HF']. apply Forall_cons_iff in HM. destruct HM as [Fx HM']. destruct (eval_glf_ok data p der x Hr) as (p' & E & Ev); try apply Hv; [exact Fx|].
    destruct (IH HF' HM') as (outs & E' & FF). cbn [evals]. rewrite E. cbn [bind]. rewrite E'. cbn [bind]. eexists. split; [reflexivity|]. constructor; auto.
Qed.
End L.

Lemma approx_0 k a o n S A : approx (inv_eps 0) k a o n S A -> forall i, (i < n)%nat -> get a (o + i) = S i.
Proof.
  intros Q i Hi. specialize (Q i Hi). unfold within, inv_eps in Q. replace (0 / (1 - 0)) with 0 in Q by (unfold Rdiv; rewrite Rmult_0_l; auto). rewrite Rplus_0_r, pow1 in Q. replace (1 - 1) with 0 in Q by lra. rewrite Rmult_0_l in Q.
  unfold get, TensorSpec.get in *. pose proof (Rabs_pos (nth (o + i) a 0 - S i)). destruct (Req_dec (nth (o + i) a 0 - S i) 0) as [|N]; [lra|]. pose proof (Rabs_pos_lt _ N). lra.
Qed.
Lemma evaluates_0 z n der x p p' : evaluates_fl 0 z n der x p p' -> evaluates z n der x p p'.
Proof.
  intros (L & O & A0 & A1 & A2). split; [auto|]. split; [exact O|]. intros i Hi. split; [|split].
  - apply (approx_0 _ _ _ _ _ _ A0 i Hi).
  - intros Hd. destruct (A1 Hd) as (DD & A & Q & R). rewrite (approx_0 _ _ _ _ _ _ Q i Hi). apply R. auto.
  - intros Hd. destruct (A2 Hd) as (DD & A & Q & R). rewrite (approx_0 _ _ _ _ _ _ Q i Hi). apply R. auto.
Qed.
