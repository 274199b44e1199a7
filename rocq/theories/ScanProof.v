(** Proofs for C61: comm_scan with any operation. *)
From Verif Require Import Base BaseLemmas Net NetProof Kernels Comm CommSpec OpsSpec CommProof BracketSpec HalvingSpec HalvingProof ScanSpec.

Lemma prefix_fuel : forall f g a n p x, n <= f -> n <= g -> prefix f a n p x = prefix g a n p x.
Proof.
  induction f as [|f IH]; intros g a n p x Hf Hg.
  - destruct g; auto. cbn. destruct (Nat.leb_spec n 1); auto; lia.
  - destruct g as [|g]; cbn [prefix]; destruct (Nat.leb_spec n 1) as [L|L]; auto; [lia|].
    assert (n / 2 < n) by (apply Nat.div_lt; lia). assert (0 < n / 2) by (apply Nat.div_str_pos; lia).
    destruct (p <? a + n / 2); apply IH; lia.
Qed.
Lemma prefix_step n a p x : 1 < n -> prefix n a n p x =
  if p <? a + n / 2 then prefix (n / 2) a (n / 2) p x else prefix (n - n / 2) (a + n / 2) (n - n / 2) p (Combine (halving (n / 2) a (n / 2)) x).
Proof.
  intros L. destruct n as [|n]; [lia|]. set (m := S n) in *. assert (m / 2 < m) by (apply Nat.div_lt; lia). assert (0 < m / 2) by (apply Nat.div_str_pos; lia).
  unfold m at 1. cbn [prefix]. fold m. destruct (Nat.leb_spec m 1); [lia|].
  destruct (p <? a + m / 2); apply prefix_fuel; lia.
Qed.

Section Scan.
Context {T : Type}.
Variable op : T -> T -> T.
Variable e : T.
Variable np vn : nat.
Variable x : nat -> nat -> T.
Notation R := (HR op e vn x).
Notation prg := (prog T (@sbufs T)).
Notation sup := (sup op np vn).
Notation sdn := (sdn op vn).
(** The vector of the values of an expression. *)
Definition EV (y : expr) : list T := vec vn (fun i => eval op e (fun q _ _ => x q i) y).
Lemma EV_len y : length (EV y) = vn. Proof. apply vec_length. Qed.
Lemma RL a n : length (R a n) = vn. Proof. apply HR_len. Qed.
Lemma EV_join a n y : gather_array op (R a n) (EV y) vn = Ok (EV (Combine (halving n a n) y)).
Proof. unfold EV, HR. rewrite gather_array_vec. f_equal. Qed.
Notation E0 := (EV Identity).

Definition zstarts (P : nat -> prg) (t : tree) : Prop :=
  forall p, inside t p -> exists f l b0 b1, tree_descend f p t = Ok l /\ length b0 = vn /\ length b1 = vn /\
    P p = sup p l (SB E0 (R p 1) b0 b1).
Inductive zwaiting (Q : nat -> prg) : tree -> Prop :=
| z_leaf t : tn t <= 1 -> zwaiting Q t
| z_node t b0 b1 : 2 <= tn t -> length b0 = vn -> length b1 = vn ->
    Q (tbase t + tn t / 2) = sdn np (tbase t + tn t / 2) t
      (SB (R (tbase t) (tn t / 2)) (R (tbase t + tn t / 2) (tn t / 2 + tn t mod 2)) b0 b1) ->
    zwaiting Q (t_left t) -> zwaiting Q (t_right t) -> zwaiting Q t.

Lemma zwaiting_ext Q Q' t : (forall p, inside t p -> p <> tbase t -> Q' p = Q p) -> zwaiting Q t -> zwaiting Q' t.
Proof.
  intros H W. revert H. induction W as [t L|t b0 b1 L L0 L1 E Wl IHl Wr IHr]; intros H; [constructor; auto|].
  pose proof (half_sum (tn t)). pose proof (halves _ L).
  apply (z_node Q' t b0 b1); auto.
  - rewrite H; [exact E| |]; unfold inside; lia.
  - apply IHl. intros p Hp Hb. apply H; [apply inside_left; auto|exact Hb].
  - apply IHr. intros p Hp Hb. apply H; [apply inside_right; auto|].
    unfold inside in Hp. cbn [t_right tbase tn] in Hp. lia.
Qed.

Lemma z_up : forall n t, tn t = n -> node np t -> forall P, zstarts P t ->
  exists Q, goes np P Q /\ (forall p, p < np -> ~ inside t p -> Q p = P p) /\
    (exists b0 b1, length b0 = vn /\ length b1 = vn /\
       Q (tbase t) = sup (tbase t) t (SB E0 (R (tbase t) (tn t)) b0 b1)) /\
    zwaiting Q t.
Proof.
  induction n as [n IH] using lt_wf_ind. intros t Hn N P St.
  destruct (le_lt_dec (tn t) 1) as [L|L].
  - exists P. pose proof (node_bounds _ _ N). split; [apply goes_refl|]. split; auto.
    split; [|constructor; auto].
    destruct (St (tbase t)) as (f & l & b0 & b1 & El & L0 & L1 & E); [apply inside_base; lia|].
    rewrite descend_leaf in El by auto. injection El as <-. exists b0, b1.
    replace (tn t) with 1 by lia. auto.
  - pose proof (halves _ L) as Hh. pose proof (half_sum (tn t)) as Hs.
    pose proof (node_bounds _ _ N) as Nb. pose proof (node_child_lt _ _ N L) as [Ll Lr].
    destruct (IH (tn (t_left t)) ltac:(cbn [t_left t_right tn]; lia) (t_left t) eq_refl (node_left _ _ N L) P)
      as (Q1 & G1 & O1 & (b0 & b1 & L0 & L1 & E1) & W1).
    { intros p Hp. destruct (inside_left t p L Hp) as [Hd Hi]. destruct (St p Hi) as (f & l & c0 & c1 & El & C0 & C1 & E).
      rewrite descend_step in El by lia. destruct f as [|f]; [discriminate|]. rewrite Hd in El.
      exists f, l, c0, c1. auto. }
    destruct (IH (tn (t_right t)) ltac:(cbn [t_left t_right tn]; lia) (t_right t) eq_refl (node_right _ _ N L) Q1)
      as (Q2 & G2 & O2 & (d0 & d1 & D0 & D1 & E2) & W2).
    { intros p Hp. destruct (inside_right t p L Hp) as (Hd & Hi & Hni). destruct (St p Hi) as (f & l & c0 & c1 & El & C0 & C1 & E).
      rewrite descend_step in El by lia. destruct f as [|f]; [discriminate|]. rewrite Hd in El.
      exists f, l, c0, c1. rewrite O1; auto. unfold inside in Hi. lia. }
    set (a := tbase t) in *. set (h := tn t / 2) in *. set (b := a + h).
    assert (E1' : Q2 a = sup a (t_left t) (SB E0 (R a h) b0 b1)).
    { rewrite O2; [exact E1|lia|]. unfold inside. cbn [t_right tbase tn]. fold a h. lia. }
    assert (E2' : Q2 b = sup b (t_right t) (SB E0 (R b (h + tn t mod 2)) d0 d1)) by exact E2.
    rewrite (sup_step op np vn x a (t_left t) false (tc t)) in E1' by auto.
    rewrite (sup_step op np vn x b (t_right t) true (tc t)) in E2' by auto.
    cbv zeta in E1', E2'. rewrite up_left in E1'. rewrite up_right in E2'.
    fold a in E1', E2'. rewrite Nat.eqb_refl in E1'.
    destruct (Nat.eqb_spec a b) as [X|_]; [unfold b in X; lia|].
    cbn [sscan sred sb0 sb1] in E1', E2'. fold h b in E1'.
    set (Q3 := fun p => if p =? a then sup a t (SB E0 (R a (tn t)) (R b (h + tn t mod 2)) b1)
                       else if p =? b then sdn np b t (SB (R a h) (R b (h + tn t mod 2)) d0 d1)
                       else Q2 p).
    exists Q3. assert (Hab : a <> b) by (unfold b; lia).
    assert (Q3a : Q3 a = sup a t (SB E0 (R a (tn t)) (R b (h + tn t mod 2)) b1)) by (unfold Q3; rewrite Nat.eqb_refl; auto).
    assert (Q3b : Q3 b = sdn np b t (SB (R a h) (R b (h + tn t mod 2)) d0 d1)).
    { unfold Q3. destruct (Nat.eqb_spec b a); [congruence|]. rewrite Nat.eqb_refl. auto. }
    assert (Q3o : forall p, p <> a -> p <> b -> Q3 p = Q2 p).
    { intros p Ha Hb. unfold Q3. destruct (Nat.eqb_spec p a); [congruence|]. destruct (Nat.eqb_spec p b); [congruence|]. auto. }
    split; [|split; [|split]].
    + eapply goes_trans; [exact G1|]. eapply goes_trans; [exact G2|].
      eapply (goes_exchange np a b Q2 Q3 a b); [auto|lia|unfold b; lia| | |exact E1'|exact E2'| | |].
      * rewrite RL. auto.
      * rewrite RL. auto.
      * rewrite Q3a. rewrite over_full by (rewrite RL; auto).
        unfold b at 2, h. rewrite HR_join by auto. cbn [plift pbind]. auto.
      * rewrite Q3b. rewrite over_full by (rewrite RL, EV_len; auto). auto.
      * intros p _ Ha Hb. apply Q3o; auto.
    + intros p Hp Hi. rewrite Q3o.
      * rewrite inside_cases in Hi by auto. rewrite O2, O1 by tauto. auto.
      * intros ->. apply Hi. apply inside_base. lia.
      * intros ->. apply Hi. unfold inside. fold a. unfold b. lia.
    + exists (R b (h + tn t mod 2)), b1. rewrite RL. auto.
    + apply (z_node Q3 t d0 d1); auto.
      * apply (zwaiting_ext Q1); auto. intros p Hp Hb. unfold inside in Hp. cbn [t_left tbase tn] in Hp, Hb.
        fold a h in Hp, Hb. rewrite Q3o by (unfold b; lia). apply O2; [lia|].
        unfold inside. cbn [t_right tbase tn]. fold a h. lia.
      * apply (zwaiting_ext Q2); auto. intros p Hp Hb. unfold inside in Hp. cbn [t_right tbase tn] in Hp, Hb.
        fold a h in Hp, Hb. apply Q3o; unfold b; lia.
Qed.

Lemma z_down : forall n t, tn t = n -> node np t -> forall Q f b0 b1 y,
  tn t <= f -> length b0 = vn -> length b1 = vn ->
  Q (tbase t) = sdn f (tbase t) t (SB (EV y) (R 0 np) b0 b1) -> zwaiting Q t ->
  exists Q', goes np Q Q' /\ (forall p, p < np -> ~ inside t p -> Q' p = Q p) /\
    forall p, inside t p -> exists s, Q' p = Ret s /\ sscan s = EV (prefix (tn t) (tbase t) (tn t) p y) /\ sred s = R 0 np.
Proof.
  induction n as [n IH] using lt_wf_ind. intros t Hn N Q f b0 b1 y Hf L0 L1 E W.
  pose proof (node_bounds _ _ N) as Nb.
  destruct (le_lt_dec (tn t) 1) as [L|L].
  - exists Q. split; [apply goes_refl|]. split; auto. intros p Hp.
    assert (p = tbase t) by (unfold inside in Hp; lia). subst p. rewrite E. unfold CommProof.sdn.
    assert (X : prefix (tn t) (tbase t) (tn t) (tbase t) y = y). { destruct (tn t) as [|[|]]; [auto|auto|lia]. } rewrite X.
    destruct f; cbn [scan_down]; destruct (Nat.leb_spec (tn t) 1); try lia; eexists; (split; [reflexivity|]); split; reflexivity.
  - pose proof (halves _ L) as Hh. pose proof (half_sum (tn t)) as Hs.
    inversion W as [|t' d0 d1 _ D0 D1 E2 Wl Wr]; subst; [lia|].
    set (a := tbase t) in *. set (h := tn t / 2) in *. set (b := a + h) in *.
    destruct f as [|f]; [lia|].
    destruct np as [|np'] eqn:Enp; [lia|]. rewrite <- Enp in *.
    assert (Da : tree_down a t = t_left t).
    { apply inside_left; auto. unfold inside. cbn [t_left tbase tn]. fold a h. lia. }
    assert (Db : tree_down b t = t_right t).
    { apply inside_right; auto. unfold inside. cbn [t_right tbase tn]. fold a h. unfold b. lia. }
    assert (Ea : Q a = comm_send b a (EV y ++ R 0 np) (sdn f a (t_left t) (SB (EV y) (R 0 np) b0 b1))).
    { rewrite E. unfold CommProof.sdn. cbn [scan_down]. destruct (Nat.leb_spec (tn t) 1); [lia|].
      fold a. rewrite Nat.eqb_refl, Da. reflexivity. }
    unfold CommProof.sdn in E2. rewrite Enp in E2 at 1. cbn [scan_down] in E2.
    destruct (Nat.leb_spec (tn t) 1); [lia|]. fold a in E2.
    destruct (Nat.eqb_spec a b) as [X|_]; [unfold b in X; lia|].
    rewrite Db in E2. cbn [sscan sred sb0 sb1] in E2.
    set (yb := Combine (halving h a h) y).
    set (Q1 := fun p => if p =? a then sdn f a (t_left t) (SB (EV y) (R 0 np) b0 b1)
                       else if p =? b then sdn np' b (t_right t) (SB (EV yb) (R 0 np) (EV y) (R 0 np))
                       else Q p).
    assert (Hab : a <> b) by (unfold b; lia).
    assert (Q1a : Q1 a = sdn f a (t_left t) (SB (EV y) (R 0 np) b0 b1)) by (unfold Q1; rewrite Nat.eqb_refl; auto).
    assert (Q1b : Q1 b = sdn np' b (t_right t) (SB (EV yb) (R 0 np) (EV y) (R 0 np))).
    { unfold Q1. destruct (Nat.eqb_spec b a); [congruence|]. rewrite Nat.eqb_refl. auto. }
    assert (Q1o : forall p, p <> a -> p <> b -> Q1 p = Q p).
    { intros p Ha Hb. unfold Q1. destruct (Nat.eqb_spec p a); [congruence|]. destruct (Nat.eqb_spec p b); [congruence|]. auto. }
    assert (G1 : goes np Q Q1).
    { eapply (goes_send np a b Q Q1 a); [auto|lia|unfold b; lia| |exact Ea|exact E2| | |].
      - rewrite app_length, RL, EV_len. lia.
      - exact Q1a.
      - rewrite Q1b. cbn [map]. rewrite over_full by (rewrite !app_length, RL, EV_len; lia).
        rewrite firstn_app, EV_len, Nat.sub_diag, firstn_O, app_nil_r.
        rewrite firstn_all2 by (rewrite EV_len; auto).
        rewrite skipn_app, EV_len, Nat.sub_diag, skipn_O, skipn_all2 by (rewrite EV_len; auto).
        cbn [app]. rewrite EV_join. cbn [plift pbind]. reflexivity.
      - intros p _ Ha Hb. apply Q1o; auto. }
    destruct (IH (tn (t_left t)) ltac:(cbn [t_left t_right tn]; fold h; lia) (t_left t) eq_refl (node_left _ _ N L) Q1 f b0 b1 y)
      as (Q2 & G2 & O2 & F2); auto.
    { cbn [t_left tn]. fold h. lia. }
    { apply (zwaiting_ext Q); auto. intros p Hp Hb. unfold inside in Hp. cbn [t_left tbase tn] in Hp, Hb.
      fold a h in Hp, Hb. apply Q1o; unfold b; lia. }
    destruct (IH (tn (t_right t)) ltac:(cbn [t_left t_right tn]; fold h; lia) (t_right t) eq_refl (node_right _ _ N L) Q2 np' (EV y) (R 0 np) yb)
      as (Q3 & G3 & O3 & F3); auto using EV_len, RL.
    { cbn [t_right tn]. fold h. lia. }
    { cbn [t_right tbase]. fold a h. fold b. rewrite O2; [exact Q1b|unfold b; lia|].
      unfold inside. cbn [t_left tbase tn]. fold a h. unfold b. lia. }
    { apply (zwaiting_ext Q); auto. intros p Hp Hb. unfold inside in Hp. cbn [t_right tbase tn] in Hp, Hb.
      fold a h in Hp, Hb. rewrite O2; [apply Q1o; unfold b; lia|lia|].
      unfold inside. cbn [t_left tbase tn]. fold a h. lia. }
    exists Q3. split; [|split].
    + eapply goes_trans; [exact G1|]. eapply goes_trans; eauto.
    + intros p Hp Hi. rewrite inside_cases in Hi by auto. rewrite O3, O2 by tauto. apply Q1o.
      * intros ->. apply Hi. left. unfold inside. cbn [t_left tbase tn]. fold a h. lia.
      * intros ->. apply Hi. right. unfold inside. cbn [t_right tbase tn]. fold a h. unfold b. lia.
    + intros p Hp. assert (Bp : p < np) by (unfold inside in Hp; fold a in Hp; lia). rewrite (prefix_step (tn t) a p y L). fold h. apply inside_cases in Hp; auto. destruct Hp as [Hp|Hp].
      * destruct (Nat.ltb_spec p (a + h)); [|unfold inside in Hp; cbn [t_left tbase tn] in Hp; fold a h in Hp; lia].
        rewrite O3; [exact (F2 p Hp)|auto|].
        intros Hr. unfold inside in Hr. cbn [t_right tbase tn] in Hr. fold a h in Hr. lia.
      * destruct (Nat.ltb_spec p (a + h)); [unfold inside in Hp; cbn [t_right tbase tn] in Hp; fold a h in Hp; lia|].
        replace (tn t - h) with (h + tn t mod 2) by (unfold h; lia). exact (F3 p Hp).
Qed.
End Scan.

Theorem scan_goes_any {T} (op : T -> T -> T) (e : T) np vn (v scan buffer : nat -> list T) : 1 <= np ->
  (forall p, p < np -> length (v p) = vn /\ length (scan p) = 2 * vn /\ length (buffer p) = 2 * vn) ->
  goes np (fun p => comm_scan op e np p vn (v p) (scan p) (buffer p))
    (fun p => Ret (vec vn (fun i => eval op e (fun q _ _ => nth i (v q) e) (prefix np 0 np p Identity)) ++
                   vec vn (fun i => eval op e (fun q _ _ => nth i (v q) e) (halving np 0 np)))).
Proof.
  intros Hnp Hl. set (x := fun q i => nth i (v q) e).
  assert (Hd : forall p, p < np -> exists l, tree_descend np p (tree_root np) = Ok l).
  { intros p Hp. apply descend_ok; [unfold inside; simpl; lia|simpl; lia]. }
  set (lf := fun p => match tree_descend np p (tree_root np) with Ok l => l | _ => tree_root np end).
  set (P0 := fun p => sup op np vn p (lf p) (SB (EV op e vn x Identity) (HR op e vn x p 1) (firstn vn (buffer p)) (skipn vn (buffer p)))).
  pose proof (node_root np Hnp) as N.
  destruct (z_up op e np vn x np (tree_root np) eq_refl N P0) as (Q1 & G1 & _ & (b0 & b1 & L0 & L1 & E1) & W1).
  { intros p Hp. unfold inside in Hp. simpl in Hp. destruct (Hd p) as (l & El); [lia|].
    destruct (Hl p) as (_ & _ & Lb); [lia|].
    exists np, l, (firstn vn (buffer p)), (skipn vn (buffer p)). split; auto.
    rewrite firstn_length, skipn_length. split; [lia|]. split; [lia|]. unfold P0, lf. rewrite El. auto. }
  destruct (z_down op e np vn x np (tree_root np) eq_refl N Q1 np b0 b1 Identity) as (Q & G2 & _ & F); auto.
  { cbn [tree_root tbase tn] in *. rewrite E1. unfold sup, sdn. cbn [tree_root tc scan_up tn]. rewrite Nat.leb_refl. auto. }
  assert (F' : forall p, p < np -> exists s, Q p = Ret s /\ sscan s = EV op e vn x (prefix np 0 np p Identity) /\ sred s = HR op e vn x 0 np).
  { intros p Hp. apply F. unfold inside. simpl. lia. }
  set (r := fun p => match Q p with Ret s => s | _ => SB [] [] [] [] end).
  assert (G' : goes np P0 (fun p => Ret (r p))).
  { eapply goes_trans; [exact G1|]. eapply goes_trans; [exact G2|]. apply goes_ext. intros p Hp. destruct (F' p Hp) as (s & E & _).
    unfold r. rewrite E. auto. }
  eapply goes_trans; [|eapply goes_trans; [exact (goes_bind np (fun _ s => Ret (sscan s ++ sred s)) P0 r G')|]].
  - apply goes_ext. intros p Hp. unfold comm_scan. destruct (Hd p Hp) as (l & El). rewrite El.
    cbn [plift pbind]. destruct (Hl p Hp) as (Lv & Ls & Lb).
    rewrite init_array_vec by (rewrite firstn_length; lia). cbn [plift pbind].
    unfold P0, sup, lf. rewrite El.
    replace (over (firstn vn (v p)) (skipn vn (scan p))) with (HR op e vn x p 1); [reflexivity|].
    rewrite over_full by (rewrite firstn_length, skipn_length; lia).
    rewrite firstn_all2 by lia. unfold HR. rewrite <- (nth_vec_eq (v p) vn e Lv). apply vec_ext. intros i Hi. auto.
  - apply goes_ext. intros p Hp. destruct (F' p Hp) as (s & E & E3 & E2). unfold r. rewrite E.
    rewrite E3, E2. reflexivity.
Qed.
