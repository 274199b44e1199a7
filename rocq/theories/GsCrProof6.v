(** The crystal-router method: setup from a list of exchanged labels, and execution. *)
From Verif Require Import Base BaseLemmas Net NetProof Sort SortSpec SortLemmas Transfer TransferProof2 OpsSpec CommSpec CommProof Kernels KernelSpec KernelProof ListLemmas Crystal CrystalProof
  GsTop GsSpec GsSortProof GsTopProof1 GsTopProof4 GsExec GsCr Gs GsKernProof GsPwProof1 GsPwProof2 GsPwProof3 GsArProof GsLocalProof GsRunProof GsCrProof1 GsCrProof2 GsCrProof3 GsCrProof4 GsCrProof5.
From Coq Require Import Permutation.

(** ** crl_work_init *)
Section Init.
Variable me : nat.
Variable m : bool.
Definition self_item (s : shared_id) : crl_id := CI (s_id s) me (s_i s) (s_i s) 0 0.
Definition send_item (s : shared_id) : crl_id := CI (s_id s) (s_p s) (s_ri s) (s_i s) 0 0.
Definition sends_it (s : shared_id) : bool := negb (masked m s).
Definition selfs_it (s : shared_id) : bool := negb (masked (negb m) s) && negb (s_local s).

Lemma init_sound : forall sh last added w, In w (crl_work_init me m last added sh) ->
  exists s, In s sh /\ (sends_it s = true /\ w = send_item s \/ selfs_it s = true /\ w = self_item s).
Proof.
  induction sh as [|s sh IH]; intros last added w Hw; cbn [crl_work_init] in Hw; [destruct Hw|].
  apply in_app_or in Hw as [Hw|Hw]; [|apply in_app_or in Hw as [Hw|Hw]].
  - exists s. split; [left; auto|]. right. unfold selfs_it.
    destruct (negb (if s_i s =? last then added else false) && negb (masked (negb m) s)) eqn:E; cbn [andb] in Hw; [|destruct Hw].
    apply andb_true_iff in E as [_ ->]. destruct (negb (s_local s)); [|destruct Hw]. destruct Hw as [<-|[]]. auto.
  - exists s. split; [left; auto|]. left. unfold sends_it. destruct (negb (masked m s)); [|destruct Hw]. destruct Hw as [<-|[]]. auto.
  - destruct (IH _ _ _ Hw) as (s' & Hs & H). exists s'. split; [right; auto|auto].
Qed.
Lemma init_sends : forall sh last added s, In s sh -> sends_it s = true -> In (send_item s) (crl_work_init me m last added sh).
Proof.
  induction sh as [|s0 sh IH]; intros last added s Hs E; [destruct Hs|]. cbn [crl_work_init]. apply in_or_app. right. apply in_or_app. destruct Hs as [->|Hs].
  - left. unfold sends_it in E. rewrite E. left; auto.
  - right. apply IH; auto.
Qed.
Lemma init_selfs : forall sh last added s, (forall a b, In a sh -> In b sh -> s_i a = s_i b -> s_id a = s_id b) -> In s sh -> selfs_it s = true ->
  In (self_item s) (crl_work_init me m last added sh) \/ added = true /\ s_i s = last.
Proof.
  induction sh as [|s0 sh IH]; intros last added s INJ Hs E; [destruct Hs|]. cbn [crl_work_init].
  set (add' := if s_i s0 =? last then added else false). set (add := negb add' && negb (masked (negb m) s0) && negb (s_local s0)).
  assert (ADD' : add' = true -> added = true /\ s_i s0 = last) by (unfold add'; destruct (Nat.eqb_spec (s_i s0) last); [auto|discriminate]).
  destruct Hs as [->|Hs].
  - destruct add' eqn:Ea; [right; apply ADD'; auto|]. left. apply in_or_app. left. unfold add. rewrite <- andb_assoc. unfold selfs_it in E. rewrite E. left; auto.
  - destruct (IH (s_i s0) (add' || add) s) as [H|[H1 H2]]; auto.
    + intros a b Ha Hb. apply INJ; right; auto.
    + left. apply in_or_app. right. apply in_or_app. right. auto.
    + apply orb_true_iff in H1 as [H1|H1].
      * right. destruct (ADD' H1). split; auto. congruence.
      * left. apply in_or_app. left. rewrite H1. left. unfold self_item. rewrite H2. f_equal. apply INJ; [left|right|]; auto.
Qed.
Lemma init_length : forall sh last added, length (crl_work_init me m last added sh) <= 2 * length sh.
Proof.
  induction sh as [|s0 sh IH]; intros last added; cbn [crl_work_init length]; auto. rewrite !app_length.
  match goal with |- context [crl_work_init me m ?a ?b sh] => specialize (IH a b) end.
  destruct (_ && negb (s_local s0)), (negb (masked m s0)); cbn [length]; lia.
Qed.
End Init.

Section Plan.
Variable usize lsize np : nat.
Hypothesis np1 : 1 <= np.
Variable H FL : nat -> nat -> bool.
Variable ex : nat -> nat -> nat -> bool.
Variable PI : nat -> nat -> nat.
Variable n : nat -> nat.
Hypothesis ok : plan_ok usize lsize np H FL ex PI n.
Notation canon := (canon lsize np FL ex PI).
Variable LB : list nat.
Hypothesis LB_in : forall x p, p < np -> x <> 0 -> H x p = true -> (exists q, q < np /\ q <> p /\ H x q = true) -> In x LB.
Hypothesis LB_has : forall x, In x LB -> x < ulim lsize.
Hypothesis LB_size : 3 * length LB <= UINT_MAX usize.
Hypothesis canon_size : 2 * length (concat (map canon (seq 0 np))) < ulim usize.
Notation UMAX := (UINT_MAX usize).

(** Sources and destinations of the data of a label. *)
Definition src (t : bool) (x o : nat) : bool := negb (x =? 0) && (o <? np) && H x o && (t || negb (FL x o)).
Definition dst (t : bool) (x d : nat) : bool :=
  negb (x =? 0) && (d <? np) && H x d && negb (t && FL x d) && existsb (fun q => negb (q =? d) && src t x q) (seq 0 np).

Lemma src_iff t x o : src t x o = true <-> x <> 0 /\ o < np /\ H x o = true /\ (t = true \/ FL x o = false).
Proof. unfold src. rewrite !andb_true_iff, orb_true_iff, !negb_true_iff, Nat.eqb_neq, Nat.ltb_lt. tauto. Qed.
Lemma dst_iff t x d : dst t x d = true <-> x <> 0 /\ d < np /\ H x d = true /\ t && FL x d = false /\ exists q, q <> d /\ src t x q = true.
Proof.
  unfold dst. rewrite !andb_true_iff, !negb_true_iff, Nat.eqb_neq, Nat.ltb_lt, existsb_exists.
  assert (E : (exists q, In q (seq 0 np) /\ negb (q =? d) && src t x q = true) <-> exists q, q <> d /\ src t x q = true).
  { split.
    - intros (q & _ & E). apply andb_true_iff in E as [E1 E2]. apply negb_true_iff, Nat.eqb_neq in E1. eauto.
    - intros (q & N & E). exists q. split; [apply in_seq; apply src_iff in E; lia|]. apply andb_true_iff. split; auto. apply negb_true_iff, Nat.eqb_neq; auto. }
  rewrite E. tauto.
Qed.

Lemma ex_iff x p q : p < np -> q < np -> x <> 0 -> (FL x p = false \/ FL x q = false) -> (ex x p q = true <-> H x p = true /\ H x q = true /\ p <> q).
Proof.
  intros Hp Hq Hx F. split; [intros E; apply (pk_ex1 _ _ _ _ _ _ _ _ ok) in E; auto|]. intros (A & B & C). apply (pk_ex2 _ _ _ _ _ _ _ _ ok); auto.
Qed.

Lemma items_ok t p sh w : p < np -> Permutation (map erase sh) (canon p) ->
  (In w (crl_work_init p t UMAX false sh) <-> exists x d, src t x p = true /\ dst t x d = true /\ w = CI x d (PI d x) (PI p x) 0 0).
Proof.
  intros Hp P.
  assert (IN : forall s, In s sh -> exists q x, q < np /\ x <> 0 /\ ex x p q = true /\ s_id s = x /\ s_i s = PI p x /\ s_p s = q /\ s_ri s = PI q x /\ s_local s = FL x p /\ s_remote s = FL x q).
  { intros s Hs. apply (in_map erase) in Hs. apply (Permutation_in _ P) in Hs. unfold GsPwProof2.canon in Hs. apply in_flat_map in Hs as (q & Hq & Hs).
    apply in_seq in Hq. apply in_map_iff in Hs as (x & E & Hx). apply (in_xs usize lsize np H FL ex PI n) in Hx as [Hx He]; [|auto|auto|lia].
    exists q, x. unfold erase, row in E. injection E as E1 E2 E3 E4 E5 E6. repeat split; auto; lia. }
  assert (OUT : forall q x, q < np -> x <> 0 -> ex x p q = true -> exists s, In s sh /\ s_id s = x /\ s_i s = PI p x /\ s_p s = q /\ s_ri s = PI q x /\ s_local s = FL x p /\ s_remote s = FL x q).
  { intros q x Hq Hx He. assert (Hr : In (row FL PI p q x) (canon p)).
    { unfold GsPwProof2.canon. apply in_flat_map. exists q. split; [apply in_seq; lia|]. apply in_map_iff. exists x. split; auto. apply (in_xs usize lsize np H FL ex PI n); auto. }
    apply (Permutation_in _ (Permutation_sym P)) in Hr. apply in_map_iff in Hr as (s & E & Hs). exists s. unfold erase, row in E. injection E as E1 E2 E3 E4 E5 E6. repeat split; auto. }
  split.
  - intros Hw. apply init_sound in Hw as (s & Hs & Hw). destruct (IN s Hs) as (q & x & Hq & Hx & He & E1 & E2 & E3 & E4 & E5 & E6).
    destruct (pk_ex1 _ _ _ _ _ _ _ _ ok x p q Hp Hq He) as (Hhp & Hhq & Npq).
    unfold sends_it, selfs_it, masked in Hw. rewrite E5, E6 in Hw. exists x. destruct Hw as [[C ->]|[C ->]].
    + exists q. assert (SP : src t x p = true) by (apply src_iff; destruct t; apply negb_true_iff in C; auto).
      split; auto. split; [|unfold send_item; congruence]. apply dst_iff. repeat split; auto.
      * destruct t; auto. cbn. apply negb_true_iff in C. auto.
      * exists p. auto.
    + exists p. apply andb_true_iff in C as [C1 C2]. apply negb_true_iff in C1, C2.
      split; [apply src_iff; auto|]. split; [|unfold self_item; congruence]. apply dst_iff. repeat split; auto.
      * rewrite C2, andb_false_r. auto.
      * exists q. split; auto. apply src_iff. destruct t; auto.
  - intros (x & d & Hs & Hd & ->). apply src_iff in Hs as (Hx & _ & Hhp & Hfp). apply dst_iff in Hd as (_ & Hd & Hhd & Hfd & q & Nq & Hq).
    destruct (Nat.eq_dec d p) as [->|Nd].
    + apply src_iff in Hq as (_ & Hq & Hhq & Hfq).
      assert (FP : FL x p = false) by (destruct t; [exact Hfd|destruct Hfp; [discriminate|auto]]).
      destruct (OUT q x Hq Hx) as (s & Hin & E1 & E2 & E3 & E4 & E5 & E6); [apply ex_iff; auto|].
      destruct (init_selfs p t sh UMAX false s) as [R|[R _]]; auto; [| | |discriminate].
      * intros a b Ha Hb E. destruct (IN a Ha) as (qa & xa & Hqa & Hxa & Hea & A1 & A2 & _), (IN b Hb) as (qb & xb & Hqb & Hxb & Heb & B1 & B2 & _).
        rewrite A1, B1. apply (pk_inj _ _ _ _ _ _ _ _ ok xa xb p); auto; try congruence.
        -- apply (pk_ex1 _ _ _ _ _ _ _ _ ok) in Hea; tauto.
        -- apply (pk_ex1 _ _ _ _ _ _ _ _ ok) in Heb; tauto.
      * unfold selfs_it, masked. rewrite E5, E6, FP. cbn [negb]. rewrite andb_true_r. destruct t; cbn [negb]; auto. destruct Hfq as [?| ->]; [discriminate|auto].
      * unfold self_item in R. rewrite E1, E2 in R. auto.
    + destruct (OUT d x Hd Hx) as (s & Hin & E1 & E2 & E3 & E4 & E5 & E6).
      { apply ex_iff; auto. destruct t; cbn in Hfd; [auto|]. destruct Hfp; [discriminate|auto]. }
      pose proof (init_sends p t sh UMAX false s Hin) as R. unfold send_item in R. rewrite E1, E2, E3, E4 in R. apply R.
      unfold sends_it, masked. rewrite E5, E6. destruct t; cbn in Hfd; [rewrite Hfd; auto|]. destruct Hfp as [?| ->]; [discriminate|auto].
Qed.

Notation A0 := (fun p : nat => [(p, PI p)] : list origin).
Lemma sok_stages t (sh : nat -> list shared_id) : (forall p, p < np -> Permutation (map erase (sh p)) (canon p)) ->
  exists sts smx, sok usize (src t) (dst t) PI 0 np A0 sts /\
    (forall p, p < np -> smx p <= UMAX /\ forall st, In st (sts p) -> c_total st <= smx p) /\
    goes np (fun p => cr_learn usize lsize p (cr_schedule p np 0 np) 0 np np [] 0 (crl_work_init p t UMAX false (sh p))) (fun p => Ret (sts p, smx p)).
Proof.
  intros P. pose proof (UINT_lt usize) as UL.
  assert (PF : forall x d, dst t x d = true -> PI d x < ulim usize).
  { intros x d Hd. apply dst_iff in Hd as (Hx & Hd & Hh & _). pose proof (pk_pi _ _ _ _ _ _ _ _ ok x d Hd Hx Hh). pose proof (pk_n _ _ _ _ _ _ _ _ ok d Hd). lia. }
  destruct (learn_goes usize lsize (pk_us _ _ _ _ _ _ _ _ ok) np (Nat.lt_le_incl _ _ (pk_np _ _ _ _ _ _ _ _ ok)) (src t) (dst t) PI LB) with
    (n := np) (bl := 0) (fuel := np) (A := A0) (cw := fun p => crl_work_init p t UMAX false (sh p)) as (sts & smx & SK & SZ & G); auto.
  - intros x o d _ Hd. apply dst_iff in Hd as (Hx & Hd & Hh & _ & q & Nq & Hq). apply src_iff in Hq. apply (LB_in x d); auto. exists q. tauto.
  - intros x y d Hx Hy. apply dst_iff in Hx as (Hx & Hd & Hhx & _), Hy as (Hy & _ & Hhy & _). apply (pk_inj _ _ _ _ _ _ _ _ ok); auto.
  - intros p [_ Hp]. cbn [Nat.add] in Hp. constructor.
    + intros w Hw. apply (items_ok t p (sh p) w Hp (P p Hp)) in Hw as (x & d & Hs & Hd & ->). cbn [ci_id ci_p ci_ri ci_si].
      split; [exists (p, PI p); split; [left|]; auto|]. split; auto. apply dst_iff in Hd as (_ & Hd & _). split; [lia|]. split; auto.
      apply src_iff in Hs as (Hx & _ & Hh & _). pose proof (pk_pi _ _ _ _ _ _ _ _ ok x p Hp Hx Hh). pose proof (pk_n _ _ _ _ _ _ _ _ ok p Hp). lia.
    + intros a x d [<-|[]] Hs Hd _. cbn [fst snd] in *. exists (CI x d (PI d x) (PI p x) 0 0). split; auto. apply (items_ok t p (sh p) _ Hp (P p Hp)). eauto.
  - eapply Nat.le_lt_trans; [|exact canon_size].
    assert (B : forall l, (forall p, In p l -> p < np) -> length (concat (map (fun p => crl_work_init p t UMAX false (sh p)) l)) <= 2 * length (concat (map canon l))).
    { induction l as [|p l IH]; intros Hl; cbn [map concat]; auto. rewrite !app_length. specialize (IH (fun q Hq => Hl q (or_intror Hq))).
      pose proof (init_length p t (sh p) UMAX false). rewrite <- (Permutation_length (P p (Hl p (or_introl eq_refl)))), map_length. lia. }
    apply B. intros p Hp. apply in_seq in Hp. lia.
  - exists sts, smx. split; auto. split.
    + intros p Hp. destruct (SZ p ltac:(lia)) as [S1 S2]. split; [lia|auto].
    + eapply goes_trans; [apply (G np (fun _ => []) (fun _ => 0)); intros p Hp; reflexivity|]. apply goes_ext. intros p Hp.
      unfold inI. cbn [Nat.leb Nat.add andb]. apply Nat.ltb_lt in Hp. rewrite Hp. reflexivity.
Qed.

Definition cr_ok (d : nat -> cr_data) : Prop :=
  sok usize (src false) (dst false) PI 0 np A0 (fun p => cr_stage0 (d p)) /\ sok usize (src true) (dst true) PI 0 np A0 (fun p => cr_stage1 (d p)) /\
  forall p, p < np -> cr_sbs (d p) <= UMAX /\ forall st, In st (cr_stage0 (d p)) \/ In st (cr_stage1 (d p)) -> c_total st <= cr_sbs (d p).

Theorem cr_setup_goes (sh : nat -> list shared_id) : (forall p, p < np -> Permutation (map erase (sh p)) (canon p)) ->
  exists d sh', (forall p, p < np -> Permutation (map erase (sh' p)) (canon p)) /\ cr_ok d /\
    goes np (fun p => cr_setup usize lsize np p (sh p)) (fun p => Ret (d p, sh' p)).
Proof.
  intros P. pose proof (UINT_lt usize) as UL.
  destruct (finite_choice (fun p sh' => sort_by usize lsize [KU s_i] (sh p) = Ok sh' /\ Permutation (map erase sh') (canon p)) [] np) as [sh' HS].
  { intros p Hp. destruct (sort_by_1 usize lsize (KU s_i) (sh p)) as (B & E & [PB _ _]).
    - intros s Hs. apply (in_sh lsize np FL ex PI p _ _ (P p Hp)) in Hs. unfold GsPwProof2.canon in Hs. apply in_flat_map in Hs as (q & Hq & Hs). apply in_seq in Hq.
      apply in_map_iff in Hs as (x & Ex & Hx). apply (in_xs usize lsize np H FL ex PI n) in Hx as [Hx He]; [|auto|auto|lia].
      unfold erase, row in Ex. injection Ex as E1 E2 E3 E4 E5 E6. cbn. rewrite <- E2.
      apply (pk_ex1 _ _ _ _ _ _ _ _ ok) in He; [|auto|lia]. destruct He as (Hh & _). pose proof (pk_pi _ _ _ _ _ _ _ _ ok x p Hp Hx Hh). pose proof (pk_n _ _ _ _ _ _ _ _ ok p Hp). lia.
    - exists B. split; auto. rewrite <- (P p Hp). apply Permutation_map. apply Permutation_sym; auto. }
  assert (P' : forall p, p < np -> Permutation (map erase (sh' p)) (canon p)) by (intros p Hp; apply HS; auto).
  destruct (sok_stages false sh' P') as (st0 & m0 & S0 & B0 & G0). destruct (sok_stages true sh' P') as (st1 & m1 & S1 & B1 & G1).
  exists (fun p => CR (st0 p) (st1 p) (Nat.max (m0 p) (m1 p))), sh'. split; auto. split.
  - split; [exact S0|]. split; [exact S1|]. intros p Hp. destruct (B0 p Hp) as [L0 T0], (B1 p Hp) as [L1 T1]. cbn [cr_sbs cr_stage0 cr_stage1]. split; [lia|].
    intros st [Hst|Hst]; [apply T0 in Hst|apply T1 in Hst]; lia.
  - eapply goes_trans; [apply goes_ext; intros p Hp; unfold cr_setup; cbv zeta; destruct (HS p Hp) as [-> _]; cbn [plift pbind]; reflexivity|].
    eapply goes_trans.
    { exact (goes_bind np (fun p r0 => pbind (cr_learn usize lsize p (cr_schedule p np 0 np) 0 np np [] 0 (crl_work_init p true UMAX false (sh' p)))
        (fun r1 => Ret (CR (fst r0) (fst r1) (Nat.max (snd r0) (snd r1)), sh' p))) _ _ G0). }
    cbn [pbind fst snd].
    exact (goes_bind np (fun p r1 => Ret (CR (st0 p) (fst r1) (Nat.max (m0 p) (snd r1)), sh' p)) _ _ G1).
Qed.

(** ** Execution *)
Section Run.
Context {T : Type}.
Variable op : T -> T -> T.
Variable e : T.
Hypothesis M : cmonoid op e.
Variable mode : gs_mode.
Variable vn : nat.
Variable t : bool.
Variable d : nat -> cr_data.
Hypothesis d_ok : cr_ok d.
Variable f : nat -> nat -> nat -> T.
Variable u : nat -> udata T.
Hypothesis u_ok : forall p, p < np -> data_ok mode vn (u p) (n p) (f p).
Variable buf : nat -> list T.
Hypothesis buf_len : forall p, p < np -> length (buf p) = vn * cr_buffer_size (d p).
Hypothesis neut : neutral e np vn H FL PI t f.

Lemma crossed_exchanged p g : p < np -> crossed op e (src t) (dst t) PI vn f (seq 0 np) p g -> exchanged op e np vn H FL PI n t f p g.
Proof.
  intros Hp [C1 C2]. constructor.
  - intros x k Hx Hh Hf Hk.
    assert (SC : forall q, q < np -> (src t x q = true <-> H x q = true /\ (t || negb (FL x q)) = true)).
    { intros q Hq. rewrite src_iff, orb_true_iff, negb_true_iff. tauto. }
    assert (EF : filter (src t x) (seq 0 np) = filter (fun q => H x q && (t || negb (FL x q))) (seq 0 np)).
    { apply filter_ext_in. intros q Hq. apply in_seq in Hq. apply eq_true_iff_eq. rewrite andb_true_iff. apply SC. lia. }
    destruct (dst t x p) eqn:Ed.
    + rewrite C1; auto; [unfold sumO, combined; rewrite EF; auto|]. apply dst_iff in Ed as (_ & _ & _ & _ & q & _ & Hq). exists q. split; auto.
      apply in_seq. apply src_iff in Hq. lia.
    + assert (NO : forall q, q < np -> q <> p -> src t x q = false).
      { intros q Hq Nq. destruct (src t x q) eqn:Eq; auto. assert (dst t x p = true); [|congruence]. apply dst_iff. repeat split; auto. eauto. }
      rewrite C2.
      * unfold combined. rewrite <- EF. destruct (src t x p) eqn:Es.
        -- rewrite (fold_extract op e M (fun q => f q (PI q x) k) (src t x) p); [|apply seq_NoDup|apply in_seq; lia|auto].
           rewrite filter_nil_all; auto. intros q Hq. apply in_seq in Hq. destruct (Nat.eqb_spec p q) as [->|N]; [apply andb_false_r|].
           rewrite NO; [auto|lia|auto].
        -- rewrite filter_nil_all.
           ++ cbn. destruct t eqn:Et; [exfalso|].
              ** apply not_true_iff_false in Es. apply Es. apply src_iff. auto.
              ** apply neut; auto. destruct (FL x p) eqn:Ef; auto. exfalso. apply not_true_iff_false in Es. apply Es. apply src_iff. auto.
           ++ intros q Hq. apply in_seq in Hq. destruct (Nat.eq_dec q p) as [->|N]; auto. apply NO; [lia|auto].
      * intros y _ Hy E. apply dst_iff in Hy as Hy'. destruct Hy' as (Hy0 & _ & Hyh & _).
        assert (x = y) by (apply (pk_inj _ _ _ _ _ _ _ _ ok x y p); auto). congruence.
  - intros i k Hi Hk HN. apply C2. intros x _ Hx. apply dst_iff in Hx as (Hx & _ & Hh & Hf & _). apply HN; auto.
Qed.

Theorem cr_exec_goes : exists u' g,
  (forall p, p < np -> data_ok mode vn (u' p) (n p) (g p) /\ exchanged op e np vn H FL PI n t f p (g p)) /\
  goes np (fun p => cr_exec op UMAX mode vn np t (d p) (u p) (buf p)) (fun p => Ret (u' p)).
Proof.
  destruct d_ok as (S0 & S1 & BD).
  assert (SK : sok usize (src t) (dst t) PI 0 np A0 (fun p => if t then cr_stage1 (d p) else cr_stage0 (d p))) by (destruct t; auto).
  destruct (exec_goes op e M usize np (src t) (dst t) PI n (pk_n _ _ _ _ _ _ _ _ ok) mode vn f (fun p => cr_sbs (d p))) with
    (bl := 0) (N := np) (A := A0) (sts := fun p => if t then cr_stage1 (d p) else cr_stage0 (d p)) (K := 0) (u := u)
    (old := fun p => firstn (cr_sbs (d p) * vn) (buf p)) (new := fun p => firstn (cr_sbs (d p) * vn) (skipn (cr_sbs (d p) * vn) (buf p))) as (u' & g & D & G); auto.
  - intros p Hp. apply BD; auto.
  - intros x o Hs Ho. apply src_iff in Hs as (Hx & _ & Hh & _). apply (pk_pi _ _ _ _ _ _ _ _ ok); auto.
  - intros x o Hs Ho. apply dst_iff in Hs as (Hx & _ & Hh & _). apply (pk_pi _ _ _ _ _ _ _ _ ok); auto.
  - intros p Hp. apply u_ok. lia.
  - intros p Hp. rewrite !firstn_length, skipn_length, buf_len by lia. unfold cr_buffer_size. nia.
  - intros p st Hp Hst. apply BD; [lia|]. destruct t; auto.
  - intros p Hp. reflexivity.
  - intros _ E x [_ (dd & Hd & Hdx)]. assert (dd = 0) by lia. subst dd. apply dst_iff in Hdx as (_ & _ & _ & _ & q & Nq & Hq). apply src_iff in Hq. lia.
  - exists u', g. split.
    + intros p Hp. destruct (D p ltac:(lia)) as [D1 D2]. split; auto. apply crossed_exchanged; auto.
      assert (E : forall l, concat (map (fun p => map fst (A0 p)) l) = l) by (clear; induction l as [|q l IH]; cbn in *; congruence).
      rewrite E in D2. exact D2.
    + eapply goes_trans; [apply G; intros p Hp; reflexivity|]. apply goes_ext. intros p Hp. unfold inI. cbn [Nat.leb Nat.add andb]. apply Nat.ltb_lt in Hp. rewrite Hp. auto.
Qed.
End Run.
End Plan.
