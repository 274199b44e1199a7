(** igs and gs_wait, from the user's view. *)
From Verif Require Import Base BaseLemmas Net NetProof NetOverlap Sort SortSpec Transfer TransferProof2 OpsSpec ListLemmas
  GsTop GsSpec GsTopProof1 GsTopProof4 GsExec GsCr Gs GsKernProof GsRunProof GsSetupProof GsSetupProof2
  GsUserSpec GsUserProof GsIgsSpec GsIgsProof.

(** The method of the handles of a set-up. *)
Lemma setup_method usize lsize INT_MAX np ids m hs : setup_fits usize lsize INT_MAX np ids ->
  setup_gives usize lsize INT_MAX np ids false m hs ->
  exists N, one_method np m N (fun p => g_r (hs p)) /\ exists ord, numbering np ids ord N.
Proof.
  intros F G. destruct (gs_setup_method usize lsize INT_MAX np ids m F) as (g & N & (_ & OM & Num) & G'). apply goes_always_fun in G'.
  pose proof (returns_fun_at np _ g hs G' G) as E. exists N. split; auto.
  destruct OM as (m' & H & A). exists m'. split; auto. intros p Hp. rewrite <- E by auto. auto.
Qed.
Lemma setup_all_reduce usize lsize INT_MAX np ids m hs : setup_fits usize lsize INT_MAX np ids ->
  setup_gives usize lsize INT_MAX np ids false m hs -> (forall p, p < np -> is_all_reduce (hs p)) ->
  exists N, (forall p, p < np -> exists d, g_r (hs p) = RAr d /\ ar_buffer_size d = N * 2) /\ exists ord, numbering np ids ord N.
Proof.
  intros F G H. destruct (setup_method _ _ _ _ _ _ _ F G) as (N & (m' & U & _) & Num). exists N. split; auto.
  intros p Hp. specialize (U p Hp). destruct (H p Hp) as [d Hd]. rewrite Hd in U. exists d. split; auto. destruct m'; cbn in U; tauto.
Qed.

Lemma pos_in_has l z : (0 < z)%Z -> In z l -> has l (Z.to_nat z) = true /\ only_flagged l (Z.to_nat z) = false.
Proof.
  intros Hz Hin. destruct (In_nth _ _ 0%Z Hin) as (i & Hi & E).
  assert (A : In i (all_at l (Z.to_nat z))). { apply in_all_at. split; auto. unfold label_at, id_at. rewrite E. lia. }
  assert (B : In i (unflagged_at l (Z.to_nat z))).
  { apply in_unflagged_at. split; auto. split; [unfold label_at, id_at; rewrite E; lia|]. unfold is_flagged, id_at. rewrite E. lia. }
  unfold has, only_flagged. destruct (all_at _ _); [destruct A|]. destruct (unflagged_at _ _); [destruct B|]. auto.
Qed.
Lemma neg_in_has l z : (0 < z)%Z -> In (- z)%Z l -> has l (Z.to_nat z) = true.
Proof.
  intros Hz Hin. destruct (In_nth _ _ 0%Z Hin) as (i & Hi & E).
  assert (A : In i (all_at l (Z.to_nat z))). { apply in_all_at. split; auto. unfold label_at, id_at. rewrite E. lia. }
  unfold has. destruct (all_at _ _); [destruct A|]. auto.
Qed.
Lemma has_in l x : x <> 0 -> has l x = true -> In (Z.of_nat x) l \/ In (- Z.of_nat x)%Z l.
Proof.
  intros Hx Hh. unfold has in Hh. destruct (all_at l x) as [|i r] eqn:E; [discriminate|].
  assert (A : In i (all_at l x)) by (rewrite E; left; auto). apply in_all_at in A as [Hi A]. unfold label_at, id_at in A.
  assert (B : In (nth i l 0%Z) l) by (apply nth_In; auto). destruct (Z.ltb_spec (nth i l 0%Z) 0).
  - right. replace (- Z.of_nat x)%Z with (nth i l 0%Z) by lia. auto.
  - left. replace (Z.of_nat x) with (nth i l 0%Z) by lia. auto.
Qed.
Lemma unflagged_in l x : x <> 0 -> only_flagged l x = false -> In (Z.of_nat x) l.
Proof.
  intros Hx Hh. unfold only_flagged in Hh. destruct (unflagged_at l x) as [|i r] eqn:E; [discriminate|].
  assert (A : In i (unflagged_at l x)) by (rewrite E; left; auto). apply in_unflagged_at in A as (Hi & A & F). unfold label_at, id_at in A.
  unfold is_flagged, id_at in F. assert (B : In (nth i l 0%Z) l) by (apply nth_In; auto).
  replace (Z.of_nat x) with (nth i l 0%Z) by lia. auto.
Qed.

Lemma shared_number np ids ord N : numbering np ids ord N -> (N <> 0 <-> something_shared np ids).
Proof.
  intros (L & ND & HN & HL & _). split.
  - intros Hn. destruct L as [|x L]; [cbn in HN; lia|]. destruct (proj1 (HL x) (or_introl eq_refl)) as [Hx Hs].
    unfold shared in Hs. apply existsb_exists in Hs as (p & Hp & Hs). apply existsb_exists in Hs as (q & Hq & Hs).
    apply in_seq in Hp, Hq. apply exchange_iff in Hs as (H1 & H2 & H3 & H4). apply andb_false_iff in H4.
    destruct H4 as [H4|H4].
    + exists p, q, (Z.of_nat x). repeat split; try lia. apply unflagged_in; auto. apply has_in; auto.
    + exists q, p, (Z.of_nat x). repeat split; try lia. apply unflagged_in; auto. apply has_in; auto.
  - intros (p & q & z & Hp & Hq & N1 & Hz & I1 & I2) E. subst N. destruct L; [|discriminate].
    destruct (pos_in_has _ _ Hz I1) as [A1 A2].
    assert (A3 : has (ids q) (Z.to_nat z) = true) by (destruct I2; [apply pos_in_has; auto|apply neg_in_has; auto]).
    apply (HL (Z.to_nat z)). split; [lia|]. unfold shared. apply existsb_exists. exists p. split; [apply in_seq; lia|].
    apply existsb_exists. exists q. split; [apply in_seq; lia|]. apply exchange_iff. repeat split; auto. rewrite A2. auto.
Qed.

Lemma alone ids ord N : numbering 1 ids ord N -> N = 0.
Proof.
  intros H. destruct (Nat.eq_dec N 0) as [|Hn]; auto. apply (shared_number _ _ _ _ H) in Hn. destruct Hn as (p & q & z & Hp & Hq & Hne & _). lia.
Qed.

Section Gives.
Context {T : Type}.
Variable op : T -> T -> T.
Variable e : T.
Hypothesis M : cmonoid op e.
Variable usize np : nat.
Variable ids : nat -> list Z.
Variable hs : nat -> gs_data.
Hypothesis ok : handle_ok usize np ids hs.
Variable conf : nb_conf.
Variable mode : gs_mode.
Variable vn : nat.
Variable t : bool.
Variable u w : nat -> udata T.
Variable v : nat -> nat -> nat -> T.
Hypothesis u_ok : forall p, p < np -> data_ok mode vn (u p) (length (ids p)) (v p).
(** What gs gives. *)
Hypothesis gives : forall buf, buffers np vn hs buf ->
  always_returns (map (fun p => gs_aux op e (UINT_MAX usize) mode vn np p t (hs p) (u p) (buf p)) (seq 0 np)) (map w (seq 0 np)).

Lemma gives_goes buf : buffers np vn hs buf ->
  goes np (fun p => gs_aux op e (UINT_MAX usize) mode vn np p t (hs p) (u p) (buf p)) (fun p => Ret (w p)).
Proof.
  intros Hb. destruct (gs_aux_goes op e M usize np ids hs ok mode vn t v u u_ok buf Hb) as (u' & _ & G).
  eapply goes_trans; [exact G|]. apply goes_ext. intros p Hp. f_equal. symmetry.
  exact (returns_fun_at np _ u' w (goes_always_fun _ np u' G) (gives buf Hb) p Hp).
Qed.

Theorem pairwise_gives : (forall p, p < np -> is_pairwise (hs p)) -> igs_mode_gives op e usize np conf mode vn t hs u w.
Proof.
  intros Hpw buf Hb D mid y Hm. apply goes_always_fun. apply pairwise_overlap; auto. apply gives_goes; auto.
Qed.
Theorem all_reduce_gives N : (forall p, p < np -> exists d, g_r (hs p) = RAr d /\ ar_buffer_size d = N * 2) -> vn <> 0 ->
  (np = 1 /\ N = 0) \/ (use_mpi conf = true /\ use_nbc conf = true /\ mpi_known conf = true /\ 1 < np /\ N <> 0) ->
  igs_mode_gives op e usize np conf mode vn t hs u w.
Proof.
  intros Har Hv H buf Hb D mid y Hm. apply goes_always_fun. pose proof (gives_goes buf Hb) as G.
  destruct H as [[H1 H2]|(C1 & C2 & C3 & H1 & H2)].
  - apply (all_reduce_alone op e M usize np conf ids hs mode vn t u w buf N Har); auto; lia.
  - apply (all_reduce_overlap op e M usize np conf ids hs mode vn t u w buf N Har); auto; try lia.
Qed.
End Gives.

(** Two operations outstanding at the same time. *)
Section Two.
Context {T : Type}.
Variable usize np : nat.
Variable conf : nb_conf.

Lemma pw_forms (op : T -> T -> T) e mode vn t hs u w buf :
  (forall p, p < np -> is_pairwise (hs p)) ->
  goes np (fun p => gs_aux op e (UINT_MAX usize) mode vn np p t (hs p) (u p) (buf p)) (fun p => Ret (w p)) ->
  exists (s : nat -> list (@send T)) (r : nat -> list recv) K u1, goes np (fun p => comm (s p) (r p) (K p)) (fun p => Ret (w p)) /\
  (forall p ms, p < np -> (exists a, K p ms = Ret a) \/ K p ms = Stop) /\
  forall p, p < np ->
    igs_aux op e (UINT_MAX usize) mode vn np p t conf (hs p) (u p) (buf p) = Post (s p) (r p) (fun h => Ret (Pending (u1 p) (buf p) (Some h))) /\
    (fun h => wait_aux op (UINT_MAX usize) mode vn np t conf (hs p) (Pending (u1 p) (buf p) (Some h))) = (fun h => Wait h (K p)).
Proof.
  intros Hpw G.
  destruct (finite_choice (fun p (x : list (@send T) * list recv * (list (list T) -> prog T (udata T)) * udata T) =>
     gs_aux op e (UINT_MAX usize) mode vn np p t (hs p) (u p) (buf p) = comm (fst (fst (fst x))) (snd (fst (fst x))) (snd (fst x)) /\
     (forall ms, (exists a, snd (fst x) ms = Ret a) \/ snd (fst x) ms = Stop) /\
     igs_aux op e (UINT_MAX usize) mode vn np p t conf (hs p) (u p) (buf p) =
       Post (fst (fst (fst x))) (snd (fst (fst x))) (fun h => Ret (Pending (snd x) (buf p) (Some h))) /\
     (fun h => wait_aux op (UINT_MAX usize) mode vn np t conf (hs p) (Pending (snd x) (buf p) (Some h))) = (fun h => Wait h (snd (fst x))))
     ([], [], fun _ => Stop, UFlat []) np) as [x Hx].
  { intros p Hp. destruct (Hpw p Hp) as [d Hd].
    destruct (pw_form op e (UINT_MAX usize) np conf mode vn t p (hs p) d (u p) (buf p) Hd) as [E|(s & r & K & u1 & E)].
    - exfalso. refine (goes_not_never np _ _ p G Hp _). rewrite E. constructor.
    - exists (s, r, K, u1). exact E. }
  exists (fun p => fst (fst (fst (x p)))), (fun p => snd (fst (fst (x p)))), (fun p => snd (fst (x p))), (fun p => snd (x p)).
  split; [|split].
  - eapply goes_trans; [|exact G]. apply goes_ext. intros p Hp. apply (Hx p Hp).
  - intros p ms Hp. apply (Hx p Hp).
  - intros p Hp. apply (Hx p Hp).
Qed.

Theorem pairwise_two (op1 : T -> T -> T) e1 mode1 vn1 t1 hs1 u1 w1 buf1 (op2 : T -> T -> T) e2 mode2 vn2 t2 hs2 u2 w2 buf2 swap :
  (forall p, p < np -> is_pairwise (hs1 p)) -> (forall p, p < np -> is_pairwise (hs2 p)) ->
  goes np (fun p => gs_aux op1 e1 (UINT_MAX usize) mode1 vn1 np p t1 (hs1 p) (u1 p) (buf1 p)) (fun p => Ret (w1 p)) ->
  goes np (fun p => gs_aux op2 e2 (UINT_MAX usize) mode2 vn2 np p t2 (hs2 p) (u2 p) (buf2 p)) (fun p => Ret (w2 p)) ->
  goes np (fun p =>
    pbind (igs_aux op1 e1 (UINT_MAX usize) mode1 vn1 np p t1 conf (hs1 p) (u1 p) (buf1 p)) (fun a =>
    pbind (igs_aux op2 e2 (UINT_MAX usize) mode2 vn2 np p t2 conf (hs2 p) (u2 p) (buf2 p)) (fun b =>
    let wait1 := wait_aux op1 (UINT_MAX usize) mode1 vn1 np t1 conf (hs1 p) a in
    let wait2 := wait_aux op2 (UINT_MAX usize) mode2 vn2 np t2 conf (hs2 p) b in
    if (swap : bool) then pbind wait2 (fun w2 => pbind wait1 (fun w1 => Ret (w1, w2)))
    else pbind wait1 (fun w1 => pbind wait2 (fun w2 => Ret (w1, w2))))))
    (fun p => Ret (w1 p, w2 p)).
Proof.
  intros P1 P2 G1 G2.
  destruct (pw_forms op1 e1 mode1 vn1 t1 hs1 u1 w1 buf1 P1 G1) as (s1 & r1 & K1 & v1 & R1 & T1 & F1).
  destruct (pw_forms op2 e2 mode2 vn2 t2 hs2 u2 w2 buf2 P2 G2) as (s2 & r2 & K2 & v2 & R2 & T2 & F2).
  eapply goes_trans; [|exact (goes_two np s1 s2 r1 r2 K1 K2 w1 w2 T1 T2 R1 R2 swap)].
  apply goes_ext. intros p Hp. destruct (F1 p Hp) as [E1 W1], (F2 p Hp) as [E2 W2]. rewrite E1. cbn [pbind].
  rewrite E2. cbn [pbind].
  set (wa := fun h => wait_aux op1 (UINT_MAX usize) mode1 vn1 np t1 conf (hs1 p) (Pending (v1 p) (buf1 p) (Some h))) in *.
  set (wb := fun h => wait_aux op2 (UINT_MAX usize) mode2 vn2 np t2 conf (hs2 p) (Pending (v2 p) (buf2 p) (Some h))) in *.
  change (Post (s1 p) (r1 p) (fun h1 => Post (s2 p) (r2 p) (fun h2 =>
      if swap then Wait h2 (fun m2 => pbind (K2 p m2) (fun a2 => Wait h1 (fun m1 => pbind (K1 p m1) (fun a1 => Ret (a1, a2)))))
      else Wait h1 (fun m1 => pbind (K1 p m1) (fun a1 => Wait h2 (fun m2 => pbind (K2 p m2) (fun a2 => Ret (a1, a2))))))) =
    Post (s1 p) (r1 p) (fun h1 => Post (s2 p) (r2 p) (fun h2 =>
      if swap then pbind (wb h2) (fun w2 => pbind (wa h1) (fun w1 => Ret (w1, w2)))
      else pbind (wa h1) (fun w1 => pbind (wb h2) (fun w2 => Ret (w1, w2)))))).
  rewrite W1, W2. reflexivity.
Qed.
End Two.
