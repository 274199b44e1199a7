(** igs and gs_wait. *)
From Verif Require Import Base BaseLemmas Net NetProof NetOverlap Sort SortSpec SortLemmas Transfer TransferProof2 OpsSpec Comm CommSpec CommProof
  Kernels KernelSpec KernelProof ListLemmas GsTop GsSpec GsSortProof GsTopProof1 GsTopProof4 GsExec GsCr Gs GsKernProof GsPwProof3 GsRunProof GsSetupProof GsSetupProof2
  GsUserSpec GsUserProof GsIgsSpec.

(** ** Programs that never return *)
Inductive never {W A} : prog W A -> Prop :=
| never_stop : never Stop
| never_post s r k : (forall h, never (k h)) -> never (Post s r k)
| never_wait h k : (forall ms, never (k ms)) -> never (Wait h k).

Lemma never_bind {W A B} (p : prog W A) (f : A -> prog W B) : (forall a, never (f a)) -> never (pbind p f).
Proof. intros H. induction p; cbn [pbind]; auto using @never. Qed.
Lemma never_bind1 {W A B} (p : prog W A) (f : A -> prog W B) : never p -> never (pbind p f).
Proof. induction 1; cbn [pbind]; auto using @never. Qed.
Lemma never_exec {W A} sched : forall (st st' : list (pstate W A)), exec st sched = Some st' ->
  forall p, (forall ps, nth_error st p = Some ps -> never (cur ps)) -> forall ps r, nth_error st' p = Some ps -> cur ps <> Ret r.
Proof.
  induction sched as [|[q b] sched IH]; intros st st' E p H ps r Hp; cbn [exec] in E.
  - injection E as <-. specialize (H ps Hp). destruct H; discriminate.
  - destruct (pstep b st q) as [st1|] eqn:E1; [|discriminate]. apply (IH st1 st' E p); auto. clear ps r Hp E. intros ps Hp.
    unfold pstep in E1. destruct (nth_error st q) as [qs|] eqn:Eq; [|discriminate].
    destruct (Nat.eq_dec q p) as [->|Ne].
    + specialize (H qs Eq). assert (Lt : p < length st) by (eapply nth_error_Some_lt; eauto).
      destruct (cur qs) as [a| |s r k|h k] eqn:Ec; try discriminate.
      * injection E1 as <-. rewrite nth_error_upd_eq in Hp by auto. injection Hp as <-. cbn [cur]. inversion H; auto.
      * destruct (nth_error (log qs) h) as [[s r]|]; [|discriminate]. destruct (recv_all _ _ _ _); [|discriminate].
        destruct (b || _); [|discriminate]. injection E1 as <-. rewrite nth_error_upd_eq in Hp by auto. injection Hp as <-. cbn [cur]. inversion H; auto.
    + assert (nth_error st1 p = nth_error st p) as E; [|rewrite E in Hp; auto].
      destruct (cur qs) as [a| |s r k|h k] eqn:Ec; try discriminate.
      * injection E1 as <-. apply nth_error_upd_ne; auto.
      * destruct (nth_error (log qs) h) as [[s r]|]; [|discriminate]. destruct (recv_all _ _ _ _); [|discriminate].
        destruct (b || _); [|discriminate]. injection E1 as <-. apply nth_error_upd_ne; auto.
Qed.
Lemma never_start {W A} np (P : nat -> prog W A) sched st : (forall p, p < np -> never (P p)) ->
  exec (start (map P (seq 0 np))) sched = Some st -> forall p ps r, p < np -> nth_error st p = Some ps -> cur ps <> Ret r.
Proof.
  intros H E p ps r Hp. apply (never_exec sched _ _ E). intros qs Hq. unfold start in Hq. rewrite nth_error_map in Hq.
  rewrite nth_error_map, seq_nth_error in Hq by auto. cbn in Hq. injection Hq as <-. cbn [cur]. auto.
Qed.
Lemma goes_not_never {W A} np (P : nat -> prog W A) x p : goes np P (fun p => Ret (x p)) -> p < np -> ~ never (P p).
Proof.
  intros G Hp HN. apply goes_always_fun in G. destruct G as [m G]. destruct (G [] _ eq_refl) as (rest & fin & E & F & _).
  assert (Hf : exists ps, nth_error fin p = Some ps /\ cur ps = Ret (x p)).
  { unfold finished in F. apply (f_equal (fun l => nth_error l p)) in F. rewrite !nth_error_map, seq_nth_error in F by auto. cbn in F.
    destruct (nth_error fin p) as [ps|]; [|discriminate]. exists ps. split; auto. cbn in F. congruence. }
  destruct Hf as (ps & Hps & Ec). refine (never_exec _ _ _ E p _ ps (x p) Hps Ec).
  intros qs Hq. unfold start in Hq. rewrite !nth_error_map, seq_nth_error in Hq by auto. cbn in Hq. injection Hq as <-. cbn [cur]. auto.
Qed.

Section Pw.
Context {T : Type}.
Variable op : T -> T -> T.
Variable e : T.
Variable SENT np : nat.
Variable conf : nb_conf.
Variable mode : gs_mode.
Variable vn : nat.
Variable t : bool.

(** gs and the two halves of igs, once the local work is done. *)
Lemma pw_form me g d u buf : g_r g = RPw d ->
  gs_aux op e SENT mode vn np me t g u buf = Stop \/
  exists s r K u1, gs_aux op e SENT mode vn np me t g u buf = comm s r K /\
    (forall ms, (exists a, K ms = Ret a) \/ K ms = Stop) /\
    igs_aux op e SENT mode vn np me t conf g u buf = Post s r (fun h => Ret (Pending u1 buf (Some h))) /\
    (fun h => wait_aux op SENT mode vn np t conf g (Pending u1 buf (Some h))) = (fun h => Wait h K).
Proof.
  intros Eg. unfold gs_aux, igs_aux, wait_aux. destruct (gs_before op e SENT mode vn t g u) as [u1| | |]; cbn [plift pbind]; auto.
  rewrite Eg. cbn [remote_exec]. unfold pw_exec, pw_exec_start, pw_exec_wait, comm.
  destruct (scatter_to_buf _ _ _ _ _ _) as [sb| | |]; cbn [plift pbind]; auto. right.
  eexists _, _, _, u1. split; [reflexivity|]. split; [|split; reflexivity].
  intros ms. cbn beta. destruct (gather_from_buf _ _ _ _ _ _ _) as [u2| | |]; cbn [plift pbind]; auto.
  destruct (gs_after _ _ _ _ _ _); cbn [plift]; eauto.
Qed.
End Pw.

Section Gives.
Context {T : Type}.
Variable op : T -> T -> T.
Variable e : T.
Hypothesis M : cmonoid op e.
Variable usize np : nat.
Variable conf : nb_conf.
Variable ids : nat -> list Z.
Variable hs : nat -> gs_data.
Variable mode : gs_mode.
Variable vn : nat.
Variable t : bool.
Variable u w : nat -> udata T.
Variable buf : nat -> list T.
Notation UMAX := (UINT_MAX usize).

(** If gs goes through, so does igs, anything, gs_wait. *)
Theorem pairwise_overlap D (mid : nat -> prog T D) y :
  (forall p, p < np -> is_pairwise (hs p)) ->
  goes np (fun p => gs_aux op e UMAX mode vn np p t (hs p) (u p) (buf p)) (fun p => Ret (w p)) ->
  goes np mid (fun p => Ret (y p)) ->
  goes np (fun p => igs_then_wait op e usize np conf mode vn t (mid p) (hs p) p (u p) (buf p)) (fun p => Ret (y p, w p)).
Proof.
  intros Hpw G Gm.
  destruct (finite_choice (fun p (x : list (@send T) * list recv * (list (list T) -> prog T (udata T)) * udata T) =>
     gs_aux op e UMAX mode vn np p t (hs p) (u p) (buf p) = comm (fst (fst (fst x))) (snd (fst (fst x))) (snd (fst x)) /\
     (forall ms, (exists a, snd (fst x) ms = Ret a) \/ snd (fst x) ms = Stop) /\
     igs_aux op e UMAX mode vn np p t conf (hs p) (u p) (buf p) =
       Post (fst (fst (fst x))) (snd (fst (fst x))) (fun h => Ret (Pending (snd x) (buf p) (Some h))) /\
     (fun h => wait_aux op UMAX mode vn np t conf (hs p) (Pending (snd x) (buf p) (Some h))) = (fun h => Wait h (snd (fst x))))
     ([], [], fun _ => Stop, UFlat []) np) as [x Hx].
  { intros p Hp. destruct (Hpw p Hp) as [d Hd].
    destruct (pw_form op e UMAX np conf mode vn t p (hs p) d (u p) (buf p) Hd) as [E|(s & r & K & u1 & E)].
    - exfalso. refine (goes_not_never np _ _ p G Hp _). rewrite E. constructor.
    - exists (s, r, K, u1). exact E. }
  set (s := fun p => fst (fst (fst (x p)))). set (r := fun p => snd (fst (fst (x p)))). set (K := fun p => snd (fst (x p))).
  assert (R : goes np (fun p => comm (s p) (r p) (K p)) (fun p => Ret (w p))).
  { eapply goes_trans; [|exact G]. apply goes_ext. intros p Hp. apply (Hx p Hp). }
  eapply goes_trans; [|exact (goes_overlap np s r K w (fun p ms Hp => proj1 (proj2 (Hx p Hp)) ms) R mid y
     (fun p d a => pbind a (fun w => Ret (d, w))) (fun p => (y p, w p)) Gm (fun p Hp => eq_refl))].
  apply goes_ext. intros p Hp. destruct (Hx p Hp) as (_ & _ & E1 & E2). unfold igs_then_wait. rewrite E1. cbn [pbind].
  change (fun h => pbind (mid p) (fun y => pbind (wait_aux op UMAX mode vn np t conf (hs p) (Pending (snd (x p)) (buf p) (Some h))) (fun w => Ret (y, w))))
    with (fun h => pbind (mid p) (fun y => pbind ((fun h => wait_aux op UMAX mode vn np t conf (hs p) (Pending (snd (x p)) (buf p) (Some h))) h) (fun w => Ret (y, w)))).
  rewrite E2. reflexivity.
Qed.

(** ** All-reduce *)
Lemma goes_terminal {A} (P Q : nat -> prog T A) x : goes np P (fun p => Ret (x p)) -> goes np P Q ->
  (forall p, p < np -> (exists a, Q p = Ret a) \/ Q p = Stop) -> forall p, p < np -> Q p = Ret (x p).
Proof.
  intros G GQ HT. apply goes_always_fun in G. destruct G as [m G].
  destruct (GQ (fun _ => []) (start (map P (seq 0 np)))) as (B' & sched & st & E & R).
  { constructor.
    - unfold start. rewrite !map_length, seq_length. auto.
    - intros p q c ps qs Hp Hq. unfold start in *. rewrite nth_error_map in Hp, Hq.
      destruct (nth_error (map P (seq 0 np)) p); [|discriminate]. destruct (nth_error (map P (seq 0 np)) q); [|discriminate].
      cbn in *. injection Hp as <-. injection Hq as <-. auto.
    - intros p Hp. exists []. split; [|split; [|split]]; auto.
      + unfold start. rewrite !nth_error_map, seq_nth_error by auto. reflexivity.
      + intros q c a [].
      + intros [|h] s r H; discriminate. }
  destruct (G _ _ E) as (rest & fin & E2 & F & _).
  assert (Done : forall b p, pstep b st p = None).
  { intros b p. unfold pstep. destruct (nth_error st p) as [ps|] eqn:Ep; auto.
    assert (Hp : p < np) by (rewrite <- (r_len _ _ _ _ R); eapply nth_error_Some_lt; eauto).
    destruct (r_proc _ _ _ _ R p Hp) as (L & EL & _). rewrite Ep in EL. injection EL as ->. cbn [cur].
    destruct (HT p Hp) as [[a ->]| ->]; auto. }
  destruct rest as [|q rest]; cbn [exec unbuffered map] in E2; [|rewrite Done in E2; discriminate]. injection E2 as <-.
  intros p Hp. destruct (r_proc _ _ _ _ R p Hp) as (L & EL & _).
  unfold finished in F. apply (f_equal (fun l => nth_error l p)) in F. rewrite !nth_error_map, seq_nth_error, EL in F by auto. cbn in F. congruence.
Qed.

Lemma wr_length {X} (l : list X) i v l' : wr l i v = Ok l' -> length l' = length l.
Proof. unfold wr. destruct (i <? length l); [|discriminate]. intros E; injection E as <-. apply upd_length. Qed.
Lemma scatter_loop_length SENT oo os (inp : option (list T)) io is map0 : forall st out out',
  scatter_loop SENT oo os inp io is st map0 out = Ok out' -> length out' = length out.
Proof.
  induction map0 as [|x r IH]; intros st out out' E; cbn [scatter_loop] in E; [discriminate|].
  destruct st as [|i c|i c].
  - destruct (x =? SENT); [injection E as <-; auto|]. destruct (rd _ _); cbn [bind] in E; try discriminate. apply IH in E. auto.
  - destruct (wr out _ _) as [o| | |] eqn:Ew; cbn [bind] in E; try discriminate. apply IH in E. apply wr_length in Ew. congruence.
  - destruct (x =? SENT); [apply IH in E; auto|].
    destruct (wr out _ _) as [o| | |] eqn:Ew; cbn [bind] in E; try discriminate. apply IH in E. apply wr_length in Ew. congruence.
Qed.
Lemma copy_elems_length (inp : option (list T)) n : forall p q out out', copy_elems inp n p q out = Ok out' -> length out' = length out.
Proof.
  induction n as [|n IH]; intros p q out out' E; cbn [copy_elems] in E; [injection E as <-; auto|].
  destruct (rd _ _); cbn [bind] in E; try discriminate. destruct (wr out _ _) as [o| | |] eqn:Ew; cbn [bind] in E; try discriminate.
  apply IH in E. apply wr_length in Ew. congruence.
Qed.
Lemma scatter_vec_loop_length SENT (inp : option (list T)) n map0 : forall st out out',
  scatter_vec_loop SENT inp n st map0 out = Ok out' -> length out' = length out.
Proof.
  induction map0 as [|x r IH]; intros st out out' E; cbn [scatter_vec_loop] in E; [discriminate|].
  destruct st as [|i|i].
  - destruct (x =? SENT); [injection E as <-; auto|]. apply IH in E. auto.
  - destruct (copy_elems _ _ _ _ out) as [o| | |] eqn:Ew; cbn [bind] in E; try discriminate. apply IH in E. apply copy_elems_length in Ew. congruence.
  - destruct (x =? SENT); [apply IH in E; auto|].
    destruct (copy_elems _ _ _ _ out) as [o| | |] eqn:Ew; cbn [bind] in E; try discriminate. apply IH in E. apply copy_elems_length in Ew. congruence.
Qed.
Lemma scatter_to_buf_length SENT m n map0 (a : udata T) out out' : scatter_to_buf SENT m n map0 a out = Ok out' -> length out' = length out.
Proof.
  unfold scatter_to_buf. destruct m, a as [l|ls]; try discriminate.
  - unfold scatter, scatter_strided. destruct (alias_ok _ _ _); [|discriminate]. apply scatter_loop_length.
  - unfold scatter_vec. destruct (alias_ok _ _ _); [|discriminate]. apply scatter_vec_loop_length.
  - unfold scatter_many_to_vec. generalize 0 as k. generalize n at 2 as c. intros c. revert ls out out'.
    induction c as [|c IH]; intros ls out out' k E; cbn [scatter_many_to_vec_loop] in E; [injection E as <-; auto|].
    destruct ls as [|l ls]; [discriminate|]. unfold scatter_strided in E. destruct (alias_ok _ _ _); [|discriminate].
    destruct (scatter_loop _ _ _ _ _ _ _ _ _) as [o| | |] eqn:Ew; cbn [bind] in E; try discriminate. apply IH in E. apply scatter_loop_length in Ew. congruence.
Qed.

Lemma combine_vectors_vec (b : nat -> list T) gvn : np <> 0 -> (forall q, q < np -> length (b q) = gvn) ->
  combine_vectors op (map b (seq 0 np)) = vec gvn (fun i => reduction op e (fun q => nth i (b q) e) 0 np).
Proof.
  intros Hnp Hb. assert (F : forall n, n <> 0 -> n <= np -> combine_vectors op (map b (seq 0 n)) = vec gvn (fun i => reduction op e (fun q => nth i (b q) e) 0 n)).
  { induction n as [|n IH]; [congruence|]. intros _ Hn. destruct n as [|n].
    - cbn. unfold vec, reduction. cbn. apply (nth_ext _ _ e e); [rewrite map_length, seq_length; apply Hb; lia|].
      intros i Hi. rewrite Hb in Hi by lia.
      match goal with |- context [map ?g _] => set (f := g) end. rewrite (nth_indep (map f _) e (f 0)) by (rewrite map_length, seq_length; auto).
      rewrite map_nth, seq_nth by auto. unfold f. cbn [Nat.add]. rewrite (cmon_id op e M). reflexivity.
    - rewrite seq_S, map_app. specialize (IH ltac:(lia) ltac:(lia)). revert IH. cbn [seq map app combine_vectors]. intros IH.
      rewrite fold_left_app, IH. cbn [map fold_left]. unfold vec. apply (nth_ext _ _ e e).
      + rewrite !map_length, combine_length, map_length, seq_length, Hb by lia. lia.
      + intros i Hi. rewrite map_length, combine_length, map_length, seq_length, Hb in Hi by lia.
        match goal with |- context [map ?g (combine _ _)] => set (f := g) end.
        rewrite (nth_indep (map f _) e (f (e, e))) by (rewrite map_length, combine_length, map_length, seq_length, Hb by lia; lia).
        rewrite map_nth, combine_nth by (rewrite map_length, seq_length, Hb by lia; auto). unfold f. cbn [fst snd].
        match goal with |- op (nth _ (map ?g1 _) _) _ = nth _ (map ?g2 _) _ => set (f1 := g1); set (f2 := g2) end.
        rewrite (nth_indep (map f1 _) e (f1 0)), (nth_indep (map f2 _) e (f2 0)) by (rewrite map_length, seq_length; lia).
        rewrite !map_nth, !seq_nth by lia. unfold f1, f2, reduction. rewrite (seq_S (S n)), map_app, fold_left_app. reflexivity. }
  apply F; auto.
Qed.

Section Ar.
Variable N : nat.
Hypothesis ar : forall p, p < np -> exists d, g_r (hs p) = RAr d /\ ar_buffer_size d = N * 2.
Hypothesis np1 : 1 <= np.
Hypothesis buf_len : buffers np vn hs buf.
Hypothesis G : goes np (fun p => gs_aux op e UMAX mode vn np p t (hs p) (u p) (buf p)) (fun p => Ret (w p)).
Notation gvn := (vn * N).

(** The result from the contributions b. *)
Definition ar_end (p : nat) (d : allreduce_data) (u1 : udata T) (rb : list T) : prog T (udata T) :=
  pbind (plift (scatter_from_buf UMAX mode vn (if t then ar_from1 d else ar_from0 d) u1 rb)) (fun u => plift (gs_after UMAX mode vn t (hs p) u)).

Lemma ar_gvn d : ar_buffer_size d = N * 2 -> vn * (ar_buffer_size d / 2) = gvn.
Proof. intros ->. rewrite Nat.div_mul; auto. Qed.

Lemma ar_form : exists d b u1, (forall p, p < np -> g_r (hs p) = RAr (d p) /\ ar_buffer_size (d p) = N * 2 /\
    gs_before op e UMAX mode vn t (hs p) (u p) = Ok (u1 p) /\
    (c <- init_array e (firstn gvn (buf p)) gvn ;; scatter_to_buf UMAX mode vn (if t then ar_to1 (d p) else ar_to0 (d p)) (u1 p) c) = Ok (b p) /\
    length (b p) = gvn /\ length (firstn gvn (skipn gvn (buf p))) = gvn) /\
  forall p, p < np -> ar_end p (d p) (u1 p) (vec gvn (fun i => reduction op e (fun q => nth i (b q) e) 0 np)) = Ret (w p).
Proof.
  destruct (finite_choice (fun p (x : allreduce_data * list T * udata T) => g_r (hs p) = RAr (fst (fst x)) /\ ar_buffer_size (fst (fst x)) = N * 2 /\
    gs_before op e UMAX mode vn t (hs p) (u p) = Ok (snd x) /\
    (c <- init_array e (firstn gvn (buf p)) gvn ;; scatter_to_buf UMAX mode vn (if t then ar_to1 (fst (fst x)) else ar_to0 (fst (fst x))) (snd x) c) = Ok (snd (fst x)) /\
    length (snd (fst x)) = gvn /\ length (firstn gvn (skipn gvn (buf p))) = gvn) (AR [] [] [] [] 0, [], UFlat []) np) as [x Hx].
  { intros p Hp. destruct (ar p Hp) as (d & Ed & EN). pose proof (goes_not_never np _ _ p G Hp) as NN.
    pose proof (buf_len p Hp) as BL. rewrite Ed in BL. cbn [buffer_size] in BL. rewrite EN in BL.
    unfold gs_aux in NN. destruct (gs_before op e UMAX mode vn t (hs p) (u p)) as [u1| | |]; cbn [plift pbind] in NN; try (destruct NN; constructor).
    rewrite Ed in NN. cbn [remote_exec] in NN. unfold allreduce_exec in NN. rewrite (ar_gvn d EN) in NN.
    destruct (c <- init_array e (firstn gvn (buf p)) gvn ;; scatter_to_buf UMAX mode vn (if t then ar_to1 d else ar_to0 d) u1 c) as [b| | |] eqn:Eb;
      cbn [plift pbind] in NN; try (destruct NN; constructor).
    exists (d, b, u1). cbn [fst snd]. do 4 (split; auto). split.
    - rewrite init_array_vec in Eb by (rewrite firstn_length; lia). cbn [bind] in Eb. apply scatter_to_buf_length in Eb. rewrite Eb.
      unfold vec. rewrite map_length, seq_length. auto.
    - rewrite firstn_length, skipn_length. lia. }
  exists (fun p => fst (fst (x p))), (fun p => snd (fst (x p))), (fun p => snd (x p)). split; [exact Hx|].
  refine (goes_terminal _ _ w G _ _).
  - set (pr := fun p => comm_allreduce op np p gvn (snd (fst (x p))) (firstn gvn (skipn gvn (buf p)))).
    set (sc := fun p rb => plift (scatter_from_buf UMAX mode vn (if t then ar_from1 (fst (fst (x p))) else ar_from0 (fst (fst (x p)))) (snd (x p)) rb) : prog T (udata T)).
    eapply goes_trans; [apply (goes_ext np _ (fun p => pbind (pbind (pr p) (sc p)) (fun u => plift (gs_after UMAX mode vn t (hs p) u))))|].
    + intros p Hp. destruct (Hx p Hp) as (E1 & E2 & E3 & E4 & _). unfold gs_aux. rewrite E3, E1. cbn [plift pbind remote_exec]. unfold allreduce_exec.
      rewrite (ar_gvn _ E2), E4. reflexivity.
    + refine (goes_bind' np (fun p u => plift (gs_after UMAX mode vn t (hs p) u)) (fun p => pbind (pr p) (sc p)) _ (goes_bind np sc pr _ _)).
      apply (allreduce_goes op e np gvn); auto. intros p Hp. destruct (Hx p Hp) as (_ & _ & _ & _ & ?). auto.
  - intros p Hp. unfold ar_end. destruct (scatter_from_buf _ _ _ _ _ _) as [u2| | |]; cbn [plift pbind]; auto.
    destruct (gs_after _ _ _ _ _ _); cbn [plift]; eauto.
Qed.

Theorem all_reduce_overlap D (mid : nat -> prog T D) y :
  use_mpi conf = true -> use_nbc conf = true -> mpi_known conf = true -> 1 < np -> gvn <> 0 ->
  goes np mid (fun p => Ret (y p)) ->
  goes np (fun p => igs_then_wait op e usize np conf mode vn t (mid p) (hs p) p (u p) (buf p)) (fun p => Ret (y p, w p)).
Proof.
  intros C1 C2 C3 Hnp Hg Gm. destruct ar_form as (d & b & u1 & Hf & He).
  set (s := fun p => map (fun q => (q, ctx conf, b p)) (seq 0 np)). set (r := fun p : nat => map (fun q => (q, ctx conf, gvn)) (seq 0 np)).
  set (K := fun p ms => ar_end p (d p) (u1 p) (combine_vectors op ms)).
  assert (R : goes np (fun p => comm (s p) (r p) (K p)) (fun p => Ret (w p))).
  { refine (goes_comm np (fun _ => true) _ _ s r K (fun _ => map b (seq 0 np)) _ _ _); [|discriminate|].
    - constructor.
      + intros p Hp _. unfold s. rewrite map_map. cbn [fst]. apply map_NoDup_inj; [|apply seq_NoDup]. intros a c _ _ E. congruence.
      + intros p Hp _. unfold r. rewrite map_map. cbn [fst]. apply map_NoDup_inj; [|apply seq_NoDup]. intros a c _ _ E. congruence.
      + intros p q c m Hp _ Hin. apply in_map_iff in Hin as (q' & E & Hq). apply in_seq in Hq. injection E as <- <- <-. split; [lia|]. split; auto.
        exists gvn. apply in_map_iff. exists p. split; auto. apply in_seq. lia.
      + intros q Hq _. unfold r. assert (X : forall l, (forall p, In p l -> p < np) -> Forall2 (fun x m => fst (fst x) < np /\ true = true /\
           In (q, snd (fst x), m) (s (fst (fst x))) /\ length m <= snd x) (map (fun q => (q, ctx conf, gvn)) l) (map b l)).
        { induction l as [|p l IH]; intros Hl; cbn [map]; constructor; [|apply IH; intros; apply Hl; right; auto]. cbn [fst snd].
          assert (Hp : p < np) by (apply Hl; left; auto). split; auto. split; auto. split; [|destruct (Hf p Hp) as (_ & _ & _ & _ & -> & _); lia].
          apply in_map_iff. exists q. split; auto. apply in_seq. lia. }
        apply X. intros p Hp. apply in_seq in Hp. lia.
    - intros p Hp _. split; auto. unfold K. rewrite (combine_vectors_vec b gvn), He; auto; [lia|]. intros q Hq. destruct (Hf q Hq) as (_ & _ & _ & _ & ? & _). auto. }
  assert (HT : forall p ms, p < np -> (exists a, K p ms = Ret a) \/ K p ms = Stop).
  { intros p ms Hp. unfold K, ar_end. destruct (scatter_from_buf _ _ _ _ _ _) as [u2| | |]; cbn [plift pbind]; auto.
    destruct (gs_after _ _ _ _ _ _); cbn [plift]; eauto. }
  eapply goes_trans; [|exact (goes_overlap np s r K w HT R mid y (fun p d a => pbind a (fun w => Ret (d, w))) (fun p => (y p, w p)) Gm (fun p Hp => eq_refl))].
  apply goes_ext. intros p Hp. destruct (Hf p Hp) as (E1 & E2 & E3 & E4 & _). unfold igs_then_wait, igs_aux, wait_aux. rewrite E3, E1. cbn [plift pbind].
  unfold allreduce_exec_i, allreduce_exec_wait. rewrite (ar_gvn _ E2), E4. cbn [plift pbind]. unfold comm_iallreduce.
  apply Nat.eqb_neq in Hg. apply Nat.ltb_lt in Hnp. rewrite Hg, C1, C2, C3, Hnp. cbn [negb pbind andb pd_req pd_u]. reflexivity.
Qed.

(** One process: nothing is exchanged. *)
Theorem all_reduce_alone D (mid : nat -> prog T D) y : np = 1 -> gvn = 0 ->
  goes np mid (fun p => Ret (y p)) ->
  goes np (fun p => igs_then_wait op e usize np conf mode vn t (mid p) (hs p) p (u p) (buf p)) (fun p => Ret (y p, w p)).
Proof.
  intros Hnp Hg Gm. destruct ar_form as (d & b & u1 & Hf & He).
  eapply goes_trans; [apply (goes_ext np _ (fun p => pbind (mid p) (fun y => Ret (y, w p))))|exact (goes_bind np (fun p y => Ret (y, w p)) mid y Gm)].
  intros p Hp. destruct (Hf p Hp) as (E1 & E2 & E3 & E4 & E5 & _). specialize (He p Hp). unfold igs_then_wait, igs_aux, wait_aux. rewrite E3, E1. cbn [plift pbind].
  unfold allreduce_exec_i, allreduce_exec_wait. rewrite (ar_gvn _ E2), E4. cbn [plift pbind]. unfold comm_iallreduce.
  rewrite Hg in *. cbn [Nat.eqb pbind fst snd pd_req pd_u pd_buf]. replace (1 <? np) with false by (rewrite Hnp; auto). cbn [andb pbind firstn].
  unfold ar_end in He. cbn [vec seq map] in He.
  replace (if use_mpi conf then [] else []) with (@nil T) by (destruct (use_mpi conf); auto).
  destruct (scatter_from_buf _ _ _ _ _ _) as [u2| | |]; cbn [plift pbind] in *; try discriminate.
  destruct (gs_after _ _ _ _ _ _) as [u3| | |]; cbn [plift pbind] in *; try discriminate. injection He as ->. reflexivity.
Qed.
End Ar.

(** ** When it does not work *)
Lemma plift_bind_never {A B} (x : res A) (f : A -> prog T B) : (forall a, never (f a)) -> never (pbind (plift x) f).
Proof. intros H. apply never_bind. auto. Qed.
Lemma never_crystal p : is_crystal (hs p) -> never (igs_then_wait op e usize np conf mode vn t (Ret tt) (hs p) p (u p) (buf p)).
Proof.
  intros [d Hd]. unfold igs_then_wait. apply never_bind1. unfold igs_aux. apply plift_bind_never. intros u1. rewrite Hd. constructor.
Qed.
Lemma never_bind2 {A B C} (p : prog T A) (f : A -> prog T B) (k : B -> prog T C) : (forall a, never (pbind (f a) k)) -> never (pbind (pbind p f) k).
Proof. intros H. induction p; cbn [pbind]; auto using @never. Qed.
Lemma never_bind3 {A B C D} (p : prog T A) (f : A -> prog T B) (k : B -> prog T C) (l : C -> prog T D) :
  (forall a, never (pbind (pbind (f a) k) l)) -> never (pbind (pbind (pbind p f) k) l).
Proof. intros H. induction p; cbn [pbind]; auto using @never. Qed.
(** All-reduce over several MPI processes, unless MPI_Iallreduce is there, has the type and the
    operation, and there is something to reduce. *)
Lemma never_all_reduce p d : g_r (hs p) = RAr d -> 1 < np -> use_mpi conf = true ->
  use_nbc conf && mpi_known conf && negb (vn * (ar_buffer_size d / 2) =? 0) = false ->
  never (igs_then_wait op e usize np conf mode vn t (Ret tt) (hs p) p (u p) (buf p)).
Proof.
  intros Hd Hnp C1 C. unfold igs_then_wait, igs_aux. apply Nat.ltb_lt in Hnp.
  apply never_bind2. intros u1. rewrite Hd. unfold allreduce_exec_i. apply never_bind2. intros b. cbn beta.
  unfold comm_iallreduce. rewrite C1. cbn [negb].
  assert (W : forall l, never (pbind (Ret tt) (fun y => pbind (wait_aux op UMAX mode vn np t conf (hs p) (Pending u1 l None)) (fun w => Ret (y, w))))).
  { intros l. cbn [pbind]. apply never_bind1. unfold wait_aux. apply never_bind1. rewrite Hd. unfold allreduce_exec_wait. rewrite Hnp, C1. cbn. constructor. }
  destruct (vn * (ar_buffer_size d / 2) =? 0); [apply W|]. destruct (mpi_known conf), (use_nbc conf); try discriminate C; cbn [pbind].
  - constructor.
  - apply never_bind3. intros v. apply W.
  - apply never_bind3. intros v. apply W.
Qed.
End Gives.
