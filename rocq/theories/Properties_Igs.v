(** C34, C35: igs, igs_vec, igs_many and gs_wait. *)
From Verif Require Import Base BaseLemmas Net NetProof NetOverlap Sort SortSpec Transfer TransferSpec OpsSpec ListLemmas
  GsTop GsSpec GsTopProof1 GsTopProof4 GsExec GsCr Gs GsKernProof GsRunProof GsSetupProof GsSetupProof2 GsUserSpec GsUserProof GsUserProof2
  GsIgsSpec GsIgsProof GsIgsProof2 GsIgsProof3 BracketSpec Properties_Gs Properties_Bracket.

From Coq Require Import Permutation.
(** Which method a handle uses is what the user asked for (gs_auto: any of the three, the
    same on every process). *)
Theorem C34_method_of_handle usize lsize INT_MAX np ids m hs : setup_fits usize lsize INT_MAX np ids ->
  setup_gives usize lsize INT_MAX np ids false m hs ->
  match m with
  | gs_pairwise => forall p, p < np -> is_pairwise (hs p)
  | gs_crystal_router => forall p, p < np -> is_crystal (hs p)
  | gs_all_reduce => forall p, p < np -> is_all_reduce (hs p)
  | gs_auto _ _ => (forall p, p < np -> is_pairwise (hs p)) \/ (forall p, p < np -> is_crystal (hs p)) \/
                   (forall p, p < np -> is_all_reduce (hs p))
  end.
Proof.
  intros F G. destruct (setup_method _ _ _ _ _ _ _ F G) as (N & (m' & U & E) & _).
  assert (A : match m' with
     | gs_pairwise => forall p, p < np -> is_pairwise (hs p)
     | gs_crystal_router => forall p, p < np -> is_crystal (hs p)
     | gs_all_reduce => forall p, p < np -> is_all_reduce (hs p)
     | gs_auto _ _ => np = 0 end).
  { destruct m'.
    - destruct np; auto. destruct (U 0 ltac:(lia)).
    - intros p Hp. specialize (U p Hp). cbn in U. unfold is_pairwise. destruct (g_r (hs p)); try contradiction. eauto.
    - intros p Hp. specialize (U p Hp). cbn in U. unfold is_crystal. destruct (g_r (hs p)); try contradiction. eauto.
    - intros p Hp. specialize (U p Hp). cbn in U. unfold is_all_reduce. destruct (g_r (hs p)); try contradiction. eauto. }
  destruct m; try (subst m'; exact A). destruct m'; auto. left. intros p Hp. lia.
Qed.
Print Assumptions C34_method_of_handle.

Section Properties.
Context {T : Type}.
Variable op : T -> T -> T.
Variable e : T.
Variable usize lsize INT_MAX np : nat.
Variable ids : nat -> list Z.
Variable conf : nb_conf.

(** C34: with a pairwise handle and any operation, associative and commutative or not, igs, then anything else collective (including other gs
    operations), then gs_wait, leaves in the user's array exactly what gs leaves; no deadlock,
    and the work in between is not disturbed. *)
Theorem C34_igs hs t (u w : nat -> list T) : (forall p, p < np -> is_pairwise (hs p)) ->
  gs_gives usize np op e t hs u w -> igs_gives op e usize np conf t hs u w.
Proof. intros P W. apply pairwise_gives_any; auto. Qed.
Theorem C34_igs_vec hs t vn (u w : nat -> list T) : (forall p, p < np -> is_pairwise (hs p)) ->
  gs_vec_gives usize np op e vn t hs u w -> igs_vec_gives op e usize np conf vn t hs u w.
Proof. intros P W. apply pairwise_gives_any; auto. Qed.
Theorem C34_igs_many hs t vn (u w : nat -> list (list T)) : (forall p, p < np -> is_pairwise (hs p)) ->
  gs_many_gives usize np op e vn t hs u w -> igs_many_gives op e usize np conf vn t hs u w.
Proof. intros P W. apply pairwise_gives_any; auto. Qed.

(** So C60 holds of igs, igs_vec and igs_many too: what comes out is, for every operation, a bracketing of the contributions that only
    depends on the ids and the handle, and the same as gs's. *)
Theorem C34_igs_bracketing m hs transpose : setup_fits usize lsize INT_MAX np ids -> setup_gives usize lsize INT_MAX np ids false m hs ->
  (forall p, p < np -> is_pairwise (hs p)) ->
  exists tr : nat -> nat -> expr,
  (forall p i, p < np -> i < length (ids p) -> Permutation (leaves (tr p i)) (map (fun c => (fst c, snd c, 0)) (contributors np ids transpose p i))) /\
  forall (T : Type) (op : T -> T -> T) (e : T) u, (forall p, p < np -> length (u p) = length (ids p)) ->
    let w := fun p => map (fun i => eval op e (fun q j _ => nth j (u q) e) (tr p i)) (seq 0 (length (ids p))) in
    gs_gives usize np op e transpose hs u w /\ igs_gives op e usize np conf transpose hs u w.
Proof.
  intros F G P. destruct (C60_gs usize lsize INT_MAX np ids m hs transpose F G) as (tr & B & H). exists tr. split; [exact B|].
  intros T' op' e' u Hu w. pose proof (H T' op' e' u Hu) as W. split; [exact W|]. apply pairwise_gives_any; auto.
Qed.

(** What can stand in between: local work, another gs (of any method), one thing after the
    other, and another igs ... gs_wait. *)
Theorem C34_between_local {D} (y : nat -> D) : collective np (fun p => Ret (y p) : prog T D) y.
Proof. apply goes_refl. Qed.
Theorem C34_between_sequence {D D'} (a : nat -> prog T D) ya (b : nat -> D -> prog T D') yb :
  collective np a ya -> collective np (fun p => b p (ya p)) yb -> collective np (fun p => pbind (a p) (b p)) yb.
Proof. intros A B. eapply goes_trans; [exact (goes_bind np b a ya A)|exact B]. Qed.
Theorem C34_between_gs m hs t (u w : nat -> list T) buf :
  cmonoid op e -> setup_fits usize lsize INT_MAX np ids -> setup_gives usize lsize INT_MAX np ids false m hs ->
  (forall p, p < np -> length (u p) = length (ids p)) -> buffers np 1 hs buf -> gs_gives usize np op e t hs u w ->
  collective np (fun p => gs op e (UINT_MAX usize) np p t (hs p) (u p) (buf p)) (fun p => UFlat (w p)).
Proof.
  intros M F G Hu Hb W. pose proof (setup_handle _ _ _ _ _ _ _ F G) as ok.
  apply (gives_goes op e M usize np ids hs ok mode_plain 1 t _ _ (fun p i k => nth i (u p) e)); auto.
  intros p Hp. apply plain_data. auto.
Qed.
(** With a pairwise handle, for any operation. *)
Theorem C34_between_gs_pairwise hs t (u w : nat -> list T) buf : (forall p, p < np -> is_pairwise (hs p)) ->
  buffers np 1 hs buf -> gs_gives usize np op e t hs u w ->
  collective np (fun p => gs op e (UINT_MAX usize) np p t (hs p) (u p) (buf p)) (fun p => UFlat (w p)).
Proof. intros P Hb W. exact (pairwise_goes op e usize np hs mode_plain 1 t (fun p => UFlat (u p)) (fun p => UFlat (w p)) buf P (W buf Hb)). Qed.
Theorem C34_between_igs hs t (u w : nat -> list T) buf D (mid : nat -> prog T D) y : (forall p, p < np -> is_pairwise (hs p)) ->
  buffers np 1 hs buf -> gs_gives usize np op e t hs u w ->
  collective np mid y ->
  collective np (fun p => igs_then_wait op e usize np conf mode_plain 1 t (mid p) (hs p) p (UFlat (u p)) (buf p)) (fun p => (y p, UFlat (w p))).
Proof.
  intros P Hb W Hm. apply (pairwise_overlap op e usize np conf hs mode_plain 1 t (fun p => UFlat (u p)) (fun p => UFlat (w p)) buf); auto.
  exact (C34_between_gs_pairwise hs t u w buf P Hb W).
Qed.

(** Two operations may be outstanding at the same time, on two handles (of the same or of
    different ids) with two buffers, and are completed in either order. *)
Theorem C34_two_outstanding (op2 : T -> T -> T) e2 hs1 hs2 t1 t2 (u1 w1 u2 w2 : nat -> list T) buf1 buf2 (swap : bool) :
  (forall p, p < np -> is_pairwise (hs1 p) /\ is_pairwise (hs2 p)) ->
  buffers np 1 hs1 buf1 -> buffers np 1 hs2 buf2 ->
  gs_gives usize np op e t1 hs1 u1 w1 -> gs_gives usize np op2 e2 t2 hs2 u2 w2 ->
  always_returns (map (fun p =>
    pbind (igs_aux op e (UINT_MAX usize) mode_plain 1 np p t1 conf (hs1 p) (UFlat (u1 p)) (buf1 p)) (fun a =>
    pbind (igs_aux op2 e2 (UINT_MAX usize) mode_plain 1 np p t2 conf (hs2 p) (UFlat (u2 p)) (buf2 p)) (fun b =>
    let wait1 := wait_aux op (UINT_MAX usize) mode_plain 1 np t1 conf (hs1 p) a in
    let wait2 := wait_aux op2 (UINT_MAX usize) mode_plain 1 np t2 conf (hs2 p) b in
    if swap then pbind wait2 (fun w2 => pbind wait1 (fun w1 => Ret (w1, w2)))
    else pbind wait1 (fun w1 => pbind wait2 (fun w2 => Ret (w1, w2)))))) (seq 0 np))
  (map (fun p => (UFlat (w1 p), UFlat (w2 p))) (seq 0 np)).
Proof.
  intros P B1 B2 W1 W2. apply goes_always_fun. apply pairwise_two; try (intros p Hp; apply P; auto).
  - apply pairwise_goes; [intros p Hp; apply P; auto|exact (W1 buf1 B1)].
  - apply pairwise_goes; [intros p Hp; apply P; auto|exact (W2 buf2 B2)].
Qed.

(** C35: igs with the other methods.  All-reduce works when MPI_Iallreduce can be used and some
    id is shared, or on one process. *)
Theorem C35_igs_all_reduce m hs t (u w : nat -> list T) :
  cmonoid op e -> setup_fits usize lsize INT_MAX np ids -> setup_gives usize lsize INT_MAX np ids false m hs ->
  (forall p, p < np -> is_all_reduce (hs p)) ->
  (forall p, p < np -> length (u p) = length (ids p)) ->
  np = 1 \/ (use_mpi conf = true /\ use_nbc conf = true /\ mpi_known conf = true /\ something_shared np ids) ->
  gs_gives usize np op e t hs u w -> igs_gives op e usize np conf t hs u w.
Proof.
  intros M F G P Hu C W. pose proof (setup_handle _ _ _ _ _ _ _ F G) as ok.
  destruct (setup_all_reduce _ _ _ _ _ _ _ F G P) as (N & Har & ord & Num).
  apply (all_reduce_gives op e M usize np ids hs ok conf mode_plain 1 t _ _ (fun p i k => nth i (u p) e)) with (N := N); auto.
  - intros p Hp. apply plain_data. auto.
  - destruct C as [C|(C1 & C2 & C3 & C4)].
    + left. split; auto. rewrite C in Num. exact (alone _ _ _ Num).
    + right. do 3 (split; auto). split; [destruct C4 as (p & q & z & ?); lia|]. apply (shared_number _ _ _ _ Num). auto.
Qed.

(** In every other case igs and gs_wait do not work: the program stops or its behaviour is
    undefined, on every process and in every execution.  Crystal router: function pointers
    never set.  All-reduce on several MPI processes: library built without GSLIB_USE_NBC, or
    domain or operation (gs_bpr) without MPI counterpart, or no id shared. *)
Theorem C35_igs_crystal_never hs mode vn t (u : nat -> udata T) :
  (forall p, p < np -> is_crystal (hs p)) -> igs_never op e usize np conf mode vn t hs u.
Proof.
  intros P buf Hb sched st. apply never_start. intros p Hp. apply never_crystal. auto.
Qed.
Theorem C35_igs_all_reduce_never m hs mode vn t (u : nat -> udata T) :
  setup_fits usize lsize INT_MAX np ids -> setup_gives usize lsize INT_MAX np ids false m hs ->
  (forall p, p < np -> is_all_reduce (hs p)) -> 1 < np -> use_mpi conf = true ->
  use_nbc conf = false \/ mpi_known conf = false \/ ~ something_shared np ids ->
  igs_never op e usize np conf mode vn t hs u.
Proof.
  intros F G P Hnp C1 C buf Hb sched st. apply never_start. intros p Hp.
  destruct (setup_all_reduce _ _ _ _ _ _ _ F G P) as (N & Har & ord & Num). destruct (Har p Hp) as (d & Hd & EN).
  apply (never_all_reduce op e usize np conf hs mode vn t u buf p d); auto.
  destruct C as [->|[->|C]]; auto; [rewrite andb_false_r; auto|].
  destruct (Nat.eq_dec N 0) as [->|Hn]; [|destruct C; apply (shared_number _ _ _ _ Num); auto].
  rewrite EN. cbn. rewrite Nat.mul_0_r. cbn. apply andb_false_r.
Qed.
End Properties.

(** The expectation that igs and gs_wait can be used wherever gs can. *)
Definition igs_with_every_method : Prop :=
  forall (T : Type) (op : T -> T -> T) (e : T) usize lsize INT_MAX np ids conf m hs t (u w : nat -> list T),
  cmonoid op e -> setup_fits usize lsize INT_MAX np ids -> setup_gives usize lsize INT_MAX np ids false m hs ->
  (forall p, p < np -> length (u p) = length (ids p)) ->
  gs_gives usize np op e t hs u w -> igs_gives op e usize np conf t hs u w.
Theorem C35_igs_with_every_method_refuted : ~ igs_with_every_method.
Proof.
  intros H. destruct ex_fits as (F & _ & Hu). destruct (C25_setup_returns _ _ _ _ _ gs_crystal_router F) as [hs G].
  pose proof (H nat Nat.add 0 1 1 255 2 ids_ex (Conf true true true 0) gs_crystal_router hs false u_ex _ nat_add_monoid F G Hu (ex_gs _ _ G)) as I.
  set (buf := fun p => repeat 0 (1 * buffer_size (g_r (hs p)))).
  assert (Hb : buffers 2 1 hs buf) by (intros p Hp; apply repeat_length).
  destruct (I buf Hb unit (fun _ => Ret tt) (fun _ => tt) (C34_between_local _ _)) as [n A].
  destruct (A [] _ eq_refl) as (rest & fin & E & Fin & _).
  pose proof (C35_igs_crystal_never Nat.add 0 1 2 (Conf true true true 0) hs mode_plain 1 false (fun p => UFlat (u_ex p))
    (C34_method_of_handle _ _ _ _ _ _ _ F G) buf Hb (unbuffered rest) fin) as NV.
  unfold finished in Fin. destruct fin as [|ps fin]; [discriminate|]. cbn in Fin. injection Fin as Fin _.
  exact (NV E 0 ps _ ltac:(lia) eq_refl Fin).
Qed.

Print Assumptions C34_igs.
Print Assumptions C34_igs_vec.
Print Assumptions C34_igs_many.
Print Assumptions C34_igs_bracketing.
Print Assumptions C34_between_gs.
Print Assumptions C34_between_gs_pairwise.
Print Assumptions C34_between_igs.
Print Assumptions C34_two_outstanding.
Print Assumptions C35_igs_all_reduce.
Print Assumptions C35_igs_crystal_never.
Print Assumptions C35_igs_all_reduce_never.
Print Assumptions C35_igs_with_every_method_refuted.

(** Non-vacuity: the example of Properties_Gs, pairwise, with a second gs in between. *)
Example ex_igs hs buf buf2 : setup_gives 1 1 255 2 ids_ex false gs_pairwise hs -> buffers 2 1 hs buf -> buffers 2 1 hs buf2 ->
  always_returns (map (fun p => igs_then_wait Nat.add 0 1 2 (Conf true false true 0) mode_plain 1 false
      (gs Nat.add 0 (UINT_MAX 1) 2 p false (hs p) (u_ex p) (buf2 p)) (hs p) p (UFlat (u_ex p)) (buf p)) (seq 0 2))
    [(UFlat [5; 16; 8; 16], UFlat [5; 16; 8; 16]); (UFlat [16; 2; 5], UFlat [16; 2; 5])].
Proof.
  intros G Hb Hb2. destruct ex_fits as (F & _ & Hu).
  refine (C34_igs Nat.add 0 1 2 (Conf true false true 0) hs false u_ex _ (C34_method_of_handle _ _ _ _ _ _ _ F G) (ex_gs _ _ G) buf Hb _ _ _
     (C34_between_gs Nat.add 0 1 1 255 2 ids_ex gs_pairwise hs false u_ex _ buf2 nat_add_monoid F G Hu Hb2 (ex_gs _ _ G))).
Qed.
Example ex_shared : something_shared 2 ids_ex.
Proof. exists 0, 1, 2%Z. cbn. repeat split; auto; lia. Qed.
