(** C68: communicators are neither lost nor used after they are freed, but for the Fortran gs_unique. *)
From Verif Require Import Base CommLife CommLifeSpec CommLifeProof.
Local Open Scope nat_scope.

(** Whatever was called before, a call that respects the rules is defined: it stops in fail() for the reasons in [fails], and else returns.  So an object of the
    library never uses or frees a communicator that is not live, also after the one it was made from has been freed; and no
    object's communicator is freed twice. *)
Theorem C68_defined rs h w a : history rs h w -> respects w a ->
  step w a = Abort /\ fails w a \/ (exists w', step w a = Ok w') /\ ~ fails w a.
Proof.
  intros H R. destruct (history_inv rs h w H) as (L & I & _). destruct (step_ok w L a I R) as [A|(N & w' & L' & E & _)]; eauto.
Qed.

(** The live communicators are the program's own and one for each live object and valid handle. *)
Theorem C68_balance rs h w : history rs h w -> (forall ce n, ~ In (FGsUnique ce n) h) ->
  Permutation (lives (mw w)) (mine w ++ map c (holders w)).
Proof.
  intros H N. destruct (history_inv rs h w H) as (L & (_ & P & _) & E).
  assert (Z : losses h = 0).
  { unfold losses. clear - N. induction h as [|a h IH]; simpl; auto. destruct a; simpl; try (apply IH; intros x y I; apply (N x y); right; auto).
    elim (N ce n). left. auto. }
  rewrite Z in E. destruct L; [|discriminate]. now rewrite app_nil_r in P.
Qed.
(** So when everything has been freed only the program's own are left, each still live. *)
Theorem C68_all_freed rs h w : history rs h w -> (forall ce n, ~ In (FGsUnique ce n) h) ->
  (forall x, In x (objs w) -> x = None) -> (forall x, In x (tabs w) -> x = None) -> Permutation (lives (mw w)) (mine w).
Proof.
  intros H N O T. pose proof (C68_balance rs h w H N) as P.
  assert (E : forall l, (forall x, In x l -> x = None) -> owned l = []).
  { induction l as [|x l IH]; simpl; auto. intros F. rewrite (F x (or_introl eq_refl)). simpl. apply IH. auto. }
  unfold holders in P. rewrite (E _ O), (E _ T) in P. simpl in P. now rewrite app_nil_r in P.
Qed.
(** The program's own communicators are never freed by the library, no two holders share a communicator, and the id and np of
    every struct comm are this process's rank in its communicator and the size. *)
Theorem C68_separate rs h w : history rs h w ->
  NoDup (mine w ++ map c (holders w)) /\ (forall ce, In ce (mine w) -> In ce (lives (mw w))) /\
  forall s, In s (holders w) -> rank_size (mw w) (c s) = Ok (id s, np s).
Proof.
  intros H. destruct (history_inv rs h w H) as (L & (M & P & A) & _). repeat split.
  - destruct M as [N _]. apply (Permutation_NoDup P) in N. rewrite app_assoc in N. now apply nodup_left in N.
  - intros ce I. apply (Permutation_in _ (Permutation_sym P)). apply in_or_app. auto.
  - intros s I. apply find_in; auto. apply A. auto.
Qed.
(** An object made from a struct comm has its id and np; one made by comm_split those MPI gives. *)
Theorem C68_copies rs h w o k s : history rs h w -> nth_error (objs w) k = Some (Some (OComm, s)) ->
  exists d w', step w (Create o k) = Ok w' /\ objs w' = objs w ++ [Some (o, d)] /\ id d = id s /\ np d = np s /\ ~ In (c d) (lives (mw w)).
Proof.
  intros H G. destruct (history_inv rs h w H) as (L & I & _). apply get_nth in G.
  pose proof I as (M & _). destruct (create_added o _ s M (has_obj _ _ _ _ _ I G)) as (d & m' & E & Ei & En & _ & Fr).
  simpl. unfold obj. rewrite G. simpl. rewrite E. simpl. do 2 eexists. repeat split; auto.
  intros Il. apply in_lives in Il as (x & Il). destruct M as [_ B]. specialize (B _ Il). simpl in B. lia.
Qed.
Theorem C68_split rs h w k s r : history rs h w -> nth_error (objs w) k = Some (Some (OComm, s)) ->
  exists d w', step w (CommSplit k r) = Ok w' /\ objs w' = objs w ++ [Some (OComm, d)] /\ id d = fst r /\ np d = snd r /\
    lives (mw w') = c d :: lives (mw w).
Proof.
  intros H G. destruct (history_inv rs h w H) as (L & I & _). apply get_nth in G.
  pose proof I as (M & _). destruct (split_added _ s r M (has_obj _ _ _ _ _ I G)) as (d & m' & E & Ei & En & El & Fr).
  simpl. unfold obj. rewrite G. simpl. rewrite E. simpl. do 2 eexists. repeat split; auto.
  unfold lives. simpl. now rewrite El.
Qed.

(** gs_setup_aux and gs_unique free what they create, whatever happens before and after; but each call of the Fortran
    gs_unique loses a communicator for good: nothing a program can call afterwards frees it. *)
Theorem C68_fgs_unique_refuted rs h w : history rs h w ->
  length (lives (mw w)) = length (mine w) + length (holders w) + losses h.
Proof.
  intros H. destruct (history_inv rs h w H) as (L & (_ & P & _) & E). rewrite (Permutation_length P), !app_length, map_length. lia.
Qed.
(** A program that takes part in the Fortran gs_unique and frees everything it made is left with it. *)
Theorem C68_fgs_unique_alone_refuted rs ce n w w' h : history rs h w -> In ce (mine w) -> step w (FGsUnique ce n) = Ok w' ->
  history rs (h ++ [FGsUnique ce n]) w' /\ length (lives (mw w')) = S (length (lives (mw w))) /\ mine w' = mine w /\ holders w' = holders w.
Proof.
  intros H I S. assert (H' : history rs (h ++ [FGsUnique ce n]) w') by (econstructor; eauto). split; [auto|].
  assert (E : mine w' = mine w /\ holders w' = holders w).
  { simpl in S. destruct (fgs_unique (mw w) ce n); try discriminate. simpl in S. inversion S; subst. auto. }
  split; [|exact E]. destruct E as [E1 E2].
  rewrite (C68_fgs_unique_refuted _ _ _ H'), (C68_fgs_unique_refuted _ _ _ H), E1, E2. unfold losses. rewrite filter_app, app_length. simpl. lia.
Qed.
Print Assumptions C68_defined.
Print Assumptions C68_balance.
Print Assumptions C68_all_freed.
Print Assumptions C68_separate.
Print Assumptions C68_copies.
Print Assumptions C68_split.
Print Assumptions C68_fgs_unique_refuted.
Print Assumptions C68_fgs_unique_alone_refuted.

(** A history: the program splits the world (rank 1 of 4 becomes rank 0 of 2), makes a handle on each part and a crystal router,
    frees the struct comms first, uses a handle, frees the rest; a Fortran handle is made, used, freed and used again (fail). *)
Definition part1 : list call :=
  [CommInit 0; CommSplit 0 (0, 2); Create OGs 1; Create OCrystal 1; Create OFindpts 0; Destroy OComm 0; Destroy OComm 1; Use OGs 2;
   FCreate OGs 0 4; FUse OGs 0; Destroy OGs 2; Destroy OCrystal 3].
Definition part2 : list call := [Destroy OFindpts 4; FDestroy OGs 0].
Example ex_history : exists w, history (1, 4) (part1 ++ part2) w /\ lives (mw w) = [0] /\ mine w = [0] /\
  objs w = repeat None 5 /\ tabs w = [None] /\ step w (FUse OGs 0) = Abort.
Proof.
  exists (World (MPI [(0, (1, 4))] 10) [0] (repeat None 5) [None]). split; [|repeat split].
  apply (check_ok (1, 4) [] (start (1, 4))); [apply h_nil|vm_compute; reflexivity].
Qed.
(** And one that calls the Fortran gs_unique twice: two communicators are left over. *)
Example ex_lost : exists w, history (1, 4) [FGsUnique 0 4; FGsUnique 0 4] w /\ lives (mw w) = [3; 1; 0] /\ mine w = [0] /\ holders w = [].
Proof.
  eexists. split; [apply (check_ok (1, 4) [] (start (1, 4))); [apply h_nil|vm_compute; reflexivity]|]. auto.
Qed.
