(** Proofs about CommLife.v. *)
From Verif Require Import Base CommLife CommLifeSpec.
Local Open Scope nat_scope.

Definition mok (m : mpi) : Prop := NoDup (lives m) /\ forall e, In e (live m) -> fst e < fresh m.
Definition has (m : mpi) (s : comm) : Prop := In (c s, (id s, np s)) (live m).
Definition added (m : mpi) (rs : nat * nat) (d : comm) (m' : mpi) : Prop :=
  id d = fst rs /\ np d = snd rs /\ live m' = (c d, rs) :: live m /\ fresh m <= c d < fresh m'.

Lemma find_in m ce rs : mok m -> In (ce, rs) (live m) -> rank_size m ce = Ok rs.
Proof.
  intros [N _]. unfold rank_size, lives in *. induction (live m) as [|[x v] l IH]; simpl in *; [tauto|].
  inversion N; subst. intros [E|I].
  - inversion E; subst. now rewrite Nat.eqb_refl.
  - destruct (x =? ce) eqn:Q; [|auto]. apply Nat.eqb_eq in Q. subst. elim H1. now apply (in_map fst _ (ce, rs)).
Qed.
Lemma rank_in m ce rs : rank_size m ce = Ok rs -> In (ce, rs) (live m).
Proof.
  unfold rank_size. destruct (find _ _) as [[x v]|] eqn:F; [|discriminate].
  apply find_some in F. destruct F as [I E]. simpl in E. apply Nat.eqb_eq in E. subst. intros H. now inversion H; subst.
Qed.
Lemma rank_not m ce : rank_size m ce <> Abort /\ rank_size m ce <> OutOfFuel.
Proof. unfold rank_size. destruct (find _ _); split; discriminate. Qed.
Lemma in_lives m ce : In ce (lives m) -> exists rs, In (ce, rs) (live m).
Proof. unfold lives. intros I. apply in_map_iff in I as ([x v] & E & I). simpl in E. subst. eauto. Qed.

Lemma added_ok m rs d m' : mok m -> added m rs d m' -> mok m'.
Proof.
  intros [N B] (_ & _ & L & Fr). unfold mok, lives. rewrite L. simpl. split.
  - constructor; auto. intros I. apply in_map_iff in I as (e & E & I). specialize (B e I). lia.
  - intros e [E|I]; [subst; simpl; lia|]. specialize (B e I). lia.
Qed.
Lemma filter_all m x : (forall e, In e (live m) -> fst e <> x) -> filter (fun e => negb (fst e =? x)) (live m) = live m.
Proof.
  induction (live m) as [|e l IH]; simpl; auto. intros H.
  destruct (fst e =? x) eqn:Q; [apply Nat.eqb_eq in Q; elim (H e); auto|]. simpl. f_equal. apply IH. auto.
Qed.

(** comm_dup, comm_init, comm_split. *)
Lemma dup_added m s : mok m -> has m s -> exists d m', comm_dup m s = Ok (d, m') /\ added m (id s, np s) d m'.
Proof.
  intros M H. unfold comm_dup, MPI_Comm_dup. rewrite (find_in m _ _ M H). simpl.
  do 2 eexists. split; [reflexivity|]. unfold added. simpl. repeat split; lia.
Qed.
Lemma init_added m ce rs : mok m -> In (ce, rs) (live m) -> exists d m', comm_init m ce = Ok (d, m') /\ added m rs d m'.
Proof.
  intros M H. unfold comm_init, MPI_Comm_dup. rewrite (find_in m _ _ M H). simpl.
  unfold rank_size. simpl. rewrite Nat.eqb_refl. destruct rs as [r n]. simpl.
  do 2 eexists. split; [reflexivity|]. unfold added. simpl. repeat split; lia.
Qed.
Lemma free_new m rs d m' : mok m -> added m rs d m' -> MPI_Comm_free m' (c d) = Ok (MPI (live m) (fresh m')).
Proof.
  intros M A. pose proof (added_ok m rs d m' M A) as M'. destruct A as (_ & _ & L & Fr). unfold MPI_Comm_free.
  rewrite (find_in m' (c d) rs M'); [|rewrite L; left; auto]. simpl. rewrite L. simpl. rewrite Nat.eqb_refl. simpl.
  rewrite filter_all; auto. intros e I. destruct M as [_ B]. specialize (B e I). lia.
Qed.
Lemma has_added m rs d m' s : added m rs d m' -> has m s -> has m' s.
Proof. intros (_ & _ & L & _) H. unfold has. rewrite L. right. auto. Qed.
Lemma has_new m rs d m' : added m rs d m' -> has m' d.
Proof. intros (I & N & L & _). unfold has. rewrite L, I, N. left. now destruct rs. Qed.
Lemma split_added m s rs : mok m -> has m s -> exists d m', comm_split m s rs = Ok (d, m') /\ added m rs d m'.
Proof.
  intros M H. unfold comm_split, MPI_Comm_split. rewrite (find_in m _ _ M H). unfold bind at 2. unfold MPI_Comm_new. cbv beta iota delta [bind].
  set (m1 := MPI ((fresh m, rs) :: live m) (S (fresh m))).
  assert (A1 : added m rs (Comm (fst rs) (snd rs) (fresh m)) m1) by (unfold added, m1; simpl; repeat split; lia).
  pose proof (added_ok _ _ _ _ M A1) as M1.
  destruct (init_added m1 (fresh m) rs M1) as (d & m2 & E & A2); [left; auto|]. rewrite E. 
  destruct A2 as (I & N & L & Fr). unfold m1 in Fr. simpl in Fr.
  assert (M2 : mok m2) by (apply (added_ok m1 rs d m2 M1); unfold added; auto).
  unfold MPI_Comm_free. rewrite (find_in m2 (fresh m) rs M2); [|rewrite L; right; left; auto].
  do 2 eexists. split; [reflexivity|]. unfold added. simpl. rewrite L. simpl.
  assert (Q : c d =? fresh m = false) by (apply Nat.eqb_neq; lia). rewrite Q, Nat.eqb_refl. simpl.
  rewrite filter_all; [|intros e Ie; destruct M as [_ B]; specialize (B e Ie); lia]. repeat split; auto; lia.
Qed.

(** gs_setup_aux and gs_unique leave the live communicators as they were. *)
Lemma aux_same m s : mok m -> has m s -> exists m', gs_setup_aux m s = Ok m' /\ live m' = live m /\ fresh m <= fresh m'.
Proof.
  intros M H. unfold gs_setup_aux, crystal_init, crystal_free, comm_free.
  destruct (dup_added m s M H) as (d & m1 & E & A). rewrite E. unfold bind.
  pose proof (added_ok _ _ _ _ M A) as M1.
  rewrite (find_in m1 _ _ M1 (has_new _ _ _ _ A)), (find_in m1 _ _ M1 (has_added _ _ _ _ _ A H)).
  rewrite (free_new m _ d m1 M A). eexists. split; [reflexivity|]. destruct A as (_ & _ & _ & Fr). simpl. split; auto. lia.
Qed.
Lemma unique_same m s : mok m -> has m s -> exists m', gs_unique m s = Ok m' /\ live m' = live m /\ fresh m <= fresh m'.
Proof.
  intros M H. unfold gs_unique, crystal_init, crystal_free, comm_free.
  destruct (dup_added m s M H) as (d & m1 & E & A). rewrite E. unfold bind.
  pose proof (added_ok _ _ _ _ M A) as M1. rewrite (find_in m1 _ _ M1 (has_new _ _ _ _ A)), (free_new m _ d m1 M A).
  eexists. split; [reflexivity|]. destruct A as (_ & _ & _ & Fr). simpl. split; auto. lia.
Qed.
Lemma create_added o m s : mok m -> has m s -> exists d m', create o m s = Ok (d, m') /\ added m (id s, np s) d m'.
Proof.
  intros M H. destruct (dup_added m s M H) as (d & m1 & E & A). pose proof (added_ok _ _ _ _ M A) as M1.
  pose proof (has_new _ _ _ _ A) as Hd.
  destruct o; simpl; unfold crystal_init, gs_setup, findpts_setup, findpts_setup_aux, crystal_init; rewrite E; simpl; eauto.
  - destruct (aux_same m1 d M1 Hd) as (m2 & E2 & L & Fr). rewrite E2. simpl. do 2 eexists. split; [reflexivity|].
    destruct A as (I & N & La & Fa). unfold added. rewrite L. repeat split; auto; lia.
  - rewrite (find_in m1 _ _ M1 Hd). simpl. eauto.
Qed.
Lemma fcreate_added o m ce n rs : mok m -> In (ce, rs) (live m) -> o <> OComm ->
  fcreate o m ce n = (if snd rs =? n then fcreate o m ce n else Abort) /\
  (snd rs = n -> exists d m', fcreate o m ce n = Ok (d, m') /\ added m rs d m').
Proof.
  intros M H No. unfold fcreate, comm_init_check. destruct (init_added m ce rs M H) as (d & m1 & E & A). rewrite E. simpl.
  pose proof (added_ok _ _ _ _ M A) as M1. pose proof (has_new _ _ _ _ A) as Hd. destruct A as (I & N & La & Fa).
  rewrite N. split; [destruct (snd rs =? n); reflexivity|]. intros <-. rewrite Nat.eqb_refl. simpl. destruct o; [congruence| | |].
  - do 2 eexists. split; [reflexivity|]. unfold added. auto.
  - destruct (aux_same m1 d M1 Hd) as (m2 & E2 & L & Fr). rewrite E2. simpl. do 2 eexists. split; [reflexivity|].
    unfold added. rewrite L. repeat split; auto; lia.
  - unfold findpts_setup_aux. rewrite (find_in m1 _ _ M1 Hd). simpl. do 2 eexists. split; [reflexivity|]. unfold added. auto.
Qed.
Lemma funique_added m ce n rs : mok m -> In (ce, rs) (live m) ->
  fgs_unique m ce n = (if snd rs =? n then fgs_unique m ce n else Abort) /\
  (snd rs = n -> exists d m', fgs_unique m ce n = Ok m' /\ added m rs d m').
Proof.
  intros M H. unfold fgs_unique, comm_init_check. destruct (init_added m ce rs M H) as (d & m1 & E & A). rewrite E. simpl.
  pose proof (added_ok _ _ _ _ M A) as M1. pose proof (has_new _ _ _ _ A) as Hd. destruct A as (I & N & La & Fa).
  rewrite N. split; [destruct (snd rs =? n); reflexivity|]. intros <-. rewrite Nat.eqb_refl. simpl.
  destruct (unique_same m1 d M1 Hd) as (m2 & E2 & L & Fr). exists d, m2. split; auto.
  unfold added. rewrite L. repeat split; auto; lia.
Qed.
Lemma destroy_free o m s : destroy o m s = MPI_Comm_free m (c s).
Proof. now destruct o. Qed.

(** The invariant: what is live is the program's, the objects' and [L]'s (lost); each object's id and np are its communicator's. *)
Definition inv (w : world) (L : list comm_ext) : Prop :=
  mok (mw w) /\ Permutation (lives (mw w)) (mine w ++ map c (holders w) ++ L) /\ forall s, In s (holders w) -> has (mw w) s.
Definition lost (a : call) : nat := match a with FGsUnique _ _ => 1 | _ => 0 end.

Lemma get_owned o l k s : get o l k = Some s -> Permutation (owned l) (s :: owned (upd l k None)).
Proof.
  unfold get. revert k. induction l as [|x l IH]; intros [|k]; simpl; try discriminate.
  - destruct x as [[o' s']|]; [|discriminate]. destruct (kind_eqb o o'); [|discriminate]. intros H. inversion H; subst. reflexivity.
  - intros H. specialize (IH k H). rewrite IH. symmetry. apply Permutation_middle.
Qed.
Lemma get_in o l k s : get o l k = Some s -> In s (owned l).
Proof. intros H. apply (Permutation_in _ (Permutation_sym (get_owned o l k s H))). left. auto. Qed.
Lemma owned_snoc l o d : owned (l ++ [Some (o, d)]) = owned l ++ [d].
Proof. unfold owned. rewrite flat_map_app. reflexivity. Qed.

Lemma inv_free m s m' : mok m -> MPI_Comm_free m s = Ok m' ->
  mok m' /\ Permutation (lives m) (s :: lives m') /\ forall x, In x (live m) -> fst x <> s -> In x (live m').
Proof.
  intros M. unfold MPI_Comm_free. destruct (rank_size m s) as [rs| | |] eqn:E; try discriminate. simpl.
  intros H. inversion H; subst. clear H. apply rank_in in E. destruct M as [N B]. unfold mok, lives in *. simpl.
  assert (P : Permutation (map fst (live m)) (s :: map fst (filter (fun e => negb (fst e =? s)) (live m)))).
  { clear B. induction (live m) as [|x l IH]; simpl in *; [tauto|]. inversion N; subst.
    destruct (fst x =? s) eqn:Q; simpl.
    - apply Nat.eqb_eq in Q. rewrite Q in *. apply perm_skip. clear -H1. induction l as [|y l IH]; simpl in *; auto.
      destruct (fst y =? s) eqn:Q; simpl; [apply Nat.eqb_eq in Q; tauto|]. apply perm_skip. tauto.
    - destruct E as [->|E]; [simpl in Q; rewrite Nat.eqb_refl in Q; discriminate|]. rewrite (IH H2 E). constructor. }
  split; [split|split]; auto.
  - apply (Permutation_NoDup P) in N. now inversion N.
  - intros e I. apply filter_In in I. apply B. tauto.
  - intros x I Ne. apply filter_In. split; auto. apply negb_true_iff. now apply Nat.eqb_neq.
Qed.
(** Freeing a communicator that occurs once keeps all others. *)
Lemma inv_rest m s m' rest : mok m -> MPI_Comm_free m s = Ok m' -> Permutation (lives m) (s :: rest) ->
  mok m' /\ Permutation (lives m') rest /\ forall x, In x (live m) -> In (fst x) rest -> In x (live m').
Proof.
  intros M F P. destruct (inv_free m s m' M F) as (M' & P' & K). split; [auto|split].
  - apply (Permutation_cons_inv (a := s)). now rewrite <- P', P.
  - intros x I R. apply K; auto. intros Q. rewrite Q in R. destruct M as [N _]. apply (Permutation_NoDup P) in N. inversion N; auto.
Qed.

Lemma inv_add m rs d m' L rest : mok m -> added m rs d m' -> Permutation (lives m) (rest ++ L) ->
  mok m' /\ Permutation (lives m') (c d :: rest ++ L).
Proof. intros M A P. split; [apply (added_ok m rs d m'); auto|]. destruct A as (_ & _ & E & _). unfold lives in *. rewrite E. simpl. now rewrite P. Qed.

(** Permutations of lists of numbers by counting. *)
Ltac count x := do 3 (repeat rewrite ?map_app, ?count_occ_app, ?map_cons, ?owned_snoc in *; simpl in * );
  repeat match goal with |- context [if ?b then _ else _] => destruct b | H : context [if ?b then _ else _] |- _ => destruct b end;
  repeat rewrite ?map_app, ?count_occ_app in *; simpl in *; lia.
Ltac permc := match goal with
  | P : Permutation _ _ |- Permutation _ _ =>
    apply (Permutation_count_occ Nat.eq_dec); let x := fresh "x" in intros x;
    pose proof (proj1 (Permutation_count_occ Nat.eq_dec _ _) P x); clear P; count x
  end.

Lemma inv_obj w L m' o d : inv w L -> (exists rs, added (mw w) rs d m') -> inv (World m' (mine w) (objs w ++ [Some (o, d)]) (tabs w)) L.
Proof.
  intros (M & P & H) (rs & A). destruct (inv_add _ rs d m' L (mine w ++ map c (holders w)) M A) as (M' & P'); [now rewrite <- app_assoc|].
  split; [auto|split].
  - clear P. unfold holders in *. simpl. permc.
  - unfold holders. simpl. intros s I. rewrite owned_snoc, !in_app_iff in I.
    assert (S : In s (holders w) \/ s = d) by (unfold holders; rewrite in_app_iff; simpl in I; intuition).
    destruct S as [S|S]; [|subst s]; [apply (has_added _ _ _ _ _ A); auto|apply (has_new _ _ _ _ A)].
Qed.
Lemma inv_tab w L m' o d : inv w L -> (exists rs, added (mw w) rs d m') -> inv (World m' (mine w) (objs w) (tabs w ++ [Some (o, d)])) L.
Proof.
  intros (M & P & H) (rs & A). destruct (inv_add _ rs d m' L (mine w ++ map c (holders w)) M A) as (M' & P'); [now rewrite <- app_assoc|].
  split; [auto|split].
  - clear P. unfold holders in *. simpl. permc.
  - unfold holders. simpl. intros s I. rewrite owned_snoc, !in_app_iff in I.
    assert (S : In s (holders w) \/ s = d) by (unfold holders; rewrite in_app_iff; simpl in I; intuition).
    destruct S as [S|S]; [|subst s]; [apply (has_added _ _ _ _ _ A); auto|apply (has_new _ _ _ _ A)].
Qed.
Lemma inv_lost w L m' rs d : inv w L -> added (mw w) rs d m' -> inv (World m' (mine w) (objs w) (tabs w)) (c d :: L).
Proof.
  intros (M & P & H) A. destruct (inv_add _ rs d m' L (mine w ++ map c (holders w)) M A) as (M' & P'); [now rewrite <- app_assoc|].
  split; [auto|split].
  - clear P. unfold holders in *. simpl. permc.
  - intros s I. apply (has_added _ _ _ _ _ A). auto.
Qed.
(** Same live communicators, more handles used up. *)
Lemma inv_same w L m' : inv w L -> live m' = live (mw w) -> fresh (mw w) <= fresh m' -> inv (World m' (mine w) (objs w) (tabs w)) L.
Proof.
  intros ((N & B) & P & H) E F. unfold inv, mok, has, lives, holders in *. simpl. rewrite E. repeat split; auto.
  intros e I. specialize (B e I). lia.
Qed.
Lemma inv_drop w L m' s mi ob ta : inv w L -> MPI_Comm_free (mw w) s = Ok m' ->
  Permutation (lives (mw w)) (s :: mi ++ map c (owned ob ++ owned ta) ++ L) ->
  (forall x, In x (owned ob ++ owned ta) -> In x (holders w)) -> inv (World m' mi ob ta) L.
Proof.
  intros (M & P & H) F Q S. destruct (inv_rest _ _ _ _ M F Q) as (M' & P' & K). split; [auto|split]; [exact P'|].
  unfold holders. simpl. intros x I. apply K; [apply H; auto|]. simpl. rewrite !in_app_iff. right. left. apply in_map. auto.
Qed.
Lemma upd_in o l k s x : get o l k = Some s -> In x (owned (upd l k None)) -> In x (owned l).
Proof. intros G I. apply (Permutation_in _ (Permutation_sym (get_owned o l k s G))). right. auto. Qed.

Lemma nodup_left (a b : list nat) : NoDup (a ++ b) -> NoDup a.
Proof.
  induction a as [|x a IH]; simpl; [constructor|]. intros N. inversion N; subst. constructor; auto.
  intros I. apply H1. apply in_or_app. auto.
Qed.
Lemma filter_perm (l : list nat) x : NoDup l -> In x l -> Permutation l (x :: filter (fun y => negb (y =? x)) l).
Proof.
  induction l as [|y l IH]; simpl; [tauto|]. intros N I. inversion N; subst. destruct (y =? x) eqn:Q; simpl.
  - apply Nat.eqb_eq in Q. subst. apply perm_skip. clear - H1. induction l as [|z l IH]; simpl in *; [constructor|].
    destruct (z =? x) eqn:Q; simpl; [apply Nat.eqb_eq in Q; tauto|]. apply perm_skip. tauto.
  - destruct I as [->|I]; [rewrite Nat.eqb_refl in Q; discriminate|]. rewrite (IH H2 I) at 1. constructor.
Qed.

Lemma has_obj w L o k s : inv w L -> get o (objs w) k = Some s -> has (mw w) s.
Proof. intros (_ & _ & H) G. apply H. unfold holders. apply in_or_app. left. eapply get_in; eauto. Qed.
Lemma has_tab w L o k s : inv w L -> get o (tabs w) k = Some s -> has (mw w) s.
Proof. intros (_ & _ & H) G. apply H. unfold holders. apply in_or_app. right. eapply get_in; eauto. Qed.
Lemma mine_live w L ce : inv w L -> In ce (mine w) -> exists rs, In (ce, rs) (live (mw w)).
Proof. intros (_ & P & _) I. apply in_lives. apply (Permutation_in _ (Permutation_sym P)). apply in_or_app. auto. Qed.

Lemma get_nth o l k s : nth_error l k = Some (Some (o, s)) -> get o l k = Some s.
Proof. intros E. unfold get. rewrite E. now destruct o. Qed.

(** A call that respects the rules is defined, and preserves the invariant. *)
Lemma get_inv o l k s : get o l k = Some s -> nth_error l k = Some (Some (o, s)).
Proof.
  unfold get. destruct (nth_error l k) as [[[o' s']|]|]; try discriminate. destruct o, o'; try discriminate; intros E; now inversion E.
Qed.
Lemma step_ok w L a : inv w L -> respects w a ->
  (step w a = Abort /\ fails w a) \/ ~ fails w a /\ exists w' L', step w a = Ok w' /\ inv w' L' /\ length L' = lost a + length L.
Proof.
  intros I R. pose proof I as (M & P & H).
  assert (FREE : forall o ob s, MPI_Comm_free (mw w) (c s) = destroy o (mw w) s /\ (has (mw w) s -> exists m', MPI_Comm_free (mw w) (c s) = Ok m') /\ ob = ob :> nat).
  { intros o ob s. rewrite destroy_free. split; [auto|split; auto]. intros Hs. unfold MPI_Comm_free. rewrite (find_in _ _ _ M Hs). simpl. eauto. }
  destruct a; simpl in R |- *; unfold obj, hdl.
  - right. split; [tauto|]. exists (World (snd (MPI_Comm_new rs (mw w))) (fresh (mw w) :: mine w) (objs w) (tabs w)), L. split; [reflexivity|split; auto].
    assert (A : added (mw w) rs (Comm (fst rs) (snd rs) (fresh (mw w))) (snd (MPI_Comm_new rs (mw w)))) by (unfold added; simpl; repeat split; lia).
    destruct (inv_add _ _ _ _ L (mine w ++ map c (holders w)) M A) as (M' & P'); [now rewrite <- app_assoc|].
    split; [auto|split]; [|intros s Is; apply (has_added _ _ _ _ _ A); auto].
    clear P. unfold holders in *. simpl in P'. simpl. rewrite <- app_assoc in P'. exact P'.
  - right. split; [tauto|]. destruct (mine_live w L ce I R) as (rs & Il).
    assert (E : existsb (Nat.eqb ce) (mine w) = true) by (apply existsb_exists; exists ce; split; auto; apply Nat.eqb_refl). rewrite E.
    destruct (MPI_Comm_free (mw w) ce) as [m'| | |] eqn:F; try (unfold MPI_Comm_free in F; rewrite (find_in _ _ _ M Il) in F; discriminate).
    simpl. do 2 eexists. split; [reflexivity|]. split; [|reflexivity].
    apply (inv_drop w L m' ce); auto. 
    assert (Nm : NoDup (mine w)) by (destruct M as [N _]; apply (Permutation_NoDup P) in N; apply nodup_left in N; auto).
    rewrite P. rewrite (filter_perm _ _ Nm R) at 1. reflexivity.
  - right. split; [tauto|]. destruct (mine_live w L ce I R) as (rs & Il). destruct (init_added _ _ _ M Il) as (d & m' & E & A). rewrite E. simpl.
    do 2 eexists. split; [reflexivity|]. split; [|reflexivity]. apply inv_obj; eauto.
  - right. split; [tauto|]. destruct R as (s & G). apply get_nth in G. rewrite G. simpl.
    destruct (split_added _ s rs M (has_obj _ _ _ _ _ I G)) as (d & m' & E & A). rewrite E. simpl.
    do 2 eexists. split; [reflexivity|]. split; [|reflexivity]. apply inv_obj; eauto.
  - right. split; [tauto|]. destruct R as (s & G). apply get_nth in G. rewrite G. simpl.
    destruct (create_added o _ s M (has_obj _ _ _ _ _ I G)) as (d & m' & E & A). rewrite E. simpl.
    do 2 eexists. split; [reflexivity|]. split; [|reflexivity]. apply inv_obj; eauto.
  - right. split; [tauto|]. destruct R as (s & G). apply get_nth in G. rewrite G. simpl.
    destruct (FREE o 0 s) as (E & X & _). destruct (X (has_obj _ _ _ _ _ I G)) as (m' & F). rewrite <- E, F. simpl.
    do 2 eexists. split; [reflexivity|]. split; [|reflexivity]. apply (inv_drop w L m' (c s)); auto.
    + pose proof (get_owned _ _ _ _ G) as Q. rewrite P. unfold holders. apply (Permutation_map c) in Q. clear P. permc.
    + intros x. unfold holders. rewrite !in_app_iff. intros [Y|Y]; auto. left. eapply upd_in; eauto.
  - right. split; [tauto|]. destruct R as (s & G). apply get_nth in G. rewrite G. simpl. rewrite (find_in _ _ _ M (has_obj _ _ _ _ _ I G)). simpl.
    exists w, L. auto.
  - right. split; [tauto|]. destruct R as (s & G). apply get_nth in G. rewrite G. simpl.
    destruct (unique_same _ s M (has_obj _ _ _ _ _ I G)) as (m' & E & El & Fr). rewrite E. simpl.
    do 2 eexists. split; [reflexivity|]. split; [|reflexivity]. apply inv_same; auto.
  - destruct R as (R & No). destruct (mine_live w L ce I R) as (rs & Il).
    destruct (fcreate_added o _ ce n rs M Il No) as (B & X). destruct (Nat.eq_dec (snd rs) n) as [Q|Q].
    + right. split; [intros N; apply (N (fst rs)); rewrite (find_in _ _ _ M Il), <- Q; now destruct rs|]. destruct (X Q) as (d & m' & E & A). rewrite E. simpl.
      do 2 eexists. split; [reflexivity|]. split; [|reflexivity]. apply inv_tab; eauto.
    + left. split; [apply Nat.eqb_neq in Q; rewrite Q in B; now rewrite B|].
      intros r N. rewrite (find_in _ _ _ M Il) in N. inversion N; subst. now apply Q.
  - destruct (get o (tabs w) h) as [s|] eqn:G; [|left; split; [reflexivity|intros s E; apply get_nth in E; congruence]]. right. split; [intros N; apply get_inv in G; now apply (N s)|]. simpl.
    destruct (FREE o 0 s) as (E & X & _). destruct (X (has_tab _ _ _ _ _ I G)) as (m' & F). rewrite <- E, F. simpl.
    do 2 eexists. split; [reflexivity|]. split; [|reflexivity]. apply (inv_drop w L m' (c s)); auto.
    + pose proof (get_owned _ _ _ _ G) as Q. rewrite P. unfold holders. apply (Permutation_map c) in Q. clear P. permc.
    + intros x. unfold holders. rewrite !in_app_iff. intros [Y|Y]; auto. right. eapply upd_in; eauto.
  - destruct (get o (tabs w) h) as [s|] eqn:G; [|left; split; [reflexivity|intros s E; apply get_nth in E; congruence]]. right. split; [intros N; apply get_inv in G; now apply (N s)|]. simpl.
    rewrite (find_in _ _ _ M (has_tab _ _ _ _ _ I G)). simpl. exists w, L. auto.
  - destruct (mine_live w L ce I R) as (rs & Il).
    destruct (funique_added _ ce n rs M Il) as (B & X). destruct (Nat.eq_dec (snd rs) n) as [Q|Q].
    + right. split; [intros N; apply (N (fst rs)); rewrite (find_in _ _ _ M Il), <- Q; now destruct rs|]. destruct (X Q) as (d & m' & E & A). rewrite E. simpl.
      do 2 eexists. split; [reflexivity|]. split; [eapply inv_lost; eauto|reflexivity].
    + left. split; [apply Nat.eqb_neq in Q; rewrite Q in B; now rewrite B|].
      intros r N. rewrite (find_in _ _ _ M Il) in N. inversion N; subst. now apply Q.
Qed.

Lemma inv_start rs : inv (start rs) [].
Proof. unfold inv, mok, start, lives. simpl. repeat split; auto; [constructor; [simpl; tauto|constructor]|intros e [<-|[]]; simpl; lia|intros s []]. Qed.

Lemma history_inv rs h w : history rs h w -> exists L, inv w L /\ length L = losses h.
Proof.
  induction 1 as [|h w a w' Hh IH R S]; [exists []; split; [apply inv_start|reflexivity]|].
  destruct IH as (L & I & E). destruct (step_ok w L a I R) as [[F _]|(_ & w2 & L2 & S2 & I2 & E2)]; [congruence|].
  rewrite S in S2. inversion S2; subst. exists L2. split; auto. unfold losses in *. rewrite filter_app, app_length, E2, E.
  destruct a; simpl; lia.
Qed.

(** A check of a given history, for the examples. *)
Definition respectsb (w : world) (a : call) : bool :=
  let isk o k := match nth_error (objs w) k with Some (Some (o', _)) => kind_eqb o o' | _ => false end in
  match a with
  | NewComm _ | FDestroy _ _ | FUse _ _ => true
  | FreeComm ce | CommInit ce | FGsUnique ce _ => existsb (Nat.eqb ce) (mine w)
  | FCreate o ce _ => existsb (Nat.eqb ce) (mine w) && negb (kind_eqb o OComm)
  | CommSplit k _ | Create _ k | GsUnique k => isk OComm k
  | Destroy o k | Use o k => isk o k
  end.
Fixpoint check (w : world) (h : list call) : option world :=
  match h with
  | [] => Some w
  | a :: h => if respectsb w a then match step w a with Ok w => check w h | _ => None end else None
  end.
Lemma respectsb_ok w a : respectsb w a = true -> respects w a.
Proof.
  assert (K : forall o k, match nth_error (objs w) k with Some (Some (o', _)) => kind_eqb o o' | _ => false end = true ->
                exists s, nth_error (objs w) k = Some (Some (o, s))).
  { intros o k. destruct (nth_error (objs w) k) as [[[o' s]|]|]; try discriminate. destruct o, o'; try discriminate; eauto. }
  assert (Q : forall ce, existsb (Nat.eqb ce) (mine w) = true -> In ce (mine w)).
  { intros ce E. apply existsb_exists in E as (x & I & E). apply Nat.eqb_eq in E. now subst. }
  destruct a; simpl; auto. intros E. apply andb_true_iff in E as [E F]. split; auto. intros ->. discriminate.
Qed.
Lemma check_ok rs h0 w0 h w : history rs h0 w0 -> check w0 h = Some w -> history rs (h0 ++ h) w.
Proof.
  revert h0 w0. induction h as [|a h IH]; simpl; intros h0 w0 H E.
  - inversion E; subst. now rewrite app_nil_r.
  - destruct (respectsb w0 a) eqn:R; [|discriminate]. destruct (step w0 a) as [w1| | |] eqn:S; try discriminate.
    change (a :: h) with ([a] ++ h). rewrite app_assoc. apply (IH _ w1); auto.
    apply (h_call rs h0 w0 a w1); auto. now apply respectsb_ok.
Qed.
