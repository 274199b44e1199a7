(** Proofs about the gather/scatter kernels. *)
From Verif Require Import Base BaseLemmas Kernels KernelSpec.

Section Lists.
Context {T : Type}.
Lemma holds_ext (l : list T) n f g : holds l n f -> (forall i, i < n -> f i = g i) -> holds l n g.
Proof. intros [H1 H2] E. split; auto. intros i Hi. rewrite H2, E; auto. Qed.
Lemma holds_rd (l : list T) n f i : holds l n f -> i < n -> rd l i = Ok (f i).
Proof. intros [H1 H2] Hi. unfold rd. rewrite H2; auto. Qed.
Lemma holds_upd (l : list T) n f i v : holds l n f -> i < n ->
  holds (upd l i v) n (fun p => if p =? i then v else f p).
Proof.
  intros [H1 H2] Hi. split; [rewrite upd_length; auto|]. intros p Hp.
  destruct (Nat.eqb_spec p i) as [->|N]; [rewrite nth_error_upd_eq; auto; lia|].
  rewrite nth_error_upd_ne by auto. auto.
Qed.
Lemma holds_wr (l : list T) n f i v : holds l n f -> i < n ->
  wr l i v = Ok (upd l i v).
Proof. intros [H1 H2] Hi. apply wr_ok. lia. Qed.
Lemma holds_unique (l l' : list T) n f : holds l n f -> holds l' n f -> l = l'.
Proof.
  intros [H1 H2] [H3 H4]. apply nth_error_ext. intros i. destruct (lt_dec i n) as [Hi|Hi].
  - rewrite H2, H4; auto.
  - transitivity (@None T); [|symmetry]; apply nth_error_None; lia.
Qed.
Lemma holds_nth (l : list T) d : holds l (length l) (fun i => nth i l d).
Proof. split; auto. intros i Hi. apply nth_error_nth'; auto. Qed.

Lemma hv_index vn p k i : k < vn -> (i * vn <= p * vn + k < i * vn + vn <-> p = i).
Proof. intros Hk. split; [|intros ->; lia]. intros H. nia. Qed.
Lemma hv_bound n vn i k : i < n -> k < vn -> i * vn + k < n * vn.
Proof. nia. Qed.
End Lists.

Section Proof.
Context {T : Type}.
Variable op : T -> T -> T.
Variable ident : T.
Variable SENT : nat.

Definition mem_of (gs : groups) (j : nat) : Prop := exists i js, In (i, js) gs /\ In j js.

Lemma pairs_cons i js gs : pairs ((i, js) :: gs) = map (fun j => (i, j)) js ++ pairs gs.
Proof. reflexivity. Qed.

Lemma filter_head_eq (js : list nat) i p : filter (fun q : nat * nat => fst q =? p) (map (fun j => (i, j)) js)
  = if i =? p then map (fun j => (i, j)) js else [].
Proof.
  induction js as [|j js IH]; simpl; [destruct (i =? p); auto|].
  rewrite IH. destruct (i =? p); auto.
Qed.

Lemma gathered_cons i js gs a p old :
  gathered op ((i, js) :: gs) a p old =
  gathered op gs a p (if p =? i then fold_left op (map a js) old else old).
Proof.
  unfold gathered. rewrite pairs_cons, filter_app, filter_head_eq, map_app, fold_left_app.
  rewrite (Nat.eqb_sym i p). destruct (p =? i); auto. rewrite map_map. simpl. auto.
Qed.

Lemma scattered_cons i j js gs (a : nat -> T) p old :
  scattered ((i, j :: js) :: gs) a p old =
  scattered ((i, js) :: gs) a p (if p =? j then a i else old).
Proof.
  unfold scattered. rewrite !pairs_cons. simpl. rewrite (Nat.eqb_sym j p).
  destruct (p =? j); auto.
Qed.
Lemma scattered_nil i gs (a : nat -> T) p old : scattered ((i, []) :: gs) a p old = scattered gs a p old.
Proof. reflexivity. Qed.

(** ** gather *)
Lemma gather_next inp io stride g i : forall js t out r,
  (forall j, In j js -> rd (src inp out) (io + j * stride) = Ok (g j) /\ j <> SENT) ->
  i < length out ->
  gather_loop op SENT inp io stride (AtNext i t) (js ++ SENT :: r) out =
  gather_loop op SENT inp io stride AtHead r (upd out i (fold_left op (map g js) t)).
Proof.
  induction js as [|j js IH]; intros t out r H Hi; cbn [app gather_loop map fold_left].
  - rewrite Nat.eqb_refl, wr_ok by auto. reflexivity.
  - destruct (H j (or_introl eq_refl)) as [Hr Hs].
    apply Nat.eqb_neq in Hs. rewrite Hs, Hr. cbn [bind]. apply IH; auto.
    intros; apply H; right; auto.
Qed.

Lemma gather_group inp io stride g i js out r n f :
  holds out n f -> i < n -> i <> SENT -> js <> [] ->
  (forall j, In j js -> rd (src inp out) (io + j * stride) = Ok (g j) /\ j <> SENT) ->
  gather_loop op SENT inp io stride AtHead (i :: js ++ SENT :: r) out =
  gather_loop op SENT inp io stride AtHead r (upd out i (fold_left op (map g js) (f i))).
Proof.
  intros Ho Hi Hs Hn H. cbn [gather_loop]. apply Nat.eqb_neq in Hs. rewrite Hs.
  rewrite (holds_rd _ _ _ _ Ho Hi). cbn [bind].
  destruct js as [|j js]; [congruence|]. cbn [app gather_loop].
  destruct (H j (or_introl eq_refl)) as [Hr _]. rewrite Hr. cbn [bind].
  rewrite (gather_next inp io stride g).
  - reflexivity.
  - intros; apply H; right; auto.
  - destruct Ho; lia.
Qed.

Lemma encode_cons i js gs : encode SENT ((i, js) :: gs) = i :: js ++ SENT :: encode SENT gs.
Proof. unfold encode. simpl. rewrite <- !app_assoc. reflexivity. Qed.

(** What reading the input gives while the output holds f. *)
Definition input_ok (inp : option (list T)) (io stride : nat) (gs : groups) (g f : nat -> T) (n : nat) : Prop :=
  match inp with
  | Some a => forall j, mem_of gs j -> nth_error a (io + j * stride) = Some (g j)
  | None => io = 0 /\ stride = 1 /\ apart gs /\ forall j, mem_of gs j -> j < n /\ f j = g j
  end.

Lemma gather_loop_ok inp io stride g : forall gs n m out f,
  valid_map SENT n m gs -> holds out n f -> input_ok inp io stride gs g f n ->
  exists out', gather_loop op SENT inp io stride AtHead (encode SENT gs) out = Ok out' /\
    holds out' n (fun p => gathered op gs g p (f p)).
Proof.
  induction gs as [|[i js] gs IH]; intros n m out f V Ho HI.
  - exists out. unfold encode. simpl. rewrite Nat.eqb_refl. split; auto.
  - destruct V as (Vn & Vm & V). destruct (V i js (or_introl eq_refl)) as (Hne & Hi & Hjs).
    rewrite encode_cons.
    rewrite (gather_group inp io stride g i js out _ n f Ho Hi ltac:(lia) Hne).
    + edestruct (IH n m) as (out' & E & H').
      * repeat split; auto; apply (V _ _ (or_intror H)).
      * apply holds_upd; [exact Ho|exact Hi].
      * destruct inp as [a|]; simpl in *.
        -- intros j (i' & js' & Hin & Hj). apply HI. exists i', js'. simpl; auto.
        -- destruct HI as (-> & -> & Ha & HI). repeat split; auto.
           ++ intros x y Hx Hy. apply Ha; simpl; auto. apply in_or_app; auto.
           ++ destruct H as (i' & js' & Hin & Hj). apply HI. exists i', js'. simpl; auto.
           ++ destruct H as (i' & js' & Hin & Hj).
              assert (i <> j).
              { apply Ha; simpl; auto. apply in_or_app. right. apply in_concat. exists js'. split; auto.
                change js' with (snd (i', js')). apply in_map; auto. }
              destruct (Nat.eqb_spec j i); [congruence|]. apply HI. exists i', js'. simpl; auto.
      * exists out'. split; [exact E|]. eapply holds_ext; [exact H'|].
        intros p Hp. simpl. rewrite gathered_cons. destruct (Nat.eqb_spec p i) as [->|]; auto.
    + intros j Hj. split; [|pose proof (Hjs j Hj); lia].
      destruct inp as [a|]; simpl in *.
      * unfold rd. rewrite HI; auto. exists i, js. simpl; auto.
      * destruct HI as (-> & -> & Ha & HI). destruct (HI j) as [Hjn Hfj]; [exists i, js; simpl; auto|].
        rewrite Nat.mul_1_r. simpl. rewrite <- Hfj. eapply holds_rd; eauto.
Qed.

(** *** The restrict check *)
Lemma heads_true : forall gs n m, valid_map SENT n m gs -> heads SENT true (encode SENT gs) = map fst gs.
Proof.
  assert (A : forall js r, (forall j, In j js -> j <> SENT) -> heads SENT false (js ++ SENT :: r) = heads SENT true r).
  { induction js as [|j js IH]; intros r H; simpl; [rewrite Nat.eqb_refl; auto|].
    destruct (Nat.eqb_spec j SENT) as [E|E]; [exfalso; eapply H; simpl; eauto|].
    apply IH. intros; apply H; simpl; auto. }
  induction gs as [|[i js] gs IH]; intros n m (Vn & Vm & V).
  - unfold encode; simpl. rewrite Nat.eqb_refl. auto.
  - destruct (V i js (or_introl eq_refl)) as (Hne & Hi & Hjs). rewrite encode_cons. simpl.
    destruct (Nat.eqb_spec i SENT); [lia|]. rewrite A; [|intros j Hj; pose proof (Hjs j Hj); lia].
    f_equal. eapply (IH n m). repeat split; auto; apply (V _ _ (or_intror H)).
Qed.
Lemma members_true : forall gs n m, valid_map SENT n m gs -> members SENT true (encode SENT gs) = concat (map snd gs).
Proof.
  assert (A : forall js r, (forall j, In j js -> j <> SENT) -> members SENT false (js ++ SENT :: r) = js ++ members SENT true r).
  { induction js as [|j js IH]; intros r H; simpl; [rewrite Nat.eqb_refl; auto|].
    destruct (Nat.eqb_spec j SENT) as [E|E]; [exfalso; eapply H; simpl; eauto|].
    f_equal. apply IH. intros; apply H; simpl; auto. }
  induction gs as [|[i js] gs IH]; intros n m (Vn & Vm & V).
  - unfold encode; simpl. rewrite Nat.eqb_refl. auto.
  - destruct (V i js (or_introl eq_refl)) as (Hne & Hi & Hjs). rewrite encode_cons. simpl.
    destruct (Nat.eqb_spec i SENT); [lia|]. rewrite A; [|intros j Hj; pose proof (Hjs j Hj); lia].
    f_equal. eapply (IH n m). repeat split; auto; apply (V _ _ (or_intror H)).
Qed.

Lemma restrict_ok_apart gs n m : valid_map SENT n m gs -> (restrict_ok SENT (encode SENT gs) = true <-> apart gs).
Proof.
  intros V. unfold restrict_ok. rewrite (heads_true _ _ _ V), (members_true _ _ _ V), forallb_forall.
  split.
  - intros H i j Hi Hj ->. specialize (H _ Hi). rewrite negb_true_iff in H.
    assert (X : existsb (Nat.eqb j) (concat (map snd gs)) = true).
    { apply existsb_exists. exists j. split; auto. apply Nat.eqb_refl. }
    congruence.
  - intros H i Hi. rewrite negb_true_iff. apply not_true_is_false. intros X.
    apply existsb_exists in X. destruct X as (j & Hj & E). apply Nat.eqb_eq in E. eapply H; eauto.
Qed.

Lemma mem_of_valid gs n m j : valid_map SENT n m gs -> mem_of gs j -> j < m.
Proof. intros (_ & _ & V) (i & js & Hin & Hj). destruct (V _ _ Hin) as (_ & _ & H). auto. Qed.

Theorem gather_correct gs n m a g out f :
  valid_map SENT n m gs -> holds a m g -> holds out n f ->
  exists out', gather op SENT (Some a) (encode SENT gs) out = Ok out' /\
    holds out' n (fun p => gathered op gs g p (f p)).
Proof.
  intros V Ha Ho. unfold gather, gather_strided. cbn [alias_ok].
  apply (gather_loop_ok (Some a) 0 1 g gs n m); auto.
  intros j Hj. rewrite Nat.mul_1_r. simpl. apply Ha. eapply mem_of_valid; eauto.
Qed.

Theorem gather_in_place gs n u f :
  valid_map SENT n n gs -> apart gs -> holds u n f ->
  exists u', gather op SENT None (encode SENT gs) u = Ok u' /\
    holds u' n (fun p => gathered op gs f p (f p)).
Proof.
  intros V Ha Ho. unfold gather, gather_strided. cbn [alias_ok].
  rewrite (proj2 (restrict_ok_apart gs n n V) Ha).
  apply (gather_loop_ok None 0 1 f gs n n); auto.
  repeat split; auto. eapply mem_of_valid; eauto.
Qed.

(** ** scatter *)
Definition input_ok_s (inp : option (list T)) (oo ostride io istride : nat) (gs : groups) (g : nat -> T)
    (out : list T) : Prop :=
  match inp with
  | Some a => forall i, In i (map fst gs) -> nth_error a (io + i * istride) = Some (g i)
  | None => oo = 0 /\ ostride = 1 /\ io = 0 /\ istride = 1 /\ apart gs /\
            forall i, In i (map fst gs) -> nth_error out i = Some (g i)
  end.

Lemma scattered_app i js gs (g : nat -> T) p old :
  scattered ((i, js) :: gs) g p old = scattered gs g p (scattered [(i, js)] g p old).
Proof.
  unfold scattered. rewrite !pairs_cons. simpl. rewrite app_nil_r, filter_app, map_app, fold_left_app. auto.
Qed.

(** Positions oo + p*ostride of out hold f p; the other positions are not touched. *)
Lemma scatter_next inp oo ostride io istride i (g : nat -> T) n : forall js out f r,
  0 < ostride ->
  (forall p, p < n -> nth_error out (oo + p * ostride) = Some (f p)) ->
  (forall j, In j js -> j < n /\ j <> SENT) ->
  exists out', 
    scatter_loop SENT oo ostride inp io istride (AtNext i (g i)) (js ++ SENT :: r) out =
    scatter_loop SENT oo ostride inp io istride AtHead r out' /\
    length out' = length out /\
    (forall p, p < n -> nth_error out' (oo + p * ostride) = Some (scattered [(i, js)] g p (f p))) /\
    (forall x, (forall j, In j js -> x <> oo + j * ostride) -> nth_error out' x = nth_error out x).
Proof.
  induction js as [|j js IH]; intros out f r Hs Hf Hj; cbn [app scatter_loop].
  - rewrite Nat.eqb_refl. exists out. split; auto.
  - destruct (Hj j (or_introl eq_refl)) as [Hjn HjS]. apply Nat.eqb_neq in HjS. rewrite HjS.
    assert (B : oo + j * ostride < length out) by (apply nth_error_Some; rewrite Hf; congruence).
    rewrite wr_ok by auto. cbn [bind].
    destruct (IH (upd out (oo + j * ostride) (g i)) (fun p => if p =? j then g i else f p) r)
      as (out' & E & L & H2 & H3); auto.
    { intros p Hp. destruct (Nat.eqb_spec p j) as [->|N]; [rewrite nth_error_upd_eq; auto|].
      rewrite nth_error_upd_ne by nia. auto. }
    { intros; apply Hj; simpl; auto. }
    exists out'. split; [exact E|]. rewrite L, upd_length. split; auto.
    split.
    + intros p Hp. rewrite H2 by auto. rewrite scattered_cons. auto.
    + intros x Hx. rewrite H3 by (intros; apply Hx; simpl; auto).
      apply nth_error_upd_ne. apply not_eq_sym. apply Hx. simpl; auto.
Qed.

Lemma scatter_group inp oo ostride io istride i (g : nat -> T) n js out f r :
  0 < ostride -> i <> SENT -> js <> [] -> nth_error (src inp out) (io + i * istride) = Some (g i) ->
  (forall p, p < n -> nth_error out (oo + p * ostride) = Some (f p)) ->
  (forall j, In j js -> j < n /\ j <> SENT) ->
  exists out', 
    scatter_loop SENT oo ostride inp io istride AtHead (i :: js ++ SENT :: r) out =
    scatter_loop SENT oo ostride inp io istride AtHead r out' /\
    length out' = length out /\
    (forall p, p < n -> nth_error out' (oo + p * ostride) = Some (scattered [(i, js)] g p (f p))) /\
    (forall x, (forall j, In j js -> x <> oo + j * ostride) -> nth_error out' x = nth_error out x).
Proof.
  intros Hs Hi Hne Hr Hf Hj. cbn [scatter_loop]. apply Nat.eqb_neq in Hi. rewrite Hi.
  unfold rd. rewrite Hr. cbn [bind].
  destruct js as [|j js]; [congruence|].
  destruct (scatter_next inp oo ostride io istride i g n (j :: js) out f r) as (out' & E & H); auto.
  exists out'. split; auto. rewrite <- E. cbn [app scatter_loop].
  destruct (Hj j (or_introl eq_refl)) as [Hjn HjS]. apply Nat.eqb_neq in HjS. rewrite HjS. auto.
Qed.

Lemma scatter_loop_ok inp oo ostride io istride (g : nat -> T) n m : forall gs out f,
  0 < ostride -> valid_map SENT m n gs ->
  (forall p, p < n -> nth_error out (oo + p * ostride) = Some (f p)) ->
  input_ok_s inp oo ostride io istride gs g out ->
  exists out', scatter_loop SENT oo ostride inp io istride AtHead (encode SENT gs) out = Ok out' /\
    length out' = length out /\
    (forall p, p < n -> nth_error out' (oo + p * ostride) = Some (scattered gs g p (f p))) /\
    (forall x, (forall j, mem_of gs j -> x <> oo + j * ostride) -> nth_error out' x = nth_error out x).
Proof.
  induction gs as [|[i js] gs IH]; intros out f Hs V Hf HI.
  - exists out. unfold encode. simpl. rewrite Nat.eqb_refl. split; auto.
  - destruct V as (Vn & Vm & V). destruct (V i js (or_introl eq_refl)) as (Hne & Hi & Hjs).
    rewrite encode_cons.
    destruct (scatter_group inp oo ostride io istride i g n js out f (encode SENT gs))
      as (out1 & E1 & L1 & A1 & B1); auto.
    + lia.
    + destruct inp as [a|]; simpl in *; [apply HI; auto|].
      destruct HI as (-> & -> & -> & -> & Ha & HI). rewrite Nat.mul_1_r. apply HI; auto.
    + intros j Hj. pose proof (Hjs j Hj). lia.
    + rewrite E1. destruct (IH out1 (fun p => scattered [(i, js)] g p (f p))) as (out' & E & L & A & B); auto.
      * repeat split; auto; apply (V _ _ (or_intror H)).
      * destruct inp as [a|]; simpl in *; [intros; apply HI; auto|].
        destruct HI as (-> & -> & -> & -> & Ha & HI). repeat split; auto.
        -- intros x y Hx Hy. apply Ha; simpl; auto. apply in_or_app; auto.
        -- intros i' Hi'. rewrite B1; auto. intros j Hj. simpl. rewrite Nat.mul_1_r. apply Ha; simpl; auto.
           apply in_or_app; auto.
      * exists out'. split; auto. split; [congruence|]. split.
        -- intros p Hp. rewrite A by auto. rewrite (scattered_app i js gs). auto.
        -- intros x Hx. rewrite B, B1; auto.
           ++ intros j Hj. apply Hx. exists i, js. simpl; auto.
           ++ intros j (i' & js' & Hin & Hj). apply Hx. exists i', js'. simpl; auto.
Qed.

Theorem scatter_correct gs n m a (g : nat -> T) out f :
  valid_map SENT m n gs -> holds a m g -> holds out n f ->
  exists out', scatter SENT (Some a) (encode SENT gs) out = Ok out' /\
    holds out' n (fun p => scattered gs g p (f p)).
Proof.
  intros V Ha Ho. unfold scatter, scatter_strided. cbn [alias_ok].
  destruct (scatter_loop_ok (Some a) 0 1 0 1 g n m gs out f) as (out' & E & L & A & B); auto.
  - intros p Hp. rewrite Nat.mul_1_r. apply Ho; auto.
  - simpl. intros i Hi. rewrite Nat.mul_1_r. apply Ha. apply in_map_iff in Hi.
    destruct Hi as ([i' js] & <- & Hin). apply V in Hin. simpl. lia.
  - exists out'. split; auto. split; [destruct Ho; lia|]. intros p Hp. rewrite <- A by auto.
    simpl. rewrite Nat.mul_1_r. auto.
Qed.

Theorem scatter_in_place gs n u (f : nat -> T) :
  valid_map SENT n n gs -> apart gs -> holds u n f ->
  exists u', scatter SENT None (encode SENT gs) u = Ok u' /\
    holds u' n (fun p => scattered gs f p (f p)).
Proof.
  intros V Ha Ho. unfold scatter, scatter_strided. cbn [alias_ok].
  rewrite (proj2 (restrict_ok_apart gs n n V) Ha).
  destruct (scatter_loop_ok None 0 1 0 1 f n n gs u f) as (out' & E & L & A & B); auto.
  - intros p Hp. rewrite Nat.mul_1_r. apply Ho; auto.
  - simpl. repeat split; auto. intros i Hi. apply Ho. apply in_map_iff in Hi.
    destruct Hi as ([i' js] & <- & Hin). apply V in Hin. simpl. lia.
  - exists out'. split; auto. split; [destruct Ho; lia|]. intros p Hp. rewrite <- A by auto.
    simpl. rewrite Nat.mul_1_r. auto.
Qed.

(** ** init *)
Theorem init_correct : forall is n out f,
  n <= SENT -> (forall i, In i is -> i < n) -> holds out n f ->
  exists out', init_ ident SENT (is ++ [SENT]) out = Ok out' /\
    holds out' n (fun p => if existsb (Nat.eqb p) is then ident else f p).
Proof.
  induction is as [|i is IH]; intros n out f Hs Hi Ho; cbn [app init_].
  - rewrite Nat.eqb_refl. eauto.
  - pose proof (Hi i (or_introl eq_refl)) as Hin. destruct (Nat.eqb_spec i SENT); [lia|].
    rewrite (holds_wr _ _ _ _ _ Ho Hin). cbn [bind].
    destruct (IH n _ _ Hs (fun j Hj => Hi j (or_intror Hj)) (holds_upd _ _ _ i ident Ho Hin)) as (out' & E & H).
    exists out'. split; auto. eapply holds_ext; [exact H|]. intros p Hp. simpl.
    destruct (Nat.eqb_spec p i); simpl; auto. destruct existsb; auto.
Qed.

Theorem gather_array_correct : forall n out inp f g N,
  holds out N f -> holds inp n g -> n <= N ->
  exists out', gather_array op out inp n = Ok out' /\
    holds out' N (fun p => if p <? n then op (f p) (g p) else f p).
Proof.
  induction n as [|n IH]; intros out inp f g N Ho Hi Hn; cbn [gather_array].
  - exists out. split; [reflexivity|]. eapply holds_ext; [eauto|]. intros i Hi0. destruct (Nat.ltb_spec i 0); [lia|auto].
  - destruct out as [|x out]; [destruct Ho as [L _]; simpl in L; lia|].
    destruct inp as [|y inp]; [destruct Hi as [L _]; simpl in L; lia|].
    destruct N as [|N]; [lia|].
    destruct Ho as [Lo Ho], Hi as [Li Hi]. simpl in Lo, Li.
    destruct (IH out inp (fun p => f (S p)) (fun p => g (S p)) N) as (out' & E & L' & H').
    + split; [lia|]. intros i Hi'. apply (Ho (S i)). lia.
    + split; [lia|]. intros i Hi'. apply (Hi (S i)). lia.
    + lia.
    + rewrite E. cbn [bind]. eexists. split; [reflexivity|]. split; [simpl; lia|].
      intros [|i] Hi'; simpl.
      * specialize (Ho 0 ltac:(lia)). specialize (Hi 0 ltac:(lia)). simpl in *. congruence.
      * rewrite H' by lia. auto.
Qed.

Theorem init_array_correct : forall n out f N,
  holds out N f -> n <= N ->
  exists out', init_array ident out n = Ok out' /\
    holds out' N (fun p => if p <? n then ident else f p).
Proof.
  induction n as [|n IH]; intros out f N Ho Hn; cbn [init_array].
  - exists out. split; [reflexivity|]. eapply holds_ext; [eauto|]. intros i Hi0. destruct (Nat.ltb_spec i 0); [lia|auto].
  - destruct out as [|x out]; [destruct Ho as [L _]; simpl in L; lia|].
    destruct N as [|N]; [lia|].
    destruct Ho as [Lo Ho]. simpl in Lo.
    destruct (IH out (fun p => f (S p)) N) as (out' & E & L' & H').
    + split; [lia|]. intros i Hi'. apply (Ho (S i)). lia.
    + lia.
    + rewrite E. cbn [bind]. eexists. split; [reflexivity|]. split; [simpl; lia|].
      intros [|i] Hi'; simpl; auto. rewrite H' by lia. auto.
Qed.

(** ** Vector kernels *)
Lemma vec_acc_ok inp : forall n pk q out,
  n <> 0 -> pk + n <= length out -> q + n <= length (src inp out) ->
  (inp = None -> pk + n <= q \/ q + n <= pk) ->
  exists out', vec_acc op inp n pk q out = Ok out' /\ length out' = length out /\
    (forall k a b, k < n -> nth_error out (pk + k) = Some a -> nth_error (src inp out) (q + k) = Some b ->
       nth_error out' (pk + k) = Some (op a b)) /\
    (forall x, x < pk \/ pk + n <= x -> nth_error out' x = nth_error out x).
Proof.
  induction n as [|n IH]; intros pk q out Hn Hp Hq Hd; [congruence|]. cbn [vec_acc].
  destruct (nth_error_lt_Some out pk) as (a & Ea); [lia|].
  destruct (nth_error_lt_Some (src inp out) q) as (b & Eb); [lia|].
  rewrite (rd_ok _ _ _ Ea), (rd_ok _ _ _ Eb). cbn [bind]. rewrite wr_ok by lia. cbn [bind].
  set (out1 := upd out pk (op a b)).
  assert (Hsrc : forall x, (inp = None -> x <> pk) -> nth_error (src inp out1) x = nth_error (src inp out) x).
  { intros x Hx. unfold out1. destruct inp as [l|]; simpl; auto. apply nth_error_upd_ne. apply not_eq_sym. auto. }
  assert (L1 : length out1 = length out) by apply upd_length.
  destruct n as [|n].
  - exists out1. split; auto. split; auto. split.
    + intros k a' b' Hk Ha Hb. assert (k = 0) by lia. subst k. rewrite Nat.add_0_r in *.
      unfold out1. rewrite nth_error_upd_eq by lia. congruence.
    + intros x Hx. apply nth_error_upd_ne. lia.
  - destruct (IH (S pk) (S q) out1) as (out' & E & L & A & B).
    + congruence.
    + lia.
    + destruct inp; simpl in *; lia.
    + intros Hi. specialize (Hd Hi). lia.
    + exists out'. split; [exact E|]. split; [lia|]. split.
      * intros k a' b' Hk Ha Hb. destruct k as [|k].
        -- rewrite Nat.add_0_r in *. rewrite B by lia. unfold out1. rewrite nth_error_upd_eq by lia. congruence.
        -- replace (pk + S k) with (S pk + k) in * by lia. replace (q + S k) with (S q + k) in * by lia.
           apply A; [lia| |].
           ++ unfold out1. rewrite nth_error_upd_ne by lia. auto.
           ++ rewrite Hsrc; auto. intros Hi. specialize (Hd Hi). lia.
      * intros x Hx. rewrite B by lia. apply nth_error_upd_ne. lia.
Qed.

Definition vec_src_ok (inp : option (list T)) (vn m : nat) (out : list T) (j : nat) (g : nat -> nat -> T) : Prop :=
  length (src inp out) = m * vn /\ j < m /\
  forall k, k < vn -> nth_error (src inp out) (j * vn + k) = Some (g j k).

Lemma vec_acc_holds inp vn n m i j out f g :
  vn <> 0 -> holds_vec out n vn f -> i < n -> vec_src_ok inp vn m out j g -> (inp = None -> i <> j) ->
  exists out', vec_acc op inp vn (i * vn) (j * vn) out = Ok out' /\
    holds_vec out' n vn (fun p k => if p =? i then op (f p k) (g j k) else f p k).
Proof.
  intros Hv [L H] Hi (Ls & Hj & Hg) Hij.
  destruct (vec_acc_ok inp vn (i * vn) (j * vn) out) as (out' & E & L' & A & B).
  - auto.
  - rewrite L. nia.
  - rewrite Ls. nia.
  - intros Hn. specialize (Hij Hn). nia.
  - exists out'. split; [exact E|]. split; [lia|]. intros p k Hp Hk.
    destruct (Nat.eqb_spec p i) as [->|N].
    + apply A; auto.
    + rewrite B; [apply H; auto|]. nia.
Qed.

Definition input_ok_v (inp : option (list T)) (vn m : nat) (gs : groups) (g f : nat -> nat -> T) (n : nat) : Prop :=
  match inp with
  | Some a => holds_vec a m vn g
  | None => m = n /\ apart gs /\ forall j k, mem_of gs j -> k < vn -> f j k = g j k
  end.

Lemma holds_vec_ext (l : list T) n vn f g : holds_vec l n vn f ->
  (forall i k, i < n -> k < vn -> f i k = g i k) -> holds_vec l n vn g.
Proof. intros [H1 H2] E. split; auto. intros i k Hi Hk. rewrite H2, E; auto. Qed.

Lemma gather_vec_next inp vn n m i g : forall js out f r,
  vn <> 0 -> holds_vec out n vn f -> i < n -> n <= SENT -> m <= SENT ->
  (forall j, In j js -> j < m) ->
  match inp with
  | Some a => holds_vec a m vn g
  | None => m = n /\ ~ In i js /\ forall j k, In j js -> k < vn -> f j k = g j k
  end ->
  exists out', gather_vec_loop op SENT inp vn (VNext i) (js ++ SENT :: r) out =
    gather_vec_loop op SENT inp vn VHead r out' /\
    holds_vec out' n vn (fun p k => if p =? i then fold_left op (map (fun j => g j k) js) (f p k) else f p k).
Proof.
  induction js as [|j js IH]; intros out f r Hv Ho Hi Hn Hm Hjs HI; cbn [app gather_vec_loop].
  - rewrite Nat.eqb_refl. exists out. split; auto. eapply holds_vec_ext; [exact Ho|].
    intros p k Hp Hk. simpl. destruct (p =? i); auto.
  - pose proof (Hjs j (or_introl eq_refl)) as Hj. destruct (Nat.eqb_spec j SENT); [lia|].
    destruct (vec_acc_holds inp vn n m i j out f g Hv Ho Hi) as (out1 & E1 & H1).
    + unfold vec_src_ok. destruct inp as [a|]; simpl in *.
      * destruct HI as [La Ha]. repeat split; auto.
      * destruct HI as (-> & Hni & HI). destruct Ho as [Lo Ho]. repeat split; auto.
        intros k Hk. rewrite Ho by auto. rewrite HI; auto.
    + intros ->. simpl in HI. destruct HI as (_ & Hni & _). intros ->. apply Hni. simpl; auto.
    + rewrite E1. cbn [bind].
      destruct (IH out1 _ r Hv H1 Hi Hn Hm) as (out' & E' & H').
      * intros; apply Hjs; simpl; auto.
      * destruct inp as [a|]; auto. destruct HI as (-> & Hni & HI). simpl in Hni.
        repeat split; auto. intros j' k Hj' Hk. destruct (Nat.eqb_spec j' i) as [->|]; [exfalso; auto|].
        apply HI; simpl; auto.
      * exists out'. split; [exact E'|]. eapply holds_vec_ext; [exact H'|].
        intros p k Hp Hk. simpl. destruct (Nat.eqb_spec p i); auto.
Qed.

Lemma gather_vec_loop_ok inp vn m g : forall gs n out f,
  vn <> 0 -> valid_map SENT n m gs -> holds_vec out n vn f -> input_ok_v inp vn m gs g f n ->
  exists out', gather_vec_loop op SENT inp vn VHead (encode SENT gs) out = Ok out' /\
    holds_vec out' n vn (fun p k => gathered op gs (fun j => g j k) p (f p k)).
Proof.
  induction gs as [|[i js] gs IH]; intros n out f Hv V Ho HI.
  - exists out. unfold encode. simpl. rewrite Nat.eqb_refl. split; auto.
  - destruct V as (Vn & Vm & V). destruct (V i js (or_introl eq_refl)) as (Hne & Hi & Hjs).
    rewrite encode_cons.
    destruct (gather_vec_next inp vn n m i g js out f (encode SENT gs) Hv Ho Hi Vn Vm Hjs) as (out1 & E1 & H1).
    + destruct inp as [a|]; auto. destruct HI as (-> & Ha & HI). repeat split; auto.
      * intros Hin. apply (Ha i i); simpl; auto. apply in_or_app; auto.
      * intros j k Hj Hk. apply HI; auto. exists i, js. simpl; auto.
    + destruct (IH n out1 _ Hv ltac:(repeat split; auto; apply (V _ _ (or_intror H))) H1) as (out' & E & H').
      * destruct inp as [a|]; auto. destruct HI as (-> & Ha & HI). repeat split; auto.
        -- intros x y Hx Hy. apply Ha; simpl; auto. apply in_or_app; auto.
        -- intros j k (i' & js' & Hin & Hj) Hk.
           assert (i <> j).
           { apply Ha; simpl; auto. apply in_or_app. right. apply in_concat. exists js'. split; auto.
             change js' with (snd (i', js')). apply in_map; auto. }
           destruct (Nat.eqb_spec j i); [congruence|]. apply HI; auto. exists i', js'. simpl; auto.
      * exists out'. split.
        -- rewrite <- E, <- E1. cbn [gather_vec_loop]. destruct (Nat.eqb_spec i SENT); [lia|].
           destruct js as [|j js]; [congruence|]. cbn [app gather_vec_loop].
           pose proof (Hjs j (or_introl eq_refl)). destruct (Nat.eqb_spec j SENT); [lia|]. auto.
        -- eapply holds_vec_ext; [exact H'|]. intros p k Hp Hk. simpl. rewrite gathered_cons.
           destruct (Nat.eqb_spec p i) as [->|]; auto.
Qed.

Theorem gather_vec_correct gs n m vn a g out f :
  vn <> 0 -> valid_map SENT n m gs -> holds_vec a m vn g -> holds_vec out n vn f ->
  exists out', gather_vec op SENT (Some a) vn (encode SENT gs) out = Ok out' /\
    holds_vec out' n vn (fun p k => gathered op gs (fun j => g j k) p (f p k)).
Proof. intros. unfold gather_vec. cbn [alias_ok]. eapply gather_vec_loop_ok; eauto. Qed.

Theorem gather_vec_in_place gs n vn u f :
  vn <> 0 -> valid_map SENT n n gs -> apart gs -> holds_vec u n vn f ->
  exists u', gather_vec op SENT None vn (encode SENT gs) u = Ok u' /\
    holds_vec u' n vn (fun p k => gathered op gs (fun j => f j k) p (f p k)).
Proof.
  intros Hv V Ha Ho. unfold gather_vec. cbn [alias_ok].
  rewrite (proj2 (restrict_ok_apart gs n n V) Ha).
  eapply gather_vec_loop_ok; eauto. simpl. auto.
Qed.

Lemma copy_elems_ok (inp : option (list T)) : forall n p q out,
  p + n <= length out -> q + n <= length (src inp out) ->
  (inp = None -> p + n <= q \/ q + n <= p) ->
  exists out', copy_elems inp n p q out = Ok out' /\ length out' = length out /\
    (forall k, k < n -> nth_error out' (p + k) = nth_error (src inp out) (q + k)) /\
    (forall x, x < p \/ p + n <= x -> nth_error out' x = nth_error out x).
Proof.
  induction n as [|n IH]; intros p q out Hp Hq Hd; cbn [copy_elems].
  - exists out. split; auto. split; auto. split; auto. intros; lia.
  - destruct (nth_error_lt_Some (src inp out) q) as (b & Eb); [lia|].
    rewrite (rd_ok _ _ _ Eb). cbn [bind]. rewrite wr_ok by lia. cbn [bind].
    set (out1 := upd out p b).
    assert (Hsrc : forall x, (inp = None -> x <> p) -> nth_error (src inp out1) x = nth_error (src inp out) x).
    { intros x Hx. unfold out1. destruct inp as [l|]; simpl; auto. apply nth_error_upd_ne. apply not_eq_sym. auto. }
    assert (L1 : length out1 = length out) by apply upd_length.
    destruct (IH (S p) (S q) out1) as (out' & E & L & A & B).
    + lia.
    + destruct inp; simpl in *; lia.
    + intros Hi. specialize (Hd Hi). lia.
    + exists out'. split; [exact E|]. split; [lia|]. split.
      * intros k Hk. destruct k as [|k].
        -- rewrite !Nat.add_0_r. rewrite B by lia. unfold out1. rewrite nth_error_upd_eq by lia. congruence.
        -- replace (p + S k) with (S p + k) by lia. replace (q + S k) with (S q + k) by lia.
           rewrite A by lia. apply Hsrc. intros Hi. specialize (Hd Hi). lia.
      * intros x Hx. rewrite B by lia. apply nth_error_upd_ne. lia.
Qed.

(** scatter_vec: reading vector i, writing vector j. *)
Lemma copy_holds (inp : option (list T)) vn n m i j out f g :
  holds_vec out n vn f -> j < n -> vec_src_ok inp vn m out i g -> (inp = None -> i <> j) ->
  exists out', copy_elems inp vn (j * vn) (i * vn) out = Ok out' /\
    holds_vec out' n vn (fun p k => if p =? j then g i k else f p k).
Proof.
  intros [L H] Hi (Ls & Hj & Hg) Hij.
  destruct (copy_elems_ok inp vn (j * vn) (i * vn) out) as (out' & E & L' & A & B).
  - rewrite L. nia.
  - rewrite Ls. nia.
  - intros Hn. specialize (Hij Hn). nia.
  - exists out'. split; [exact E|]. split; [lia|]. intros p k Hp Hk.
    destruct (Nat.eqb_spec p j) as [->|N].
    + rewrite A by auto. apply Hg; auto.
    + rewrite B; [apply H; auto|]. nia.
Qed.

Definition input_ok_vs (inp : option (list T)) (vn m : nat) (gs : groups) (g f : nat -> nat -> T) (n : nat) : Prop :=
  match inp with
  | Some a => holds_vec a m vn g
  | None => m = n /\ apart gs /\ forall i k, In i (map fst gs) -> k < vn -> f i k = g i k
  end.

Lemma scatter_vec_next (inp : option (list T)) vn n m i g : forall js out f r,
  holds_vec out n vn f -> i < m -> n <= SENT -> m <= SENT ->
  (forall j, In j js -> j < n) ->
  match inp with
  | Some a => holds_vec a m vn g
  | None => m = n /\ ~ In i js /\ forall k, k < vn -> f i k = g i k
  end ->
  exists out', scatter_vec_loop SENT inp vn (VNext i) (js ++ SENT :: r) out =
    scatter_vec_loop SENT inp vn VHead r out' /\
    holds_vec out' n vn (fun p k => scattered [(i, js)] (fun j => g j k) p (f p k)).
Proof.
  induction js as [|j js IH]; intros out f r Ho Hi Hn Hm Hjs HI; cbn [app scatter_vec_loop].
  - rewrite Nat.eqb_refl. exists out. split; auto.
  - pose proof (Hjs j (or_introl eq_refl)) as Hj. destruct (Nat.eqb_spec j SENT); [lia|].
    destruct (copy_holds inp vn n m i j out f g Ho Hj) as (out1 & E1 & H1).
    + unfold vec_src_ok. destruct inp as [a|]; simpl in *.
      * destruct HI as [La Ha]. repeat split; auto.
      * destruct HI as (-> & Hni & HI). destruct Ho as [Lo Ho]. repeat split; auto.
        intros k Hk. rewrite Ho by auto. rewrite HI; auto.
    + intros ->. simpl in HI. destruct HI as (_ & Hni & _). intros ->. apply Hni. simpl; auto.
    + rewrite E1. cbn [bind].
      destruct (IH out1 _ r H1 Hi Hn Hm) as (out' & E' & H').
      * intros; apply Hjs; simpl; auto.
      * destruct inp as [a|]; auto. destruct HI as (-> & Hni & HI). simpl in Hni.
        repeat split; auto. intros k Hk. destruct (Nat.eqb_spec i j) as [->|]; [exfalso; auto|].
        apply HI; simpl; auto.
      * exists out'. split; [exact E'|]. eapply holds_vec_ext; [exact H'|].
        intros p k Hp Hk. simpl. rewrite scattered_cons. auto.
Qed.

Lemma scattered_outside gs (g : nat -> T) p old : ~ mem_of gs p -> scattered gs g p old = old.
Proof.
  revert old. induction gs as [|[i js] gs IH]; intros old H; auto.
  assert (Hg : ~ mem_of gs p) by (intros (i' & js' & Hin & Hj); apply H; exists i', js'; simpl; auto).
  assert (Hj : ~ In p js) by (intros Hj; apply H; exists i, js; simpl; auto).
  clear H. revert old. induction js as [|j js IHj]; intros old; [rewrite scattered_nil; auto|].
  rewrite scattered_cons. destruct (Nat.eqb_spec p j) as [->|N]; [exfalso; apply Hj; simpl; auto|].
  apply IHj. intros X. apply Hj. simpl; auto.
Qed.

Lemma scatter_vec_loop_ok (inp : option (list T)) vn m g : forall gs n out f,
  valid_map SENT m n gs -> holds_vec out n vn f -> input_ok_vs inp vn m gs g f n ->
  exists out', scatter_vec_loop SENT inp vn VHead (encode SENT gs) out = Ok out' /\
    holds_vec out' n vn (fun p k => scattered gs (fun j => g j k) p (f p k)).
Proof.
  induction gs as [|[i js] gs IH]; intros n out f V Ho HI.
  - exists out. unfold encode. simpl. rewrite Nat.eqb_refl. split; auto.
  - destruct V as (Vm & Vn & V). destruct (V i js (or_introl eq_refl)) as (Hne & Hi & Hjs).
    rewrite encode_cons.
    destruct (scatter_vec_next inp vn n m i g js out f (encode SENT gs) Ho Hi Vn Vm Hjs) as (out1 & E1 & H1).
    + destruct inp as [a|]; auto. destruct HI as (-> & Ha & HI). repeat split; auto.
      * intros Hin. apply (Ha i i); simpl; auto. apply in_or_app; auto.
      * intros k Hk. apply HI; auto. simpl; auto.
    + destruct (IH n out1 _ ltac:(repeat split; auto; apply (V _ _ (or_intror H))) H1) as (out' & E & H').
      * destruct inp as [a|]; auto. destruct HI as (-> & Ha & HI). repeat split; auto.
        -- intros x y Hx Hy. apply Ha; simpl; auto. apply in_or_app; auto.
        -- intros i' k Hi' Hk. rewrite scattered_outside; [apply HI; simpl; auto|].
           intros (i2 & js2 & Hin & Hj2). apply (Ha i' i'); simpl; auto. apply in_or_app. left.
           destruct Hin as [X|[]]. injection X as <- <-. auto.
      * exists out'. split.
        -- rewrite <- E, <- E1. cbn [scatter_vec_loop]. destruct (Nat.eqb_spec i SENT); [lia|].
           destruct js as [|j js]; [congruence|]. cbn [app scatter_vec_loop].
           pose proof (Hjs j (or_introl eq_refl)). destruct (Nat.eqb_spec j SENT); [lia|]. auto.
        -- eapply holds_vec_ext; [exact H'|]. intros p k Hp Hk. simpl. rewrite (scattered_app i js gs). auto.
Qed.

Theorem scatter_vec_correct gs n m vn a (g : nat -> nat -> T) out f :
  valid_map SENT m n gs -> holds_vec a m vn g -> holds_vec out n vn f ->
  exists out', scatter_vec SENT (Some a) vn (encode SENT gs) out = Ok out' /\
    holds_vec out' n vn (fun p k => scattered gs (fun j => g j k) p (f p k)).
Proof. intros. unfold scatter_vec. cbn [alias_ok]. eapply scatter_vec_loop_ok; eauto. Qed.

Theorem scatter_vec_in_place gs n vn u (f : nat -> nat -> T) :
  valid_map SENT n n gs -> apart gs -> holds_vec u n vn f ->
  exists u', scatter_vec SENT None vn (encode SENT gs) u = Ok u' /\
    holds_vec u' n vn (fun p k => scattered gs (fun j => f j k) p (f p k)).
Proof.
  intros V Ha Ho. unfold scatter_vec. cbn [alias_ok].
  rewrite (proj2 (restrict_ok_apart gs n n V) Ha).
  eapply scatter_vec_loop_ok; eauto. simpl. auto.
Qed.

Lemma fill_ok : forall n p out, n <> 0 -> p + n <= length out ->
  exists out', fill ident n p out = Ok out' /\ length out' = length out /\
    (forall k, k < n -> nth_error out' (p + k) = Some ident) /\
    (forall x, x < p \/ p + n <= x -> nth_error out' x = nth_error out x).
Proof.
  induction n as [|n IH]; intros p out Hn Hp; [congruence|]. cbn [fill].
  rewrite wr_ok by lia. cbn [bind]. destruct n as [|n].
  - exists (upd out p ident). split; auto. rewrite upd_length. split; auto. split.
    + intros k Hk. replace (p + k) with p by lia. rewrite nth_error_upd_eq; auto; lia.
    + intros x Hx. apply nth_error_upd_ne. lia.
  - destruct (IH (S p) (upd out p ident)) as (out' & E & L & A & B); [congruence|rewrite upd_length; lia|].
    rewrite upd_length in L. exists out'. split; [exact E|]. split; auto. split.
    + intros [|k] Hk.
      * rewrite Nat.add_0_r, B by lia. rewrite nth_error_upd_eq; auto; lia.
      * replace (p + S k) with (S p + k) by lia. apply A; lia.
    + intros x Hx. rewrite B by lia. apply nth_error_upd_ne. lia.
Qed.

Theorem init_vec_correct : forall is n vn out f,
  vn <> 0 -> n <= SENT -> (forall i, In i is -> i < n) -> holds_vec out n vn f ->
  exists out', init_vec ident SENT vn (is ++ [SENT]) out = Ok out' /\
    holds_vec out' n vn (fun p k => if existsb (Nat.eqb p) is then ident else f p k).
Proof.
  induction is as [|i is IH]; intros n vn out f Hv Hs Hi Ho; cbn [app init_vec].
  - rewrite Nat.eqb_refl. eauto.
  - pose proof (Hi i (or_introl eq_refl)) as Hin. destruct (Nat.eqb_spec i SENT); [lia|].
    destruct (fill_ok vn (vn * i) out Hv) as (out1 & E1 & L1 & A1 & B1); [destruct Ho; nia|].
    rewrite E1. cbn [bind].
    destruct (IH n vn out1 (fun p k => if p =? i then ident else f p k) Hv Hs (fun j Hj => Hi j (or_intror Hj)))
      as (out' & E & H).
    { destruct Ho as [Lo Ho]. split; [lia|]. intros p k Hp Hk.
      destruct (Nat.eqb_spec p i) as [->|N].
      - rewrite (Nat.mul_comm i vn). auto.
      - rewrite B1 by nia. auto. }
    exists out'. split; auto. eapply holds_vec_ext; [exact H|]. intros p k Hp Hk. simpl.
    destruct (Nat.eqb_spec p i); simpl; auto. destruct existsb; auto.
Qed.

(** ** Several arrays *)
Lemma many_ok (F : option (list T) -> list T -> res (list T)) n m (out : nat -> T -> (nat -> T) -> T) :
  forall vn outs (f : nat -> nat -> T) inp (g : nat -> nat -> T) (h : nat -> nat -> T),
  holds_many outs n vn f ->
  match inp with Some ins => holds_many ins m vn g | None => True end ->
  (forall k o, k < vn -> holds o n (fun i => f i k) ->
     match inp with
     | Some _ => forall a, holds a m (fun j => g j k) -> exists o', F (Some a) o = Ok o' /\ holds o' n (fun p => h p k)
     | None => exists o', F None o = Ok o' /\ holds o' n (fun p => h p k)
     end) ->
  exists outs', many F inp vn outs = Ok outs' /\ holds_many outs' n vn h.
Proof.
  induction vn as [|vn IH]; intros outs f inp g h [L Ho] HI HF; cbn [many].
  - exists outs. split; auto. split; auto. intros; lia.
  - destruct outs as [|o outs]; [simpl in L; lia|].
    destruct (Ho 0 ltac:(lia)) as (o0 & E0 & H0). simpl in E0. injection E0 as <-.
    assert (Ho' : holds_many outs n vn (fun i k => f i (S k))).
    { split; [simpl in L; lia|]. intros k Hk. destruct (Ho (S k)) as (l & El & Hl); [lia|]. exists l. auto. }
    destruct inp as [ins|].
    + destruct HI as [Li HI]. destruct ins as [|a ins]; [simpl in Li; lia|].
      destruct (HI 0 ltac:(lia)) as (a0 & Ea & Ha). simpl in Ea. injection Ea as <-.
      destruct (HF 0 o ltac:(lia) H0 a Ha) as (o' & E' & H').
      rewrite E'. cbn [bind].
      destruct (IH outs (fun i k => f i (S k)) (Some ins) (fun i k => g i (S k)) (fun i k => h i (S k)))
        as (outs' & E & Hs); auto.
      { split; [simpl in Li; lia|]. intros k Hk. destruct (HI (S k)) as (l & El & Hl); [lia|]. exists l. auto. }
      { intros k o1 Hk Ho1 a1 Ha1. apply (HF (S k)); auto. lia. }
      rewrite E. cbn [bind]. eexists. split; [reflexivity|]. destruct Hs as [Ls Hs].
      split; [simpl; lia|]. intros [|k] Hk; simpl; [eauto|]. apply Hs. lia.
    + destruct (HF 0 o ltac:(lia) H0) as (o' & E' & H').
      rewrite E'. cbn [bind].
      destruct (IH outs (fun i k => f i (S k)) None (fun i k => g i (S k)) (fun i k => h i (S k)))
        as (outs' & E & Hs); auto.
      { intros k o1 Hk Ho1. apply (HF (S k)); auto. lia. }
      rewrite E. cbn [bind]. eexists. split; [reflexivity|]. destruct Hs as [Ls Hs].
      split; [simpl; lia|]. intros [|k] Hk; simpl; [eauto|]. apply Hs. lia.
Qed.

Theorem gather_many_correct gs n m vn ins g outs f :
  valid_map SENT n m gs -> holds_many ins m vn g -> holds_many outs n vn f ->
  exists outs', gather_many op SENT (Some ins) vn (encode SENT gs) outs = Ok outs' /\
    holds_many outs' n vn (fun p k => gathered op gs (fun j => g j k) p (f p k)).
Proof.
  intros V Ha Ho. unfold gather_many.
  eapply (many_ok _ n m (fun _ x _ => x) vn outs f (Some ins) g); eauto.
  intros k o Hk Hok a Hak. apply (gather_correct gs n m a (fun j => g j k) o (fun p => f p k)); auto.
Qed.
Theorem gather_many_in_place gs n vn us f :
  valid_map SENT n n gs -> apart gs -> holds_many us n vn f ->
  exists us', gather_many op SENT None vn (encode SENT gs) us = Ok us' /\
    holds_many us' n vn (fun p k => gathered op gs (fun j => f j k) p (f p k)).
Proof.
  intros V Ha Ho. unfold gather_many.
  eapply (many_ok _ n n (fun _ x _ => x) vn us f None f); eauto.
  intros k o Hk Hok. apply (gather_in_place gs n o (fun p => f p k)); auto.
Qed.
Theorem scatter_many_correct gs n m vn ins (g : nat -> nat -> T) outs f :
  valid_map SENT m n gs -> holds_many ins m vn g -> holds_many outs n vn f ->
  exists outs', scatter_many SENT (Some ins) vn (encode SENT gs) outs = Ok outs' /\
    holds_many outs' n vn (fun p k => scattered gs (fun j => g j k) p (f p k)).
Proof.
  intros V Ha Ho. unfold scatter_many.
  eapply (many_ok _ n m (fun _ x _ => x) vn outs f (Some ins) g); eauto.
  intros k o Hk Hok a Hak. apply (scatter_correct gs n m a (fun j => g j k) o (fun p => f p k)); auto.
Qed.
Theorem scatter_many_in_place gs n vn us (f : nat -> nat -> T) :
  valid_map SENT n n gs -> apart gs -> holds_many us n vn f ->
  exists us', scatter_many SENT None vn (encode SENT gs) us = Ok us' /\
    holds_many us' n vn (fun p k => scattered gs (fun j => f j k) p (f p k)).
Proof.
  intros V Ha Ho. unfold scatter_many.
  eapply (many_ok _ n n (fun _ x _ => x) vn us f None f); eauto.
  intros k o Hk Hok. apply (scatter_in_place gs n o (fun p => f p k)); auto.
Qed.
Theorem init_many_correct is n vn outs f :
  n <= SENT -> (forall i, In i is -> i < n) -> holds_many outs n vn f ->
  exists outs', init_many ident SENT vn (is ++ [SENT]) outs = Ok outs' /\
    holds_many outs' n vn (fun p k => if existsb (Nat.eqb p) is then ident else f p k).
Proof.
  intros Hn Hi Ho. unfold init_many.
  eapply (many_ok _ n n (fun _ x _ => x) vn outs f None f); eauto.
  intros k o Hk Hok. apply (init_correct is n o (fun p => f p k)); auto.
Qed.

Lemma gather_v2m_loop gs m VN a g n : valid_map SENT n m gs -> holds_vec a m VN g ->
  forall vn k0 outs f, k0 + vn = VN -> holds_many outs n vn f ->
  exists outs', gather_vec_to_many_loop op SENT a VN k0 vn (encode SENT gs) outs = Ok outs' /\
    holds_many outs' n vn (fun p k => gathered op gs (fun j => g j (k0 + k)) p (f p k)).
Proof.
  intros V Ha. induction vn as [|vn IH]; intros k0 outs f Hk0 [L Ho]; cbn [gather_vec_to_many_loop].
  - exists outs. split; auto. split; auto. intros; lia.
  - destruct outs as [|o outs]; [simpl in L; lia|].
    destruct (Ho 0 ltac:(lia)) as (o0 & E0 & H0). simpl in E0. injection E0 as <-.
    unfold gather_strided. cbn [alias_ok].
    destruct (gather_loop_ok (Some a) k0 VN (fun j => g j k0) gs n m o (fun p => f p 0) V H0) as (o' & E' & H').
    { intros j Hj. rewrite Nat.add_comm. apply Ha; [eapply mem_of_valid; eauto|lia]. }
    rewrite E'. cbn [bind].
    destruct (IH (S k0) outs (fun i k => f i (S k))) as (outs' & E & Ls & Hs); [lia| |].
    { split; [simpl in L; lia|]. intros k Hk. destruct (Ho (S k)) as (l & El & Hl); [lia|]. exists l. auto. }
    rewrite E. cbn [bind]. eexists. split; [reflexivity|]. split; [simpl; lia|].
    intros [|k] Hk; simpl.
    + exists o'. split; auto. rewrite Nat.add_0_r. auto.
    + replace (k0 + S k) with (S k0 + k) by lia. apply Hs. lia.
Qed.
Theorem gather_vec_to_many_correct gs n m vn a g outs f :
  valid_map SENT n m gs -> holds_vec a m vn g -> holds_many outs n vn f ->
  exists outs', gather_vec_to_many op SENT a vn (encode SENT gs) outs = Ok outs' /\
    holds_many outs' n vn (fun p k => gathered op gs (fun j => g j k) p (f p k)).
Proof.
  intros V Ha Ho. apply (gather_v2m_loop gs m vn a g n V Ha vn 0 outs f); auto.
Qed.

Lemma scatter_v2m_loop gs m VN a (g : nat -> nat -> T) n : valid_map SENT m n gs -> holds_vec a m VN g ->
  forall vn k0 outs f, k0 + vn = VN -> holds_many outs n vn f ->
  exists outs', scatter_vec_to_many_loop SENT a VN k0 vn (encode SENT gs) outs = Ok outs' /\
    holds_many outs' n vn (fun p k => scattered gs (fun j => g j (k0 + k)) p (f p k)).
Proof.
  intros V Ha. induction vn as [|vn IH]; intros k0 outs f Hk0 [L Ho]; cbn [scatter_vec_to_many_loop].
  - exists outs. split; auto. split; auto. intros; lia.
  - destruct outs as [|o outs]; [simpl in L; lia|].
    destruct (Ho 0 ltac:(lia)) as (o0 & E0 & H0). simpl in E0. injection E0 as <-.
    unfold scatter_strided. cbn [alias_ok].
    destruct (scatter_loop_ok (Some a) 0 1 k0 VN (fun j => g j k0) n m gs o (fun p => f p 0)) as (o' & E' & L' & H' & _); auto.
    { intros p Hp. rewrite Nat.mul_1_r. apply H0; auto. }
    { simpl. intros i Hi. rewrite Nat.add_comm. apply Ha; [|lia]. apply in_map_iff in Hi.
      destruct Hi as ([i' js] & <- & Hin). apply V in Hin. simpl. lia. }
    rewrite E'. cbn [bind].
    destruct (IH (S k0) outs (fun i k => f i (S k))) as (outs' & E & Ls & Hs); [lia| |].
    { split; [simpl in L; lia|]. intros k Hk. destruct (Ho (S k)) as (l & El & Hl); [lia|]. exists l. auto. }
    rewrite E. cbn [bind]. eexists. split; [reflexivity|]. split; [simpl; lia|].
    intros [|k] Hk; simpl.
    + exists o'. split; auto. rewrite Nat.add_0_r. split; [destruct H0; lia|].
      intros i Hi. rewrite <- H' by auto. simpl. rewrite Nat.mul_1_r. auto.
    + replace (k0 + S k) with (S k0 + k) by lia. apply Hs. lia.
Qed.
Theorem scatter_vec_to_many_correct gs n m vn a (g : nat -> nat -> T) outs f :
  valid_map SENT m n gs -> holds_vec a m vn g -> holds_many outs n vn f ->
  exists outs', scatter_vec_to_many SENT a vn (encode SENT gs) outs = Ok outs' /\
    holds_many outs' n vn (fun p k => scattered gs (fun j => g j k) p (f p k)).
Proof.
  intros V Ha Ho. apply (scatter_v2m_loop gs m vn a g n V Ha vn 0 outs f); auto.
Qed.

Lemma scatter_m2v_loop gs m VN n : valid_map SENT m n gs ->
  forall vn k0 ins (g : nat -> nat -> T) out f, k0 + vn = VN -> holds_many ins m vn g -> holds_vec out n VN f ->
  exists out', scatter_many_to_vec_loop SENT ins VN k0 vn (encode SENT gs) out = Ok out' /\
    holds_vec out' n VN (fun p k => if k <? k0 then f p k else scattered gs (fun j => g j (k - k0)) p (f p k)).
Proof.
  intros V. induction vn as [|vn IH]; intros k0 ins g out f Hk0 [L Hi] Ho; cbn [scatter_many_to_vec_loop].
  - exists out. split; auto. eapply holds_vec_ext; [exact Ho|]. intros p k Hp Hk.
    destruct (Nat.ltb_spec k k0); auto. lia.
  - destruct ins as [|a ins]; [simpl in L; lia|].
    destruct (Hi 0 ltac:(lia)) as (a0 & E0 & H0). simpl in E0. injection E0 as <-.
    unfold scatter_strided. cbn [alias_ok].
    destruct (scatter_loop_ok (Some a) k0 VN 0 1 (fun j => g j 0) n m gs out (fun p => f p k0)) as (out1 & E1 & L1 & H1 & F1); auto.
    { lia. }
    { intros p Hp. rewrite Nat.add_comm. apply Ho; auto; lia. }
    { simpl. intros i Hin. rewrite Nat.mul_1_r. apply H0. apply in_map_iff in Hin.
      destruct Hin as ([i' js] & <- & Hin). apply V in Hin. simpl. lia. }
    rewrite E1. cbn [bind].
    destruct (IH (S k0) ins (fun i k => g i (S k)) out1
                (fun p k => if k =? k0 then scattered gs (fun j => g j 0) p (f p k) else f p k)) as (out' & E & H').
    { lia. }
    { split; [simpl in L; lia|]. intros k Hk. destruct (Hi (S k)) as (l & El & Hl); [lia|]. exists l. auto. }
    { destruct Ho as [Lo Ho]. split; [lia|]. intros p k Hp Hk. destruct (Nat.eqb_spec k k0) as [->|N].
      - rewrite Nat.add_comm. rewrite H1; auto.
      - rewrite F1; [auto|]. intros j Hj E. assert (j < n) by (eapply mem_of_valid; eauto). apply N.
        destruct (Nat.lt_trichotomy p j) as [X|[X|X]]; [exfalso; nia|subst; lia|exfalso; nia]. }
    exists out'. split; [exact E|]. eapply holds_vec_ext; [exact H'|]. intros p k Hp Hk. simpl.
    destruct (Nat.eqb_spec k k0) as [->|N].
    + destruct (Nat.ltb_spec k0 (S k0)); [|lia]. rewrite Nat.ltb_irrefl, Nat.sub_diag. auto.
    + destruct (Nat.ltb_spec k (S k0)); destruct (Nat.ltb_spec k k0); try lia; auto.
      replace (S (k - S k0)) with (k - k0) by lia. auto.
Qed.
Theorem scatter_many_to_vec_correct gs n m vn ins (g : nat -> nat -> T) out f :
  valid_map SENT m n gs -> holds_many ins m vn g -> holds_vec out n vn f ->
  exists out', scatter_many_to_vec SENT ins vn (encode SENT gs) out = Ok out' /\
    holds_vec out' n vn (fun p k => scattered gs (fun j => g j k) p (f p k)).
Proof.
  intros V Ha Ho. destruct (scatter_m2v_loop gs m vn n V vn 0 ins g out f) as (out' & E & H); auto.
  exists out'. split; auto. eapply holds_vec_ext; [exact H|]. intros p k Hp Hk. simpl.
  rewrite Nat.sub_0_r. auto.
Qed.
End Proof.
