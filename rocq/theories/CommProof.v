(** Proofs about comm_scan, comm_allreduce and comm_reduce. *)
From Verif Require Import Base BaseLemmas Kernels Net NetProof OpsSpec Comm CommSpec.
From Coq Require Import PArith.

(** ** Rounds with two participants *)
Section Pair.
Context {W A : Type}.
Variable np : nat.

Definition pair_of (a b p : nat) : bool := (p =? a) || (p =? b).

Lemma goes_exchange (a b : nat) (P Q : nat -> prog W A) ta tb ma mb ca cb ka kb :
  a <> b -> a < np -> b < np -> length mb <= ca -> length ma <= cb ->
  P a = comm [(b, ta, ma)] [(b, tb, ca)] ka ->
  P b = comm [(a, tb, mb)] [(a, ta, cb)] kb ->
  Q a = ka [mb] -> Q b = kb [ma] ->
  (forall p, p < np -> p <> a -> p <> b -> Q p = P p) ->
  goes np P Q.
Proof.
  intros Hab Ha Hb Lb La Pa Pb Qa Qb Qo.
  eapply (goes_comm np (pair_of a b) P Q
    (fun p => if p =? a then [(b, ta, ma)] else [(a, tb, mb)])
    (fun p => if p =? a then [(b, tb, ca)] else [(a, ta, cb)])
    (fun p => if p =? a then ka else kb)
    (fun p => if p =? a then [mb] else [ma])).
  - unfold pair_of. assert (Eba : (b =? a) = false) by (apply Nat.eqb_neq; auto). constructor.
    + intros p Hp _. destruct (p =? a); simpl; repeat constructor; simpl; tauto.
    + intros p Hp _. destruct (p =? a); simpl; repeat constructor; simpl; tauto.
    + intros p q t m Hp HS Hin. destruct (Nat.eqb_spec p a) as [->|N].
      * destruct Hin as [X|[]]. injection X as <- <- <-. split; auto. rewrite Eba, Nat.eqb_refl.
        split; auto. exists cb. simpl; auto.
      * simpl in HS. apply Nat.eqb_eq in HS. subst p. destruct Hin as [X|[]]. injection X as <- <- <-.
        split; auto. rewrite Nat.eqb_refl. split; auto. exists ca. simpl; auto.
    + intros q Hq HS. destruct (Nat.eqb_spec q a) as [->|N].
      * repeat constructor; simpl; auto; rewrite ?Eba, ?Nat.eqb_refl; simpl; auto.
      * simpl in HS. apply Nat.eqb_eq in HS. subst q.
        repeat constructor; simpl; auto; rewrite ?Eba, ?Nat.eqb_refl; simpl; auto.
  - intros p Hp HS. unfold pair_of in HS. apply orb_false_iff in HS. destruct HS as [H1 H2].
    apply Nat.eqb_neq in H1, H2. auto.
  - intros p Hp HS. unfold pair_of in HS. destruct (Nat.eqb_spec p a) as [->|N]; auto.
    simpl in HS. apply Nat.eqb_eq in HS. subst p. auto.
Qed.

Lemma goes_send (a b : nat) (P Q : nat -> prog W A) t m c ka kb :
  a <> b -> a < np -> b < np -> length m <= c ->
  P a = comm [(b, t, m)] [] ka ->
  P b = comm [] [(a, t, c)] kb ->
  Q a = ka [] -> Q b = kb [m] ->
  (forall p, p < np -> p <> a -> p <> b -> Q p = P p) ->
  goes np P Q.
Proof.
  intros Hab Ha Hb L Pa Pb Qa Qb Qo.
  eapply (goes_comm np (pair_of a b) P Q
    (fun p => if p =? a then [(b, t, m)] else [])
    (fun p => if p =? a then [] else [(a, t, c)])
    (fun p => if p =? a then ka else kb)
    (fun p => if p =? a then [] else [m])).
  - unfold pair_of. assert (Eba : (b =? a) = false) by (apply Nat.eqb_neq; auto). constructor.
    + intros p Hp _. destruct (p =? a); simpl; repeat constructor; simpl; tauto.
    + intros p Hp _. destruct (p =? a); simpl; repeat constructor; simpl; tauto.
    + intros p q t' m' Hp HS Hin. destruct (Nat.eqb_spec p a) as [->|N]; [|destruct Hin].
      destruct Hin as [X|[]]. injection X as <- <- <-. split; auto. rewrite Eba, Nat.eqb_refl.
      split; auto. exists c. simpl; auto.
    + intros q Hq HS. destruct (Nat.eqb_spec q a) as [->|N]; [constructor|].
      simpl in HS. apply Nat.eqb_eq in HS. subst q.
      repeat constructor; simpl; auto; rewrite ?Eba, ?Nat.eqb_refl; simpl; auto.
  - intros p Hp HS. unfold pair_of in HS. apply orb_false_iff in HS. destruct HS as [H1 H2].
    apply Nat.eqb_neq in H1, H2. auto.
  - intros p Hp HS. unfold pair_of in HS. destruct (Nat.eqb_spec p a) as [->|N]; auto.
    simpl in HS. apply Nat.eqb_eq in HS. subst p. auto.
Qed.
End Pair.

(** ** The tree *)
Definition t_left (t : tree) : tree := Tree (tn t / 2) (xO (tc t)) (2 * todd t + tn t mod 2) (tbase t).
Definition t_right (t : tree) : tree :=
  Tree (tn t / 2 + tn t mod 2) (xI (tc t)) (2 * todd t + tn t mod 2) (tbase t + tn t / 2).

Lemma todd_mod o n : (2 * o + n mod 2) mod 2 = n mod 2.
Proof. rewrite Nat.add_comm, Nat.mul_comm, Nat.mod_add by lia. apply Nat.mod_mod. lia. Qed.
Lemma todd_div o n : (2 * o + n mod 2) / 2 = o.
Proof.
  rewrite Nat.add_comm, Nat.mul_comm, Nat.div_add by lia.
  rewrite (Nat.div_small (n mod 2)) by (apply Nat.mod_upper_bound; lia). lia.
Qed.
Lemma half_sum n : n / 2 + (n / 2 + n mod 2) = n.
Proof. pose proof (Nat.div_mod n 2 ltac:(lia)). lia. Qed.

Lemma tree_down_eq id t : tree_down id t = if tbase t + tn t / 2 <=? id then t_right t else t_left t.
Proof.
  unfold tree_down, t_right, t_left. destruct (_ <=? id); auto. rewrite todd_mod. auto.
Qed.
Lemma up_left t : tree_up false (tc t) (t_left t) = t.
Proof.
  unfold tree_up, t_left. cbn [tn tc todd tbase]. rewrite todd_mod, todd_div.
  destruct t as [n c o b]. cbn [tn tc todd tbase]. f_equal. pose proof (half_sum n). lia.
Qed.
Lemma up_right t : tree_up true (tc t) (t_right t) = t.
Proof.
  unfold tree_up, t_right. cbn [tn tc todd tbase]. rewrite todd_mod, todd_div.
  destruct t as [n c o b]. cbn [tn tc todd tbase]. pose proof (half_sum n).
  replace (n / 2 + n mod 2 - n mod 2) with (n / 2) by lia. f_equal; lia.
Qed.

Lemma halves n : 2 <= n -> 1 <= n / 2 /\ n / 2 < n /\ n / 2 + n mod 2 < n /\ 1 <= n / 2 + n mod 2.
Proof.
  intros H. pose proof (half_sum n). pose proof (Nat.mod_upper_bound n 2 ltac:(lia)).
  pose proof (Nat.div_mod n 2 ltac:(lia)). lia.
Qed.

Definition inside (t : tree) (p : nat) : Prop := tbase t <= p < tbase t + tn t.

(** A node of the tree over np processes. *)
Inductive node (np : nat) : tree -> Prop :=
| node_root : 1 <= np -> node np (tree_root np)
| node_left t : node np t -> 2 <= tn t -> node np (t_left t)
| node_right t : node np t -> 2 <= tn t -> node np (t_right t).

Lemma node_bounds np t : node np t -> 1 <= tn t /\ tbase t + tn t <= np.
Proof.
  induction 1 as [H|t N IH H|t N IH H]; cbn [tree_root t_left t_right tn tbase]; [lia| |];
    pose proof (half_sum (tn t)); pose proof (halves _ H); lia.
Qed.
Lemma node_child_lt np t : node np t -> 2 <= tn t -> tn (t_left t) < np /\ tn (t_right t) < np.
Proof.
  intros N H. apply node_bounds in N. pose proof (halves _ H). cbn [t_left t_right tn]. lia.
Qed.

Lemma inside_cases t p : 2 <= tn t -> (inside t p <-> inside (t_left t) p \/ inside (t_right t) p).
Proof.
  intros H. unfold inside. cbn [t_left t_right tn tbase]. pose proof (half_sum (tn t)). pose proof (halves _ H). lia.
Qed.
Lemma inside_left t p : 2 <= tn t -> inside (t_left t) p -> tree_down p t = t_left t /\ inside t p.
Proof.
  intros H I. unfold inside in *. cbn [t_left t_right tn tbase] in I. pose proof (halves _ H).
  rewrite tree_down_eq. destruct (Nat.leb_spec (tbase t + tn t / 2) p); [lia|]. split; auto. lia.
Qed.
Lemma inside_right t p : 2 <= tn t -> inside (t_right t) p ->
  tree_down p t = t_right t /\ inside t p /\ ~ inside (t_left t) p.
Proof.
  intros H I. unfold inside in *. cbn [t_left t_right tn tbase] in *. pose proof (halves _ H).
  pose proof (half_sum (tn t)).
  rewrite tree_down_eq. destruct (Nat.leb_spec (tbase t + tn t / 2) p); [|lia]. split; auto. lia.
Qed.
Lemma inside_base t : 1 <= tn t -> inside t (tbase t).
Proof. unfold inside. lia. Qed.

Lemma descend_step f id t : 2 <= tn t -> tree_descend f id t =
  match f with O => OutOfFuel | S f' => tree_descend f' id (tree_down id t) end.
Proof. intros H. destruct f; cbn [tree_descend]; destruct (Nat.leb_spec (tn t) 1); auto; lia. Qed.
Lemma descend_leaf f id t : tn t <= 1 -> tree_descend f id t = Ok t.
Proof. intros H. destruct f; cbn [tree_descend]; destruct (Nat.leb_spec (tn t) 1); auto; lia. Qed.

Lemma descend_ok : forall f id t, inside t id -> tn t <= S f -> exists l, tree_descend f id t = Ok l.
Proof.
  induction f as [|f IH]; intros id t I H.
  - exists t. apply descend_leaf; auto.
  - destruct (le_lt_dec (tn t) 1) as [L|L]; [exists t; apply descend_leaf; auto|].
    rewrite descend_step by lia. apply IH; rewrite tree_down_eq;
      destruct (Nat.leb_spec (tbase t + tn t / 2) id); unfold inside in *; cbn [t_left t_right tn tbase];
      pose proof (half_sum (tn t)); pose proof (halves (tn t) L); lia.
Qed.

(** ** Vectors and reductions *)
Section Vec.
Context {T : Type}.
Variable op : T -> T -> T.
Variable e : T.
Hypothesis M : cmonoid op e.

Lemma cm_idr a : op a e = a.
Proof. rewrite (cmon_comm _ _ M). apply (cmon_id _ _ M). Qed.

Lemma fold_left_op l : forall a, fold_left op l a = op a (fold_left op l e).
Proof.
  induction l as [|x l IH]; intros a; simpl; [symmetry; apply cm_idr|].
  rewrite IH, (IH (op e x)), (cmon_id _ _ M), (cmon_assoc _ _ M). auto.
Qed.
Lemma reduction_app x a n m : op (reduction op e x a n) (reduction op e x (a + n) m) = reduction op e x a (n + m).
Proof.
  unfold reduction. rewrite seq_app, map_app, fold_left_app.
  rewrite (fold_left_op (map x (seq (a + n) m)) (fold_left _ _ _)). auto.
Qed.
Lemma reduction_one x a : reduction op e x a 1 = x a.
Proof. unfold reduction. simpl. apply (cmon_id _ _ M). Qed.
End Vec.

Section VecList.
Context {T : Type}.
Lemma vec_length vn (g : nat -> T) : length (vec vn g) = vn.
Proof. unfold vec. rewrite map_length, seq_length. auto. Qed.
Lemma vec_ext vn (g h : nat -> T) : (forall i, i < vn -> g i = h i) -> vec vn g = vec vn h.
Proof. intros H. unfold vec. apply map_ext_in. intros i Hi. apply in_seq in Hi. apply H; lia. Qed.
Lemma vec_of_list (l : list T) d : vec (length l) (fun i => nth i l d) = l.
Proof.
  apply nth_error_ext. intros i. unfold vec. rewrite nth_error_map.
  destruct (lt_dec i (length l)) as [H|H].
  - rewrite seq_nth_error by auto. simpl. symmetry. apply nth_error_nth'. auto.
  - rewrite (proj2 (nth_error_None _ _)) by (rewrite seq_length; lia). symmetry. apply nth_error_None. lia.
Qed.
Lemma over_full (m b : list T) : length b = length m -> over m b = m.
Proof. intros H. unfold over. rewrite skipn_all2 by lia. apply app_nil_r. Qed.

Lemma gather_array_vec_gen op : forall n s (g h : nat -> T),
  gather_array op (map g (seq s n)) (map h (seq s n)) n = Ok (map (fun i => op (g i) (h i)) (seq s n)).
Proof.
  induction n as [|n IH]; intros s g h; cbn [gather_array seq map]; auto. rewrite IH. auto.
Qed.
Lemma gather_array_vec op vn (g h : nat -> T) :
  gather_array op (vec vn g) (vec vn h) vn = Ok (vec vn (fun i => op (g i) (h i))).
Proof. apply gather_array_vec_gen. Qed.
Lemma init_array_vec (e : T) : forall n l, length l = n -> init_array e l n = Ok (vec n (fun _ => e)).
Proof.
  unfold vec. assert (G : forall n s l, length l = n -> init_array e l n = Ok (map (fun _ => e) (seq s n))).
  { induction n as [|n IH]; intros s l H; cbn [init_array seq map].
    - destruct l; [auto|discriminate].
    - destruct l as [|x l]; [discriminate|]. simpl in H. rewrite (IH (S s) l) by lia. auto. }
  intros n l H. apply G; auto.
Qed.
End VecList.

(** ** comm_scan *)
Section Scan.
Context {T : Type}.
Variable op : T -> T -> T.
Variable e : T.
Hypothesis M : cmonoid op e.
Variable np vn : nat.
Variable x : nat -> nat -> T.      (** component i of the value of process q: x q i *)

Definition R (a n : nat) : list T := vec vn (fun i => reduction op e (fun q => x q i) a n).

Lemma R_length a n : length (R a n) = vn.
Proof. apply vec_length. Qed.
Lemma R_join a n m : gather_array op (R a n) (R (a + n) m) vn = Ok (R a (n + m)).
Proof. unfold R. rewrite gather_array_vec. f_equal. apply vec_ext. intros. apply reduction_app; auto. Qed.
Lemma R_join_rev a n m : gather_array op (R (a + n) m) (R a n) vn = Ok (R a (n + m)).
Proof.
  unfold R. rewrite gather_array_vec. f_equal. apply vec_ext. intros.
  rewrite (cmon_comm _ _ M). apply reduction_app; auto.
Qed.
Lemma R_0 a : R a 0 = vec vn (fun _ => e).
Proof. auto. Qed.

Notation prg := (prog T (@sbufs T)).
Definition sup (p : nat) (t : tree) (s : sbufs) : prg := scan_up op np p vn (tc t) t s.
Definition sdn (f p : nat) (t : tree) (s : sbufs) : prg := scan_down op p vn f t s.

Definition starts (P : nat -> prg) (t : tree) : Prop :=
  forall p, inside t p -> exists f l b0 b1, tree_descend f p t = Ok l /\ length b0 = vn /\ length b1 = vn /\
    P p = sup p l (SB (R 0 0) (R p 1) b0 b1).

Inductive waiting (Q : nat -> prg) : tree -> Prop :=
| w_leaf t : tn t <= 1 -> waiting Q t
| w_node t b0 b1 : 2 <= tn t -> length b0 = vn -> length b1 = vn ->
    Q (tbase t + tn t / 2) = sdn np (tbase t + tn t / 2) t
      (SB (R (tbase t) (tn t / 2)) (R (tbase t + tn t / 2) (tn t / 2 + tn t mod 2)) b0 b1) ->
    waiting Q (t_left t) -> waiting Q (t_right t) -> waiting Q t.

Lemma waiting_ext Q Q' t : (forall p, inside t p -> p <> tbase t -> Q' p = Q p) -> waiting Q t -> waiting Q' t.
Proof.
  intros H W. revert H. induction W as [t L|t b0 b1 L L0 L1 E Wl IHl Wr IHr]; intros H; [constructor; auto|].
  pose proof (half_sum (tn t)). pose proof (halves _ L).
  apply (w_node Q' t b0 b1); auto.
  - rewrite H; [exact E| |]; unfold inside; lia.
  - apply IHl. intros p Hp Hb. apply H; [apply inside_left; auto|exact Hb].
  - apply IHr. intros p Hp Hb. apply H; [apply inside_right; auto|].
    unfold inside in Hp. cbn [t_right tbase tn] in Hp. lia.
Qed.

Lemma sup_step p t (c_odd : bool) (c' : positive) s :
  tn t < np -> tc t = (if c_odd then xI c' else xO c') ->
  sup p t s =
    let t' := tree_up c_odd c' t in
    if tbase t' =? p then
      comm [(p + tn t' / 2, p, sred s)] [(p + tn t' / 2, p + tn t' / 2, vn)] (fun ms =>
        match ms with
        | [m] => let b0 := over m (sb0 s) in
                 pbind (plift (gather_array op (sred s) b0 vn)) (fun r =>
                 scan_up op np p vn c' t' (SB (sscan s) r b0 (sb1 s)))
        | _ => Stop
        end)
    else
      comm [(tbase t', p, sred s)] [(tbase t', tbase t', vn)] (fun ms =>
        match ms with
        | [m] => scan_down op p vn np t' (SB (over m (sscan s)) (sred s) (sb0 s) (sb1 s))
        | _ => Stop
        end).
Proof.
  intros H E. unfold sup. rewrite E. destruct c_odd; cbn [scan_up];
    destruct (Nat.leb_spec np (tn t)); try lia; reflexivity.
Qed.

Lemma up_phase : forall n t, tn t = n -> node np t -> forall P, starts P t ->
  exists Q, goes np P Q /\ (forall p, p < np -> ~ inside t p -> Q p = P p) /\
    (exists b0 b1, length b0 = vn /\ length b1 = vn /\
       Q (tbase t) = sup (tbase t) t (SB (R 0 0) (R (tbase t) (tn t)) b0 b1)) /\
    waiting Q t.
Proof.
  induction n as [n IH] using lt_wf_ind. intros t Hn N P St.
  destruct (le_lt_dec (tn t) 1) as [L|L].
  - exists P. pose proof (node_bounds _ _ N). split; [apply goes_refl|]. split; auto.
    split; [|constructor; auto].
    destruct (St (tbase t)) as (f & l & b0 & b1 & El & L0 & L1 & E); [apply inside_base; lia|].
    rewrite descend_leaf in El by auto. injection El as <-. exists b0, b1.
    replace (tn t) with 1 by lia. auto.
  - pose proof (halves _ L) as Hh. pose proof (half_sum (tn t)) as Hs.
    pose proof (node_bounds _ _ N) as Nb. pose proof (node_child_lt _ _ N L) as [Ll Lr].
    destruct (IH (tn (t_left t)) ltac:(cbn [t_left t_right tn]; lia) (t_left t) eq_refl (node_left _ _ N L) P)
      as (Q1 & G1 & O1 & (b0 & b1 & L0 & L1 & E1) & W1).
    { intros p Hp. destruct (inside_left t p L Hp) as [Hd Hi]. destruct (St p Hi) as (f & l & c0 & c1 & El & C0 & C1 & E).
      rewrite descend_step in El by lia. destruct f as [|f]; [discriminate|]. rewrite Hd in El.
      exists f, l, c0, c1. auto. }
    destruct (IH (tn (t_right t)) ltac:(cbn [t_left t_right tn]; lia) (t_right t) eq_refl (node_right _ _ N L) Q1)
      as (Q2 & G2 & O2 & (d0 & d1 & D0 & D1 & E2) & W2).
    { intros p Hp. destruct (inside_right t p L Hp) as (Hd & Hi & Hni). destruct (St p Hi) as (f & l & c0 & c1 & El & C0 & C1 & E).
      rewrite descend_step in El by lia. destruct f as [|f]; [discriminate|]. rewrite Hd in El.
      exists f, l, c0, c1. rewrite O1; auto. unfold inside in Hi. lia. }
    set (a := tbase t) in *. set (h := tn t / 2) in *. set (b := a + h).
    assert (E1' : Q2 a = sup a (t_left t) (SB (R 0 0) (R a h) b0 b1)).
    { rewrite O2; [exact E1|lia|]. unfold inside. cbn [t_right tbase tn]. fold a h. lia. }
    assert (E2' : Q2 b = sup b (t_right t) (SB (R 0 0) (R b (h + tn t mod 2)) d0 d1)) by exact E2.
    rewrite (sup_step a (t_left t) false (tc t)) in E1' by auto.
    rewrite (sup_step b (t_right t) true (tc t)) in E2' by auto.
    cbv zeta in E1', E2'. rewrite up_left in E1'. rewrite up_right in E2'.
    fold a in E1', E2'. rewrite Nat.eqb_refl in E1'.
    destruct (Nat.eqb_spec a b) as [X|_]; [unfold b in X; lia|].
    cbn [sscan sred sb0 sb1] in E1', E2'. fold h b in E1'.
    set (Q3 := fun p => if p =? a then sup a t (SB (R 0 0) (R a (tn t)) (R b (h + tn t mod 2)) b1)
                       else if p =? b then sdn np b t (SB (R a h) (R b (h + tn t mod 2)) d0 d1)
                       else Q2 p).
    exists Q3. assert (Hab : a <> b) by (unfold b; lia).
    assert (Q3a : Q3 a = sup a t (SB (R 0 0) (R a (tn t)) (R b (h + tn t mod 2)) b1)) by (unfold Q3; rewrite Nat.eqb_refl; auto).
    assert (Q3b : Q3 b = sdn np b t (SB (R a h) (R b (h + tn t mod 2)) d0 d1)).
    { unfold Q3. destruct (Nat.eqb_spec b a); [congruence|]. rewrite Nat.eqb_refl. auto. }
    assert (Q3o : forall p, p <> a -> p <> b -> Q3 p = Q2 p).
    { intros p Ha Hb. unfold Q3. destruct (Nat.eqb_spec p a); [congruence|]. destruct (Nat.eqb_spec p b); [congruence|]. auto. }
    split; [|split; [|split]].
    + eapply goes_trans; [exact G1|]. eapply goes_trans; [exact G2|].
      eapply (goes_exchange np a b Q2 Q3 a b); [auto|lia|unfold b; lia| | |exact E1'|exact E2'| | |].
      * rewrite R_length. auto.
      * rewrite R_length. auto.
      * rewrite Q3a. rewrite over_full by (rewrite R_length; auto).
        unfold b at 2. rewrite R_join. cbn [plift pbind]. replace (h + (h + tn t mod 2)) with (tn t) by (unfold h; lia). auto.
      * rewrite Q3b. rewrite over_full by (rewrite !R_length; auto). auto.
      * intros p _ Ha Hb. apply Q3o; auto.
    + intros p Hp Hi. rewrite Q3o.
      * rewrite inside_cases in Hi by auto. rewrite O2, O1 by tauto. auto.
      * intros ->. apply Hi. apply inside_base. lia.
      * intros ->. apply Hi. unfold inside. fold a. unfold b. lia.
    + exists (R b (h + tn t mod 2)), b1. rewrite R_length. auto.
    + apply (w_node Q3 t d0 d1); auto.
      * apply (waiting_ext Q1); auto. intros p Hp Hb. unfold inside in Hp. cbn [t_left tbase tn] in Hp, Hb.
        fold a h in Hp, Hb. rewrite Q3o by (unfold b; lia). apply O2; [lia|].
        unfold inside. cbn [t_right tbase tn]. fold a h. lia.
      * apply (waiting_ext Q2); auto. intros p Hp Hb. unfold inside in Hp. cbn [t_right tbase tn] in Hp, Hb.
        fold a h in Hp, Hb. apply Q3o; unfold b; lia.
Qed.

Lemma down_phase : forall n t, tn t = n -> node np t -> forall Q f b0 b1,
  tn t <= f -> length b0 = vn -> length b1 = vn ->
  Q (tbase t) = sdn f (tbase t) t (SB (R 0 (tbase t)) (R 0 np) b0 b1) -> waiting Q t ->
  exists Q', goes np Q Q' /\ (forall p, p < np -> ~ inside t p -> Q' p = Q p) /\
    forall p, inside t p -> exists s, Q' p = Ret s /\ sscan s = R 0 p /\ sred s = R 0 np.
Proof.
  induction n as [n IH] using lt_wf_ind. intros t Hn N Q f b0 b1 Hf L0 L1 E W.
  pose proof (node_bounds _ _ N) as Nb.
  destruct (le_lt_dec (tn t) 1) as [L|L].
  - exists Q. split; [apply goes_refl|]. split; auto. intros p Hp.
    assert (p = tbase t) by (unfold inside in Hp; lia). subst p. rewrite E. unfold sdn.
    destruct f; cbn [scan_down]; destruct (Nat.leb_spec (tn t) 1); try lia; eexists; (split; [reflexivity|]); split; reflexivity.
  - pose proof (halves _ L) as Hh. pose proof (half_sum (tn t)) as Hs.
    inversion W as [|t' d0 d1 _ D0 D1 E2 Wl Wr]; subst; [lia|].
    set (a := tbase t) in *. set (h := tn t / 2) in *. set (b := a + h) in *.
    destruct f as [|f]; [lia|].
    destruct np as [|np'] eqn:Enp; [lia|]. rewrite <- Enp in *.
    assert (Da : tree_down a t = t_left t).
    { apply inside_left; auto. unfold inside. cbn [t_left tbase tn]. fold a h. lia. }
    assert (Db : tree_down b t = t_right t).
    { apply inside_right; auto. unfold inside. cbn [t_right tbase tn]. fold a h. unfold b. lia. }
    assert (Ea : Q a = comm_send b a (R 0 a ++ R 0 np) (sdn f a (t_left t) (SB (R 0 a) (R 0 np) b0 b1))).
    { rewrite E. unfold sdn. cbn [scan_down]. destruct (Nat.leb_spec (tn t) 1); [lia|].
      fold a. rewrite Nat.eqb_refl, Da. reflexivity. }
    unfold sdn in E2. rewrite Enp in E2 at 1. cbn [scan_down] in E2.
    destruct (Nat.leb_spec (tn t) 1); [lia|]. fold a in E2.
    destruct (Nat.eqb_spec a b) as [X|_]; [unfold b in X; lia|].
    rewrite Db in E2. cbn [sscan sred sb0 sb1] in E2.
    set (Q1 := fun p => if p =? a then sdn f a (t_left t) (SB (R 0 a) (R 0 np) b0 b1)
                       else if p =? b then sdn np' b (t_right t) (SB (R 0 b) (R 0 np) (R 0 a) (R 0 np))
                       else Q p).
    assert (Hab : a <> b) by (unfold b; lia).
    assert (Q1a : Q1 a = sdn f a (t_left t) (SB (R 0 a) (R 0 np) b0 b1)) by (unfold Q1; rewrite Nat.eqb_refl; auto).
    assert (Q1b : Q1 b = sdn np' b (t_right t) (SB (R 0 b) (R 0 np) (R 0 a) (R 0 np))).
    { unfold Q1. destruct (Nat.eqb_spec b a); [congruence|]. rewrite Nat.eqb_refl. auto. }
    assert (Q1o : forall p, p <> a -> p <> b -> Q1 p = Q p).
    { intros p Ha Hb. unfold Q1. destruct (Nat.eqb_spec p a); [congruence|]. destruct (Nat.eqb_spec p b); [congruence|]. auto. }
    assert (G1 : goes np Q Q1).
    { eapply (goes_send np a b Q Q1 a); [auto|lia|unfold b; lia| |exact Ea|exact E2| | |].
      - rewrite app_length, !R_length. lia.
      - exact Q1a.
      - rewrite Q1b. cbn [map]. rewrite over_full by (rewrite !app_length, !R_length; lia).
        rewrite firstn_app, R_length, Nat.sub_diag, firstn_O, app_nil_r.
        rewrite firstn_all2 by (rewrite R_length; auto).
        rewrite skipn_app, R_length, Nat.sub_diag, skipn_O, skipn_all2 by (rewrite R_length; auto).
        cbn [app]. change (R a h) with (R (0 + a) h). rewrite (R_join_rev 0 a h). cbn [plift pbind]. reflexivity.
      - intros p _ Ha Hb. apply Q1o; auto. }
    destruct (IH (tn (t_left t)) ltac:(cbn [t_left t_right tn]; fold h; lia) (t_left t) eq_refl (node_left _ _ N L) Q1 f b0 b1)
      as (Q2 & G2 & O2 & F2); auto.
    { cbn [t_left tn]. fold h. lia. }
    { apply (waiting_ext Q); auto. intros p Hp Hb. unfold inside in Hp. cbn [t_left tbase tn] in Hp, Hb.
      fold a h in Hp, Hb. apply Q1o; unfold b; lia. }
    destruct (IH (tn (t_right t)) ltac:(cbn [t_left t_right tn]; fold h; lia) (t_right t) eq_refl (node_right _ _ N L) Q2 np' (R 0 a) (R 0 np))
      as (Q3 & G3 & O3 & F3); auto using R_length.
    { cbn [t_right tn]. fold h. lia. }
    { cbn [t_right tbase]. fold a h. fold b. rewrite O2; [exact Q1b|unfold b; lia|].
      unfold inside. cbn [t_left tbase tn]. fold a h. unfold b. lia. }
    { apply (waiting_ext Q); auto. intros p Hp Hb. unfold inside in Hp. cbn [t_right tbase tn] in Hp, Hb.
      fold a h in Hp, Hb. rewrite O2; [apply Q1o; unfold b; lia|lia|].
      unfold inside. cbn [t_left tbase tn]. fold a h. lia. }
    exists Q3. split; [|split].
    + eapply goes_trans; [exact G1|]. eapply goes_trans; eauto.
    + intros p Hp Hi. rewrite inside_cases in Hi by auto. rewrite O3, O2 by tauto. apply Q1o.
      * intros ->. apply Hi. left. unfold inside. cbn [t_left tbase tn]. fold a h. lia.
      * intros ->. apply Hi. right. unfold inside. cbn [t_right tbase tn]. fold a h. unfold b. lia.
    + intros p Hp. apply inside_cases in Hp; auto. destruct Hp as [Hp|Hp].
      * rewrite O3; [apply F2; auto| |].
        -- unfold inside in Hp. cbn [t_left tbase tn] in Hp. fold a h in Hp. lia.
        -- intros Hr. destruct (inside_right t p L Hr) as (_ & _ & Hx). auto.
      * apply F3; auto.
Qed.

Lemma scan_goes (P : nat -> prg) : 1 <= np -> starts P (tree_root np) ->
  exists Q, goes np P Q /\ forall p, p < np -> exists s, Q p = Ret s /\ sscan s = R 0 p /\ sred s = R 0 np.
Proof.
  intros Hnp St. pose proof (node_root np Hnp) as N.
  destruct (up_phase np (tree_root np) eq_refl N P St) as (Q1 & G1 & _ & (b0 & b1 & L0 & L1 & E1) & W1).
  destruct (down_phase np (tree_root np) eq_refl N Q1 np b0 b1) as (Q2 & G2 & _ & F2); auto.
  - cbn [tree_root tbase tn] in *. rewrite E1. unfold sup, sdn. cbn [tree_root tc scan_up tn].
    rewrite Nat.leb_refl. auto.
  - exists Q2. split; [eapply goes_trans; eauto|]. intros p Hp. apply F2. unfold inside. simpl. lia.
Qed.
End Scan.

Lemma nth_vec_eq {T} (l : list T) vn d : length l = vn -> vec vn (fun i => nth i l d) = l.
Proof. intros <-. apply vec_of_list. Qed.

Theorem comm_scan_goes {T} (op : T -> T -> T) (e : T) np vn (v scan buffer : nat -> list T) :
  cmonoid op e -> 1 <= np ->
  (forall p, p < np -> length (v p) = vn /\ length (scan p) = 2 * vn /\ length (buffer p) = 2 * vn) ->
  goes np (fun p => comm_scan op e np p vn (v p) (scan p) (buffer p))
    (fun p => Ret (vec vn (fun i => reduction op e (fun q => nth i (v q) e) 0 p) ++
                   vec vn (fun i => reduction op e (fun q => nth i (v q) e) 0 np))).
Proof.
  intros M Hnp Hl.
  set (x := fun q i => nth i (v q) e).
  assert (Hd : forall p, p < np -> exists l, tree_descend np p (tree_root np) = Ok l).
  { intros p Hp. apply descend_ok; [unfold inside; simpl; lia|simpl; lia]. }
  set (lf := fun p => match tree_descend np p (tree_root np) with Ok l => l | _ => tree_root np end).
  set (P0 := fun p => sup op np vn p (lf p) (SB (R op e vn x 0 0) (R op e vn x p 1)
                        (firstn vn (buffer p)) (skipn vn (buffer p)))).
  destruct (scan_goes op e M np vn x P0 Hnp) as (Q & G & F).
  { intros p Hp. unfold inside in Hp. simpl in Hp. destruct (Hd p) as (l & El); [lia|].
    destruct (Hl p) as (_ & _ & Lb); [lia|].
    exists np, l, (firstn vn (buffer p)), (skipn vn (buffer p)). split; auto.
    rewrite firstn_length, skipn_length. split; [lia|]. split; [lia|]. unfold P0, lf. rewrite El. auto. }
  set (r := fun p => match Q p with Ret s => s | _ => SB [] [] [] [] end).
  assert (G' : goes np P0 (fun p => Ret (r p))).
  { eapply goes_trans; [exact G|]. apply goes_ext. intros p Hp. destruct (F p Hp) as (s & E & _).
    unfold r. rewrite E. auto. }
  eapply goes_trans; [|eapply goes_trans; [exact (goes_bind np (fun _ s => Ret (sscan s ++ sred s)) P0 r G')|]].
  - apply goes_ext. intros p Hp. unfold comm_scan. destruct (Hd p Hp) as (l & El). rewrite El.
    cbn [plift pbind]. destruct (Hl p Hp) as (Lv & Ls & Lb).
    rewrite init_array_vec by (rewrite firstn_length; lia). cbn [plift pbind].
    unfold P0, sup, lf. rewrite El.
    replace (over (firstn vn (v p)) (skipn vn (scan p))) with (R op e vn x p 1); [reflexivity|].
    rewrite over_full by (rewrite firstn_length, skipn_length; lia).
    rewrite firstn_all2 by lia. unfold R. rewrite <- (nth_vec_eq (v p) vn e Lv).
    apply vec_ext. intros i Hi. rewrite reduction_one by auto. auto.
  - apply goes_ext. intros p Hp. destruct (F p Hp) as (s & E & E1 & E2). unfold r. rewrite E.
    rewrite E1, E2. reflexivity.
Qed.

Theorem comm_scan_correct {T} (op : T -> T -> T) (e : T) np vn (v scan buffer : nat -> list T) :
  cmonoid op e -> 1 <= np ->
  (forall p, p < np -> length (v p) = vn /\ length (scan p) = 2 * vn /\ length (buffer p) = 2 * vn) ->
  always_returns
    (map (fun p => comm_scan op e np p vn (v p) (scan p) (buffer p)) (seq 0 np))
    (map (fun p => vec vn (fun i => reduction op e (fun q => nth i (v q) e) 0 p) ++
                   vec vn (fun i => reduction op e (fun q => nth i (v q) e) 0 np)) (seq 0 np)).
Proof.
  intros M Hnp Hl. apply (goes_always_fun _ np _ (comm_scan_goes op e np vn v scan buffer M Hnp Hl)).
Qed.

(** ** comm_allreduce *)
Section Allreduce.
Context {T : Type}.
Variable op : T -> T -> T.
Variable e : T.
Hypothesis M : cmonoid op e.
Variable np vn : nat.
Variable x : nat -> nat -> T.

Notation R := (R op e vn x).
Notation prg := (prog T (list T)).
Definition aup (p : nat) (t : tree) (v b : list T) : prg := allreduce_up op np p vn (tc t) t v b.
Definition adn (f p : nat) (t : tree) (v : list T) : prg := allreduce_down p vn f t v.

Definition astarts (P : nat -> prg) (t : tree) : Prop :=
  forall p, inside t p -> exists f l b, tree_descend f p t = Ok l /\ length b = vn /\ P p = aup p l (R p 1) b.

Inductive awaiting (Q : nat -> prg) : tree -> Prop :=
| aw_leaf t : tn t <= 1 -> awaiting Q t
| aw_node t w : 2 <= tn t -> length w = vn ->
    Q (tbase t + tn t / 2) = adn np (tbase t + tn t / 2) t w ->
    awaiting Q (t_left t) -> awaiting Q (t_right t) -> awaiting Q t.

Lemma awaiting_ext Q Q' t : (forall p, inside t p -> p <> tbase t -> Q' p = Q p) -> awaiting Q t -> awaiting Q' t.
Proof.
  intros H W. revert H. induction W as [t L|t w L L0 E Wl IHl Wr IHr]; intros H; [constructor; auto|].
  pose proof (half_sum (tn t)). pose proof (halves _ L).
  apply (aw_node Q' t w); auto.
  - rewrite H; [exact E| |]; unfold inside; lia.
  - apply IHl. intros p Hp Hb. apply H; [apply inside_left; auto|exact Hb].
  - apply IHr. intros p Hp Hb. apply H; [apply inside_right; auto|].
    unfold inside in Hp. cbn [t_right tbase tn] in Hp. lia.
Qed.

Lemma aup_step p t (c_odd : bool) (c' : positive) v b :
  tn t < np -> tc t = (if c_odd then xI c' else xO c') ->
  aup p t v b =
    let t' := tree_up c_odd c' t in
    if tbase t' =? p then
      comm_recv (p + tn t' / 2) (p + tn t' / 2) vn (fun m =>
        let b' := over m b in
        pbind (plift (gather_array op v b' vn)) (fun v' => allreduce_up op np p vn c' t' v' b'))
    else comm_send (tbase t') p (firstn vn v) (allreduce_down p vn np t' v).
Proof.
  intros H E. unfold aup. rewrite E. destruct c_odd; cbn [allreduce_up];
    destruct (Nat.leb_spec np (tn t)); try lia; reflexivity.
Qed.

Lemma R_len a n : length (R a n) = vn.
Proof. apply vec_length. Qed.

Lemma a_up_phase : forall n t, tn t = n -> node np t -> forall P, astarts P t ->
  exists Q, goes np P Q /\ (forall p, p < np -> ~ inside t p -> Q p = P p) /\
    (exists b, length b = vn /\ Q (tbase t) = aup (tbase t) t (R (tbase t) (tn t)) b) /\
    awaiting Q t.
Proof.
  induction n as [n IH] using lt_wf_ind. intros t Hn N P St.
  destruct (le_lt_dec (tn t) 1) as [L|L].
  - exists P. pose proof (node_bounds _ _ N). split; [apply goes_refl|]. split; auto.
    split; [|constructor; auto].
    destruct (St (tbase t)) as (f & l & b & El & L0 & E); [apply inside_base; lia|].
    rewrite descend_leaf in El by auto. injection El as <-. exists b.
    replace (tn t) with 1 by lia. auto.
  - pose proof (halves _ L) as Hh. pose proof (half_sum (tn t)) as Hs.
    pose proof (node_bounds _ _ N) as Nb. pose proof (node_child_lt _ _ N L) as [Ll Lr].
    destruct (IH (tn (t_left t)) ltac:(cbn [t_left t_right tn]; lia) (t_left t) eq_refl (node_left _ _ N L) P)
      as (Q1 & G1 & O1 & (b0 & L0 & E1) & W1).
    { intros p Hp. destruct (inside_left t p L Hp) as [Hd Hi]. destruct (St p Hi) as (f & l & c0 & El & C0 & E).
      rewrite descend_step in El by lia. destruct f as [|f]; [discriminate|]. rewrite Hd in El.
      exists f, l, c0. auto. }
    destruct (IH (tn (t_right t)) ltac:(cbn [t_left t_right tn]; lia) (t_right t) eq_refl (node_right _ _ N L) Q1)
      as (Q2 & G2 & O2 & (d0 & D0 & E2) & W2).
    { intros p Hp. destruct (inside_right t p L Hp) as (Hd & Hi & Hni). destruct (St p Hi) as (f & l & c0 & El & C0 & E).
      rewrite descend_step in El by lia. destruct f as [|f]; [discriminate|]. rewrite Hd in El.
      exists f, l, c0. rewrite O1; auto. unfold inside in Hi. lia. }
    set (a := tbase t) in *. set (h := tn t / 2) in *. set (b := a + h).
    assert (E1' : Q2 a = aup a (t_left t) (R a h) b0).
    { rewrite O2; [exact E1|lia|]. unfold inside. cbn [t_right tbase tn]. fold a h. lia. }
    assert (E2' : Q2 b = aup b (t_right t) (R b (h + tn t mod 2)) d0) by exact E2.
    rewrite (aup_step a (t_left t) false (tc t)) in E1' by auto.
    rewrite (aup_step b (t_right t) true (tc t)) in E2' by auto.
    cbv zeta in E1', E2'. rewrite up_left in E1'. rewrite up_right in E2'.
    fold a in E1', E2'. rewrite Nat.eqb_refl in E1'.
    destruct (Nat.eqb_spec a b) as [X|_]; [unfold b in X; lia|].
    fold h b in E1'. rewrite firstn_all2 in E2' by (rewrite R_len; auto).
    set (Q3 := fun p => if p =? a then aup a t (R a (tn t)) (R b (h + tn t mod 2))
                       else if p =? b then adn np b t (R b (h + tn t mod 2))
                       else Q2 p).
    exists Q3. assert (Hab : a <> b) by (unfold b; lia).
    assert (Q3a : Q3 a = aup a t (R a (tn t)) (R b (h + tn t mod 2))) by (unfold Q3; rewrite Nat.eqb_refl; auto).
    assert (Q3b : Q3 b = adn np b t (R b (h + tn t mod 2))).
    { unfold Q3. destruct (Nat.eqb_spec b a); [congruence|]. rewrite Nat.eqb_refl. auto. }
    assert (Q3o : forall p, p <> a -> p <> b -> Q3 p = Q2 p).
    { intros p Ha Hb. unfold Q3. destruct (Nat.eqb_spec p a); [congruence|]. destruct (Nat.eqb_spec p b); [congruence|]. auto. }
    split; [|split; [|split]].
    + eapply goes_trans; [exact G1|]. eapply goes_trans; [exact G2|].
      eapply (goes_send np b a Q2 Q3 b); [auto|unfold b; lia|lia| |exact E2'|exact E1'| | |].
      * rewrite R_len. auto.
      * exact Q3b.
      * rewrite Q3a. rewrite over_full by (rewrite R_len; auto).
        unfold b at 2. rewrite R_join by auto. cbn [plift pbind].
        replace (h + (h + tn t mod 2)) with (tn t) by (unfold h; lia). auto.
      * intros p _ Ha Hb. apply Q3o; auto.
    + intros p Hp Hi. rewrite Q3o.
      * rewrite inside_cases in Hi by auto. rewrite O2, O1 by tauto. auto.
      * intros ->. apply Hi. apply inside_base. lia.
      * intros ->. apply Hi. unfold inside. fold a. unfold b. lia.
    + exists (R b (h + tn t mod 2)). rewrite R_len. auto.
    + apply (aw_node Q3 t (R b (h + tn t mod 2))); auto using R_len.
      * apply (awaiting_ext Q1); auto. intros p Hp Hb. unfold inside in Hp. cbn [t_left tbase tn] in Hp, Hb.
        fold a h in Hp, Hb. rewrite Q3o by (unfold b; lia). apply O2; [lia|].
        unfold inside. cbn [t_right tbase tn]. fold a h. lia.
      * apply (awaiting_ext Q2); auto. intros p Hp Hb. unfold inside in Hp. cbn [t_right tbase tn] in Hp, Hb.
        fold a h in Hp, Hb. apply Q3o; unfold b; lia.
Qed.

Lemma a_down_phase : forall n t, tn t = n -> node np t -> forall Q f w,
  tn t <= f -> length w = vn ->
  Q (tbase t) = adn f (tbase t) t w -> awaiting Q t ->
  exists Q', goes np Q Q' /\ (forall p, p < np -> ~ inside t p -> Q' p = Q p) /\
    forall p, inside t p -> Q' p = Ret w.
Proof.
  induction n as [n IH] using lt_wf_ind. intros t Hn N Q f w Hf L0 E W.
  pose proof (node_bounds _ _ N) as Nb.
  destruct (le_lt_dec (tn t) 1) as [L|L].
  - exists Q. split; [apply goes_refl|]. split; auto. intros p Hp.
    assert (p = tbase t) by (unfold inside in Hp; lia). subst p. rewrite E. unfold adn.
    destruct f; cbn [allreduce_down]; destruct (Nat.leb_spec (tn t) 1); try lia; reflexivity.
  - pose proof (halves _ L) as Hh. pose proof (half_sum (tn t)) as Hs.
    inversion W as [|t' w2 _ D0 E2 Wl Wr]; subst; [lia|].
    set (a := tbase t) in *. set (h := tn t / 2) in *. set (b := a + h) in *.
    destruct f as [|f]; [lia|].
    destruct np as [|np'] eqn:Enp; [lia|]. rewrite <- Enp in *.
    assert (Da : tree_down a t = t_left t).
    { apply inside_left; auto. unfold inside. cbn [t_left tbase tn]. fold a h. lia. }
    assert (Db : tree_down b t = t_right t).
    { apply inside_right; auto. unfold inside. cbn [t_right tbase tn]. fold a h. unfold b. lia. }
    assert (Ea : Q a = comm_send b a w (adn f a (t_left t) w)).
    { rewrite E. unfold adn. cbn [allreduce_down]. destruct (Nat.leb_spec (tn t) 1); [lia|].
      fold a. rewrite Nat.eqb_refl, Da. rewrite firstn_all2 by lia. reflexivity. }
    unfold adn in E2. rewrite Enp in E2 at 1. cbn [allreduce_down] in E2.
    destruct (Nat.leb_spec (tn t) 1); [lia|]. fold a in E2.
    destruct (Nat.eqb_spec a b) as [X|_]; [unfold b in X; lia|].
    rewrite Db in E2.
    set (Q1 := fun p => if p =? a then adn f a (t_left t) w
                       else if p =? b then adn np' b (t_right t) w
                       else Q p).
    assert (Hab : a <> b) by (unfold b; lia).
    assert (Q1a : Q1 a = adn f a (t_left t) w) by (unfold Q1; rewrite Nat.eqb_refl; auto).
    assert (Q1b : Q1 b = adn np' b (t_right t) w).
    { unfold Q1. destruct (Nat.eqb_spec b a); [congruence|]. rewrite Nat.eqb_refl. auto. }
    assert (Q1o : forall p, p <> a -> p <> b -> Q1 p = Q p).
    { intros p Ha Hb. unfold Q1. destruct (Nat.eqb_spec p a); [congruence|]. destruct (Nat.eqb_spec p b); [congruence|]. auto. }
    assert (G1 : goes np Q Q1).
    { eapply (goes_send np a b Q Q1 a); [auto|lia|unfold b; lia| |exact Ea|exact E2| | |].
      - lia.
      - exact Q1a.
      - rewrite Q1b. cbn [map]. rewrite over_full by lia. reflexivity.
      - intros p _ Ha Hb. apply Q1o; auto. }
    destruct (IH (tn (t_left t)) ltac:(cbn [t_left t_right tn]; fold h; lia) (t_left t) eq_refl (node_left _ _ N L) Q1 f w)
      as (Q2 & G2 & O2 & F2); auto.
    { cbn [t_left tn]. fold h. lia. }
    { apply (awaiting_ext Q); auto. intros p Hp Hb. unfold inside in Hp. cbn [t_left tbase tn] in Hp, Hb.
      fold a h in Hp, Hb. apply Q1o; unfold b; lia. }
    destruct (IH (tn (t_right t)) ltac:(cbn [t_left t_right tn]; fold h; lia) (t_right t) eq_refl (node_right _ _ N L) Q2 np' w)
      as (Q3 & G3 & O3 & F3); auto.
    { cbn [t_right tn]. fold h. lia. }
    { cbn [t_right tbase]. fold a h. fold b. rewrite O2; [exact Q1b|unfold b; lia|].
      unfold inside. cbn [t_left tbase tn]. fold a h. unfold b. lia. }
    { apply (awaiting_ext Q); auto. intros p Hp Hb. unfold inside in Hp. cbn [t_right tbase tn] in Hp, Hb.
      fold a h in Hp, Hb. rewrite O2; [apply Q1o; unfold b; lia|lia|].
      unfold inside. cbn [t_left tbase tn]. fold a h. lia. }
    exists Q3. split; [|split].
    + eapply goes_trans; [exact G1|]. eapply goes_trans; eauto.
    + intros p Hp Hi. rewrite inside_cases in Hi by auto. rewrite O3, O2 by tauto. apply Q1o.
      * intros ->. apply Hi. left. unfold inside. cbn [t_left tbase tn]. fold a h. lia.
      * intros ->. apply Hi. right. unfold inside. cbn [t_right tbase tn]. fold a h. unfold b. lia.
    + intros p Hp. apply inside_cases in Hp; auto. destruct Hp as [Hp|Hp].
      * rewrite O3; [apply F2; auto| |].
        -- unfold inside in Hp. cbn [t_left tbase tn] in Hp. fold a h in Hp. lia.
        -- intros Hr. destruct (inside_right t p L Hr) as (_ & _ & Hx). auto.
      * apply F3; auto.
Qed.
End Allreduce.

Theorem allreduce_goes {T} (op : T -> T -> T) (e : T) np vn (v buf : nat -> list T) :
  cmonoid op e -> 1 <= np ->
  (forall p, p < np -> length (v p) = vn /\ length (buf p) = vn) ->
  goes np (fun p => comm_allreduce op np p vn (v p) (buf p))
    (fun p => Ret (vec vn (fun i => reduction op e (fun q => nth i (v q) e) 0 np))).
Proof.
  intros M Hnp Hl. unfold comm_allreduce. destruct (Nat.eqb_spec vn 0) as [->|Hvn].
  - apply goes_ext. intros p Hp. destruct (Hl p Hp) as [L _]. destruct (v p); [reflexivity|discriminate].
  - set (x := fun q i => nth i (v q) e).
    assert (Hd : forall p, p < np -> exists l, tree_descend np p (tree_root np) = Ok l).
    { intros p Hp. apply descend_ok; [unfold inside; simpl; lia|simpl; lia]. }
    pose proof (node_root np Hnp) as N.
    destruct (a_up_phase op e M np vn x np (tree_root np) eq_refl N
                (fun p => allreduce_imp op np p vn (v p) (buf p))) as (Q1 & G1 & _ & (b & L & E1) & W1).
    { intros p Hp. unfold inside in Hp. simpl in Hp. destruct (Hd p) as (l & El); [lia|].
      destruct (Hl p) as (Lv & Lb); [lia|]. exists np, l, (buf p). split; auto. split; auto.
      unfold allreduce_imp, aup. rewrite El. cbn [plift pbind]. f_equal.
      unfold R. rewrite <- (nth_vec_eq (v p) vn e Lv) at 1.
      apply vec_ext. intros i Hi. rewrite reduction_one by auto. auto. }
    destruct (a_down_phase np vn x np (tree_root np) eq_refl N Q1 np (R op e vn x 0 np)) as (Q2 & G2 & _ & F2); auto.
    + apply vec_length.
    + cbn [tree_root tbase tn] in *. rewrite E1. unfold aup, adn. cbn [tree_root tc allreduce_up tn].
      rewrite Nat.leb_refl. auto.
    + eapply goes_trans; [exact G1|]. eapply goes_trans; [exact G2|]. apply goes_ext.
      intros p Hp. rewrite F2; [reflexivity|]. unfold inside. simpl. lia.
Qed.

Theorem comm_allreduce_correct {T} (op : T -> T -> T) (e : T) np vn (v buf : nat -> list T) :
  cmonoid op e -> 1 <= np ->
  (forall p, p < np -> length (v p) = vn /\ length (buf p) = vn) ->
  always_returns
    (map (fun p => comm_allreduce op np p vn (v p) (buf p)) (seq 0 np))
    (map (fun p => vec vn (fun i => reduction op e (fun q => nth i (v q) e) 0 np)) (seq 0 np)).
Proof. intros. apply goes_always_fun. apply allreduce_goes; auto. Qed.

Lemma reduce_accum_ok {T} (op : T -> T -> T) : forall n acc inp, length inp = n ->
  reduce_accum op acc inp n = Ok (fold_left op inp acc).
Proof.
  induction n as [|n IH]; intros acc inp H; cbn [reduce_accum]; destruct inp as [|v inp]; try discriminate; auto.
  rewrite IH; auto.
Qed.

Theorem comm_reduce_correct {T} (op : T -> T -> T) (e : T) np (inp buf : nat -> list T) :
  cmonoid op e -> 1 <= np -> (forall p, p < np -> length (buf p) = 1) ->
  always_returns
    (map (fun p => comm_reduce op e np p (inp p) (length (inp p)) (buf p)) (seq 0 np))
    (map (fun p => fold_left op (concat (map inp (seq 0 np))) e) (seq 0 np)).
Proof.
  intros M Hnp Hb. apply goes_always_fun.
  set (acc := fun p => [fold_left op (inp p) e]).
  eapply goes_trans; [|eapply goes_trans; [exact (goes_bind np (fun _ r => match r with y :: _ => Ret y | [] => Stop end)
    (fun p => comm_allreduce op np p 1 (acc p) (buf p)) _ (allreduce_goes op e np 1 acc buf M Hnp (fun p Hp => conj eq_refl (Hb p Hp))))|]].
  - apply goes_ext. intros p Hp. unfold comm_reduce. rewrite reduce_accum_ok by auto. reflexivity.
  - apply goes_ext. intros p Hp. cbn [vec seq map]. f_equal.
    unfold reduction, acc. clear -M. simpl. generalize (seq 0 np). intros l.
    assert (A : forall l b, fold_left op (concat (map inp l)) b = fold_left op (map (fun q => fold_left op (inp q) e) l) b).
    { induction l0 as [|q l0 IH]; intros b; simpl; auto. rewrite fold_left_app, IH, (fold_left_op op e M (inp q) b). auto. }
    apply A.
Qed.
