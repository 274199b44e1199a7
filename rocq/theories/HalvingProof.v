(** Proofs for C61: comm_allreduce with any operation. *)
From Verif Require Import Base BaseLemmas Net NetProof Kernels Comm CommSpec OpsSpec CommProof BracketSpec HalvingSpec.

Lemma halving_fuel : forall f g a n, n <= f -> n <= g -> halving f a n = halving g a n.
Proof.
  induction f as [|f IH]; intros g a n Hf Hg.
  - destruct g; auto. cbn. destruct (Nat.leb_spec n 1); auto; lia.
  - destruct g as [|g]; cbn [halving]; destruct (Nat.leb_spec n 1) as [L|L]; auto; [lia|].
    assert (n / 2 < n) by (apply Nat.div_lt; lia). assert (0 < n / 2) by (apply Nat.div_str_pos; lia).
    rewrite (IH g a), (IH g (a + n / 2)); auto; lia.
Qed.
Lemma halving_step n a : 1 < n -> halving n a n = Combine (halving (n / 2) a (n / 2)) (halving (n - n / 2) (a + n / 2) (n - n / 2)).
Proof.
  intros L. destruct n as [|n]; [lia|]. set (m := S n) in *. assert (m / 2 < m) by (apply Nat.div_lt; lia). assert (0 < m / 2) by (apply Nat.div_str_pos; lia).
  change (halving (S n) a m = Combine (halving (m / 2) a (m / 2)) (halving (m - m / 2) (a + m / 2) (m - m / 2))). cbn [halving]. destruct (Nat.leb_spec m 1); [lia|].
  f_equal; apply halving_fuel; unfold m in *; lia.
Qed.

Section HR.
Context {T : Type}.
Variable op : T -> T -> T.
Variable e : T.
Variable vn : nat.
Variable x : nat -> nat -> T.
Definition HR (a n : nat) : list T := vec vn (fun i => eval op e (fun q _ _ => x q i) (halving n a n)).
Lemma HR_len a n : length (HR a n) = vn.
Proof. apply vec_length. Qed.
Lemma HR_join a n : 1 < n -> gather_array op (HR a (n / 2)) (HR (a + n / 2) (n / 2 + n mod 2)) vn = Ok (HR a n).
Proof.
  intros L. pose proof (Nat.div_mod n 2). replace (n / 2 + n mod 2) with (n - n / 2) by lia.
  unfold HR. rewrite gather_array_vec. f_equal. apply vec_ext. intros i Hi. rewrite (halving_step n a L). auto.
Qed.
End HR.

(** ** comm_allreduce *)
Section Allreduce0.
Context {T : Type}.
Variable op : T -> T -> T.
Variable e : T.
Variable np vn : nat.
Variable x : nat -> nat -> T.

Notation R := (HR op e vn x).
Notation prg := (prog T (list T)).
Notation aup := (aup op np vn).

Definition astarts (P : nat -> prg) (t : tree) : Prop :=
  forall p, inside t p -> exists f l b, tree_descend f p t = Ok l /\ length b = vn /\ P p = aup p l (R p 1) b.

Notation awaiting := (awaiting np vn).
Notation adn := (adn vn).
Lemma R_len a n : length (R a n) = vn.
Proof. apply HR_len. Qed.

Lemma a_up_phase : forall n t, tn t = n -> node np t -> forall P, astarts P t ->
  exists Q, goes np P Q /\ (forall p, p < np -> ~ inside t p -> Q p = P p) /\
    (exists b, length b = vn /\ Q (tbase t) = aup (tbase t) t (R (tbase t) (tn t)) b) /\
    awaiting Q t.
Proof.
  induction n as [n IH] using lt_wf_ind. intros t Hn N P St.
  destruct (le_lt_dec (tn t) 1) as [L|L].
  - exists P. pose proof (node_bounds _ _ N). split; [apply goes_refl|]. split; auto.
    split; [|constructor; auto].
    destruct (St (tbase t)) as (f & l & b & El & L0 & E); [apply inside_base; lia|].
    rewrite descend_leaf in El by auto. injection El as <-. exists b.
    replace (tn t) with 1 by lia. auto.
  - pose proof (halves _ L) as Hh. pose proof (half_sum (tn t)) as Hs.
    pose proof (node_bounds _ _ N) as Nb. pose proof (node_child_lt _ _ N L) as [Ll Lr].
    destruct (IH (tn (t_left t)) ltac:(cbn [t_left t_right tn]; lia) (t_left t) eq_refl (node_left _ _ N L) P)
      as (Q1 & G1 & O1 & (b0 & L0 & E1) & W1).
    { intros p Hp. destruct (inside_left t p L Hp) as [Hd Hi]. destruct (St p Hi) as (f & l & c0 & El & C0 & E).
      rewrite descend_step in El by lia. destruct f as [|f]; [discriminate|]. rewrite Hd in El.
      exists f, l, c0. auto. }
    destruct (IH (tn (t_right t)) ltac:(cbn [t_left t_right tn]; lia) (t_right t) eq_refl (node_right _ _ N L) Q1)
      as (Q2 & G2 & O2 & (d0 & D0 & E2) & W2).
    { intros p Hp. destruct (inside_right t p L Hp) as (Hd & Hi & Hni). destruct (St p Hi) as (f & l & c0 & El & C0 & E).
      rewrite descend_step in El by lia. destruct f as [|f]; [discriminate|]. rewrite Hd in El.
      exists f, l, c0. rewrite O1; auto. unfold inside in Hi. lia. }
    set (a := tbase t) in *. set (h := tn t / 2) in *. set (b := a + h).
    assert (E1' : Q2 a = aup a (t_left t) (R a h) b0).
    { rewrite O2; [exact E1|lia|]. unfold inside. cbn [t_right tbase tn]. fold a h. lia. }
    assert (E2' : Q2 b = aup b (t_right t) (R b (h + tn t mod 2)) d0) by exact E2.
    rewrite (aup_step op np vn x a (t_left t) false (tc t)) in E1' by auto.
    rewrite (aup_step op np vn x b (t_right t) true (tc t)) in E2' by auto.
    cbv zeta in E1', E2'. rewrite up_left in E1'. rewrite up_right in E2'.
    fold a in E1', E2'. rewrite Nat.eqb_refl in E1'.
    destruct (Nat.eqb_spec a b) as [X|_]; [unfold b in X; lia|].
    fold h b in E1'. rewrite firstn_all2 in E2' by (rewrite R_len; auto).
    set (Q3 := fun p => if p =? a then aup a t (R a (tn t)) (R b (h + tn t mod 2))
                       else if p =? b then adn np b t (R b (h + tn t mod 2))
                       else Q2 p).
    exists Q3. assert (Hab : a <> b) by (unfold b; lia).
    assert (Q3a : Q3 a = aup a t (R a (tn t)) (R b (h + tn t mod 2))) by (unfold Q3; rewrite Nat.eqb_refl; auto).
    assert (Q3b : Q3 b = adn np b t (R b (h + tn t mod 2))).
    { unfold Q3. destruct (Nat.eqb_spec b a); [congruence|]. rewrite Nat.eqb_refl. auto. }
    assert (Q3o : forall p, p <> a -> p <> b -> Q3 p = Q2 p).
    { intros p Ha Hb. unfold Q3. destruct (Nat.eqb_spec p a); [congruence|]. destruct (Nat.eqb_spec p b); [congruence|]. auto. }
    split; [|split; [|split]].
    + eapply goes_trans; [exact G1|]. eapply goes_trans; [exact G2|].
      eapply (goes_send np b a Q2 Q3 b); [auto|unfold b; lia|lia| |exact E2'|exact E1'| | |].
      * rewrite R_len. auto.
      * exact Q3b.
      * rewrite Q3a. rewrite over_full by (rewrite R_len; auto).
        unfold b at 2, h. rewrite HR_join by auto. cbn [plift pbind]. auto.
      * intros p _ Ha Hb. apply Q3o; auto.
    + intros p Hp Hi. rewrite Q3o.
      * rewrite inside_cases in Hi by auto. rewrite O2, O1 by tauto. auto.
      * intros ->. apply Hi. apply inside_base. lia.
      * intros ->. apply Hi. unfold inside. fold a. unfold b. lia.
    + exists (R b (h + tn t mod 2)). rewrite R_len. auto.
    + apply (aw_node np vn Q3 t (R b (h + tn t mod 2))); auto using R_len.
      * apply (awaiting_ext np vn x Q1); auto. intros p Hp Hb. unfold inside in Hp. cbn [t_left tbase tn] in Hp, Hb.
        fold a h in Hp, Hb. rewrite Q3o by (unfold b; lia). apply O2; [lia|].
        unfold inside. cbn [t_right tbase tn]. fold a h. lia.
      * apply (awaiting_ext np vn x Q2); auto. intros p Hp Hb. unfold inside in Hp. cbn [t_right tbase tn] in Hp, Hb.
        fold a h in Hp, Hb. apply Q3o; unfold b; lia.
Qed.

End Allreduce0.

Theorem allreduce_goes_any {T} (op : T -> T -> T) (e : T) np vn (v buf : nat -> list T) :
  1 <= np ->
  (forall p, p < np -> length (v p) = vn /\ length (buf p) = vn) ->
  goes np (fun p => comm_allreduce op np p vn (v p) (buf p))
    (fun p => Ret (vec vn (fun i => eval op e (fun q _ _ => nth i (v q) e) (halving np 0 np)))).
Proof.
  intros Hnp Hl. unfold comm_allreduce. destruct (Nat.eqb_spec vn 0) as [->|Hvn].
  - apply goes_ext. intros p Hp. destruct (Hl p Hp) as [L _]. destruct (v p); [reflexivity|discriminate].
  - set (x := fun q i => nth i (v q) e).
    assert (Hd : forall p, p < np -> exists l, tree_descend np p (tree_root np) = Ok l).
    { intros p Hp. apply descend_ok; [unfold inside; simpl; lia|simpl; lia]. }
    pose proof (node_root np Hnp) as N.
    destruct (a_up_phase op e np vn x np (tree_root np) eq_refl N
                (fun p => allreduce_imp op np p vn (v p) (buf p))) as (Q1 & G1 & _ & (b & L & E1) & W1).
    { intros p Hp. unfold inside in Hp. simpl in Hp. destruct (Hd p) as (l & El); [lia|].
      destruct (Hl p) as (Lv & Lb); [lia|]. exists np, l, (buf p). split; auto. split; auto.
      unfold allreduce_imp, aup. rewrite El. cbn [plift pbind]. f_equal.
      rewrite <- (nth_vec_eq (v p) vn e Lv) at 1. unfold HR. apply vec_ext. intros i Hi. auto. }
    destruct (a_down_phase np vn x np (tree_root np) eq_refl N Q1 np (HR op e vn x 0 np)) as (Q2 & G2 & _ & F2); auto.
    + apply HR_len.
    + cbn [tree_root tbase tn] in *. rewrite E1. unfold aup, adn. cbn [tree_root tc allreduce_up tn].
      rewrite Nat.leb_refl. auto.
    + eapply goes_trans; [exact G1|]. eapply goes_trans; [exact G2|]. apply goes_ext.
      intros p Hp. rewrite F2; [reflexivity|]. unfold inside. simpl. lia.
Qed.

