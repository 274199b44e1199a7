(** Execution of the all-reduce method. *)
From Verif Require Import Base BaseLemmas Net NetProof Sort SortSpec Sarray Transfer OpsSpec Comm CommSpec CommProof CrystalProof TransferProof2
  Kernels KernelSpec KernelProof ListLemmas
  GsTop GsSortProof GsTopProof1 GsTopProof3 GsTopProof4 GsExec GsCr GsKernProof GsPwProof1 GsPwProof2 GsPwProof3.

Lemma fold_if {T} (op : T -> T -> T) e (M : cmonoid op e) (c : nat -> bool) h l : forall a,
  fold_left op (map (fun q => if c q then h q else e) l) a = fold_left op (map h (filter c l)) a.
Proof.
  induction l as [|q l IH]; intros a; cbn [map filter fold_left]; auto. rewrite IH. destruct (c q); auto.
  rewrite (cmon_comm op e M a e), (cmon_id op e M). auto.
Qed.

Section Run.
Context {T : Type}.
Variable op : T -> T -> T.
Variable e : T.
Hypothesis M : cmonoid op e.
Variable usize lsize np : nat.
Hypothesis np1 : 1 <= np.
Variable H FL : nat -> nat -> bool.
Variable ex : nat -> nat -> nat -> bool.
Variable PI : nat -> nat -> nat.
Variable n : nat -> nat.
Hypothesis ok : plan_ok usize lsize np H FL ex PI n.
(** The shared labels, their numbers, and those of process p. *)
Variable L : list nat.
Variable ord : nat -> nat.
Variable ls : nat -> list nat.
Hypothesis L_ord : forall i x, nth_error L i = Some x -> ord x = i.
Hypothesis ls_in : forall p x, p < np -> (In x (ls p) <-> x <> 0 /\ exists q, q < np /\ ex x p q = true).
Hypothesis ls_L : forall p x, p < np -> In x (ls p) -> In x L.
Hypothesis ls_nodup : forall p, p < np -> NoDup (ls p).
Notation UMAX := (UINT_MAX usize).
Hypothesis L_len : length L <= UMAX.
Definition pr_rows (p : nat) : list primary_shared_id := map (fun x => PR x (ord x) (PI p x) (FL x p)) (ls p).
Variable mode : gs_mode.
Variable vn : nat.
Variable t : bool.
Variable f : nat -> nat -> nat -> T.
Variable u : nat -> udata T.
Hypothesis u_ok : forall p, p < np -> data_ok mode vn (u p) (n p) (f p).
Variable buf : nat -> list T.
Hypothesis buf_len : forall p, p < np -> length (buf p) = vn * (length L * 2).
Hypothesis neut : neutral e np vn H FL PI t f.

Definition sel (skip : bool) (p : nat) : list nat := filter (fun x => negb (skip && FL x p)) (ls p).
Lemma map_setup_eq p skip to :
  allreduce_map_setup usize (pr_rows p) skip to =
  encode UMAX (map (fun x => if to : bool then (PI p x, [ord x]) else (ord x, [PI p x])) (sel skip p)).
Proof.
  unfold allreduce_map_setup, encode, pr_rows, sel. f_equal. rewrite filter_map, !flat_map_map.
  apply flat_map_ext. intros x. destruct to; auto.
Qed.
Lemma in_sel skip p x : p < np -> In x (sel skip p) -> x <> 0 /\ H x p = true /\ In x (ls p) /\ skip && FL x p = false.
Proof.
  intros Hp Hin. apply filter_In in Hin as [Hin Hs]. pose proof Hin as Hin'. apply ls_in in Hin as (Hx & q & Hq & He); auto.
  apply (pk_ex1 _ _ _ _ _ _ _ _ ok) in He; auto. apply negb_true_iff in Hs. tauto.
Qed.
Lemma ord_lt p x : p < np -> In x (ls p) -> nth_error L (ord x) = Some x /\ ord x < length L.
Proof.
  intros Hp Hin. apply ls_L in Hin; auto. apply In_nth_error in Hin as [i Hi]. pose proof (L_ord i x Hi) as E. rewrite E. split; auto.
  apply nth_error_Some. rewrite Hi. discriminate.
Qed.
Lemma ord_inj p q x y : p < np -> q < np -> In x (ls p) -> In y (ls q) -> ord x = ord y -> x = y.
Proof. intros Hp Hq Hx Hy E. destruct (ord_lt p x Hp Hx), (ord_lt q y Hq Hy). congruence. Qed.
Lemma sel_nodup skip p : p < np -> NoDup (sel skip p).
Proof. intros Hp. apply NoDup_filter. auto. Qed.

Lemma pairs_to p l : pairs (map (fun x => (PI p x, [ord x])) l) = map (fun x => (PI p x, ord x)) l.
Proof. induction l as [|x l IH]; unfold pairs in *; cbn; congruence. Qed.
Lemma pairs_from p l : pairs (map (fun x => (ord x, [PI p x])) l) = map (fun x => (ord x, PI p x)) l.
Proof. induction l as [|x l IH]; unfold pairs in *; cbn; congruence. Qed.

Lemma filter_one {A} (g : A -> nat) l x : NoDup l -> In x l -> (forall y, In y l -> g y = g x -> y = x) ->
  filter (fun y => g y =? g x) l = [x].
Proof.
  intros ND Hin I. apply Permutation_length_1_inv. apply NoDup_Permutation; [repeat constructor; auto|apply NoDup_filter; auto|].
  intros y. rewrite filter_In, Nat.eqb_eq. cbn [In]. split; [intros [<-|[]]; auto|intros [Hy E]; left; symmetry; auto].
Qed.
Lemma filter_none {A} (c : A -> bool) l : (forall y, In y l -> c y = false) -> filter c l = [].
Proof. intros I. rewrite (filter_ext_in c (fun _ => false)) by auto. apply filter_false. Qed.

(** The contribution of process p to slot j. *)
Definition contrib (p j k : nat) : T :=
  match nth_error L j with
  | Some x => if existsb (Nat.eqb x) (sel (negb t) p) then f p (PI p x) k else e
  | None => e
  end.
Lemma existsb_in x l : existsb (Nat.eqb x) l = true <-> In x l.
Proof.
  rewrite existsb_exists. split; [intros (y & Hy & E); apply Nat.eqb_eq in E as ->; auto|]. intros Hx. exists x. rewrite Nat.eqb_refl. auto.
Qed.

Lemma ar_to_ok p : p < np ->
  exists b, (b <- init_array e (firstn (vn * length L) (buf p)) (vn * length L) ;;
    scatter_to_buf UMAX mode vn (allreduce_map_setup usize (pr_rows p) (negb t) true) (u p) b) = Ok b /\
    holds_vec b (length L) vn (contrib p).
Proof.
  intros Hp. rewrite init_array_vec by (rewrite firstn_length, buf_len by auto; lia). cbn [bind].
  rewrite map_setup_eq. set (gs := map _ (sel (negb t) p)).
  assert (V : valid_map UMAX (n p) (length L) gs).
  { split; [apply (pk_n _ _ _ _ _ _ _ _ ok); auto|]. split; auto. intros i js Hin. apply in_map_iff in Hin as (x & E & Hx). injection E as <- <-.
    apply in_sel in Hx as (Hx & Hh & Hin & _); auto. split; [discriminate|]. split; [apply (pk_pi _ _ _ _ _ _ _ _ ok); auto|].
    intros j [<-|[]]. apply (ord_lt p x Hp Hin). }
  assert (B : holds_vec (vec (vn * length L) (fun _ => e)) (length L) vn (fun _ _ => e)).
  { split; [rewrite vec_length; lia|]. intros i k Hi Hk. unfold vec. rewrite nth_error_map, seq_nth_error by nia. auto. }
  destruct (scatter_to_buf_ok UMAX mode vn gs (n p) (length L) (u p) (f p) _ _ V (u_ok p Hp) B) as (b & -> & HB).
  exists b. split; auto. eapply holds_vec_ext; [exact HB|]. intros j k Hj Hk. cbn. unfold scattered, contrib, gs.
  rewrite pairs_to, filter_map. cbn [snd]. rewrite !map_map. cbn [fst].
  destruct (nth_error L j) as [x|] eqn:Ej; [|apply nth_error_None in Ej; lia].
  assert (Eo : ord x = j) by auto.
  destruct (existsb (Nat.eqb x) (sel (negb t) p)) eqn:Ex.
  - apply existsb_in in Ex. rewrite <- Eo. rewrite (filter_one ord (sel (negb t) p) x); auto.
    + apply sel_nodup; auto.
    + intros y Hy E. apply in_sel in Hy as (_ & _ & Hy & _); auto. apply in_sel in Ex as (_ & _ & Ex & _); auto. eapply (ord_inj p p); eauto.
  - rewrite filter_none; auto. intros y Hy. apply Nat.eqb_neq. intros E.
    assert (y = x). { apply in_sel in Hy as (_ & _ & Hy' & _); auto. pose proof (ord_lt p y Hp Hy') as [E' _]. rewrite E in E'. congruence. }
    subst y. apply existsb_in in Hy. congruence.
Qed.

Lemma combined_shared p x k : p < np -> In x (ls p) -> t && FL x p = false ->
  fold_left op (map (fun q => contrib q (ord x) k) (seq 0 np)) e = combined op e np H FL PI t f x k.
Proof.
  intros Hp Hin Hf. pose proof (ord_lt p x Hp Hin) as [E _]. unfold contrib. rewrite E.
  rewrite (fold_if op e M (fun q => existsb (Nat.eqb x) (sel (negb t) q))). unfold combined. do 2 f_equal. apply filter_ext_in. intros q Hq.
  assert (Hq' : q < np) by (apply in_seq in Hq; lia). apply eq_true_iff_eq. rewrite existsb_in, andb_true_iff.
  split.
  - intros Hs. apply in_sel in Hs as (_ & Hh & _ & Hs); auto. split; auto. destruct t; auto. cbn in *. rewrite Hs. auto.
  - intros [Hh Hs]. apply filter_In. split.
    + destruct (Nat.eq_dec p q) as [<-|Npq]; auto. apply ls_in in Hin as (Hx & r & Hr & He); auto.
      apply (pk_ex1 _ _ _ _ _ _ _ _ ok) in He as (Hhp & _ & _); auto.
      apply ls_in; auto. split; auto. exists p. split; auto. apply (pk_ex2 _ _ _ _ _ _ _ _ ok); auto.
      destruct t; [right; auto|left; cbn in Hs; apply negb_true_iff; auto].
    + destruct t; cbn; auto. 
Qed.
Lemma combined_alone p x k : p < np -> x <> 0 -> H x p = true -> ~ In x (ls p) -> t && FL x p = false -> k < vn ->
  combined op e np H FL PI t f x k = f p (PI p x) k.
Proof.
  intros Hp Hx Hh Hin Hf Hk.
  assert (A : forall q, q < np -> q <> p -> H x q = true -> FL x p = true /\ FL x q = true).
  { intros q Hq Nq Hhq. destruct (FL x p) eqn:F1, (FL x q) eqn:F2; auto; exfalso; apply Hin, ls_in; auto; split; auto; exists q; split; auto;
      apply (pk_ex2 _ _ _ _ _ _ _ _ ok); auto. }
  unfold combined. destruct (FL x p) eqn:F.
  - assert (Et : t = false) by (destruct t; auto; discriminate). rewrite (neut Et p x k) by auto. rewrite filter_none; auto.
    intros q Hq. apply in_seq in Hq. rewrite Et. cbn. destruct (H x q) eqn:Hhq; auto. destruct (Nat.eq_dec q p) as [->|Nq]; [rewrite F; auto|].
    destruct (A q ltac:(lia) Nq Hhq) as [_ ->]. auto.
  - rewrite (fold_extract op e M _ _ p); [|apply seq_NoDup|apply in_seq; lia|rewrite Hh, F; destruct t; auto].
    rewrite filter_none; auto. intros q Hq. apply in_seq in Hq. destruct (Nat.eqb_spec p q) as [->|Nq]; cbn; [apply andb_false_r|].
    destruct (H x q) eqn:Hhq; auto. destruct (A q ltac:(lia) ltac:(auto) Hhq). congruence.
Qed.

Theorem allreduce_exec_goes : exists u' g,
  (forall p, p < np -> data_ok mode vn (u' p) (n p) (g p) /\ exchanged op e np vn H FL PI n t f p (g p)) /\
  goes np (fun p => allreduce_exec op e UMAX mode vn t (allreduce_setup usize (pr_rows p) (length L)) np p (u p) (buf p)) (fun p => Ret (u' p)).
Proof.
  destruct (finite_choice (fun p b => (b <- init_array e (firstn (vn * length L) (buf p)) (vn * length L) ;;
    scatter_to_buf UMAX mode vn (allreduce_map_setup usize (pr_rows p) (negb t) true) (u p) b) = Ok b /\
    holds_vec b (length L) vn (contrib p)) [] np ar_to_ok) as [b Hb].
  set (R := fun j k => fold_left op (map (fun q => contrib q j k) (seq 0 np)) e).
  set (rb := vec (vn * length L) (fun i => reduction op e (fun q => nth i (b q) e) 0 np)).
  assert (HR : holds_vec rb (length L) vn R).
  { split; [unfold rb; rewrite vec_length; lia|]. intros j k Hj Hk. unfold rb, vec. rewrite nth_error_map, seq_nth_error by nia. cbn. f_equal.
    unfold reduction, R. f_equal. apply map_ext_in. intros q Hq. apply in_seq in Hq. destruct (Hb q ltac:(lia)) as [_ [_ HB]].
    apply nth_error_nth. apply HB; auto. }
  set (gs := fun p => map (fun x => (ord x, [PI p x])) (sel t p)).
  assert (HF : forall p, p < np -> exists u', scatter_from_buf UMAX mode vn (encode UMAX (gs p)) (u p) rb = Ok u' /\
     data_ok mode vn u' (n p) (fun i k => scattered (gs p) (fun j => R j k) i (f p i k))).
  { intros p Hp. apply (scatter_from_buf_ok UMAX mode vn (gs p) (n p) (length L)); auto. split; auto. split; [apply (pk_n _ _ _ _ _ _ _ _ ok); auto|].
    intros i js Hin. apply in_map_iff in Hin as (x & E & Hx). injection E as <- <-.
    apply in_sel in Hx as (Hx & Hh & Hin & _); auto. split; [discriminate|]. split; [apply (ord_lt p x Hp Hin)|].
    intros j [<-|[]]. apply (pk_pi _ _ _ _ _ _ _ _ ok); auto. }
  destruct (finite_choice _ (UFlat []) np HF) as [u' Hu'].
  exists u', (fun p i k => scattered (gs p) (fun j => R j k) i (f p i k)). split.
  - intros p Hp. destruct (Hu' p Hp) as [_ D]. split; auto.
    assert (PF : forall x, filter (fun q => snd q =? x) (pairs (gs p)) = map (fun y => (ord y, PI p y)) (filter (fun y => PI p y =? x) (sel t p))).
    { intros x. unfold gs. rewrite pairs_from, filter_map. reflexivity. }
    constructor.
    + intros x k Hx Hh Hf Hk. cbn beta. unfold scattered. rewrite PF, map_map. cbn [fst].
      destruct (in_dec Nat.eq_dec x (ls p)) as [Hin|Hin].
      * rewrite (filter_one (PI p) (sel t p) x).
        -- cbn [map fold_left]. apply (combined_shared p); auto.
        -- apply sel_nodup; auto.
        -- apply filter_In. rewrite Hf. auto.
        -- intros y Hy E. apply in_sel in Hy as (Hy & Hhy & _); auto. exact (pk_inj _ _ _ _ _ _ _ _ ok y x p Hp Hy Hx Hhy Hh E).
      * rewrite filter_none.
        -- cbn. symmetry. apply combined_alone; auto.
        -- intros y Hy. apply Nat.eqb_neq. intros E. apply in_sel in Hy as (Hy & Hhy & Hi & _); auto.
           apply Hin. replace x with y; auto. exact (pk_inj _ _ _ _ _ _ _ _ ok y x p Hp Hy Hx Hhy Hh E).
    + intros i k Hi Hk HN. cbn beta. unfold scattered. rewrite PF, filter_none; auto. intros y Hy. apply Nat.eqb_neq. intros E.
      apply in_sel in Hy as (Hy & Hhy & _ & Hs); auto. apply (HN y Hy Hhy); auto.
  - assert (EG : vn * (length L * 2 / 2) = vn * length L) by (rewrite Nat.div_mul; auto).
    eapply goes_trans; [apply (goes_ext np _ (fun p => pbind (comm_allreduce op np p (vn * length L) (b p) (firstn (vn * length L) (skipn (vn * length L) (buf p))))
       (fun b => plift (scatter_from_buf UMAX mode vn (encode UMAX (gs p)) (u p) b))))|].
    + intros p Hp. unfold allreduce_exec, allreduce_setup. cbn [ar_buffer_size ar_to0 ar_to1 ar_from0 ar_from1]. rewrite EG.
      replace (if t then allreduce_map_setup usize (pr_rows p) false true else allreduce_map_setup usize (pr_rows p) true true)
        with (allreduce_map_setup usize (pr_rows p) (negb t) true) by (destruct t; auto).
      replace (if t then allreduce_map_setup usize (pr_rows p) true false else allreduce_map_setup usize (pr_rows p) false false)
        with (encode UMAX (gs p)) by (unfold gs; destruct t; rewrite map_setup_eq; auto).
      destruct (Hb p Hp) as [-> _]. reflexivity.
    + eapply goes_trans; [apply (goes_bind np (fun p b => plift (scatter_from_buf UMAX mode vn (encode UMAX (gs p)) (u p) b)) _ (fun _ => rb))|].
      * apply (allreduce_goes op e np (vn * length L)); auto. intros p Hp. destruct (Hb p Hp) as [_ [LB _]].
        rewrite firstn_length, skipn_length, buf_len by auto. lia.
      * apply goes_ext. intros p Hp. destruct (Hu' p Hp) as [-> _]. auto.
Qed.
End Run.
