(** Execution of the pairwise method. *)
From Verif Require Import Base BaseLemmas Net NetProof Sort SortSpec Sarray Transfer OpsSpec CommSpec CommProof CrystalProof TransferProof2 Kernels KernelSpec KernelProof ListLemmas
  GsTop GsSortProof GsTopProof1 GsTopProof3 GsTopProof4 GsExec GsCr GsKernProof GsPwProof1 GsPwProof2.
From Coq Require Import Sorting.Sorted.

(** ** Vectors in buffers *)
Lemma seq_nth_error n i : i < n -> nth_error (seq 0 n) i = Some i.
Proof. intros Hi. rewrite (nth_error_nth' _ 0) by (rewrite seq_length; auto). rewrite seq_nth; auto. Qed.
Section Vec.
Context {T : Type}.
Variable vn : nat.
Notation vec := (vec vn).
Lemma vec_len (g : nat -> T) : length (vec g) = vn.
Proof. unfold CommSpec.vec. rewrite map_length, seq_length. auto. Qed.
Lemma vecs_length {X} (h : X -> nat -> T) l : length (flat_map (fun x => vec (h x)) l) = length l * vn.
Proof. induction l as [|x l IH]; cbn [flat_map length]; auto. rewrite app_length, vec_len, IH. lia. Qed.
Lemma vecs_holds {X} (h : X -> nat -> T) (b : nat -> nat -> T) l : (forall i x k, nth_error l i = Some x -> b i k = h x k) ->
  holds_vec (flat_map (fun x => vec (h x)) l) (length l) vn b.
Proof.
  intros E. split; [apply vecs_length|]. revert b E. induction l as [|x l IH]; intros b E i k Hi Hk; cbn [length] in Hi; [lia|].
  cbn [flat_map]. destruct i as [|i].
  - rewrite nth_error_app1 by (rewrite vec_len; lia). unfold CommSpec.vec. cbn [Nat.mul Nat.add].
    rewrite nth_error_map, seq_nth_error by lia. cbn. rewrite (E 0 x); auto.
  - rewrite nth_error_app2 by (rewrite vec_len; lia). rewrite vec_len. replace (S i * vn + k - vn) with (i * vn + k) by lia.
    rewrite (IH (fun i => b (S i))); auto; lia.
Qed.
Lemma holds_vec_eq (l l' : list T) n b : holds_vec l n vn b -> holds_vec l' n vn b -> l = l'.
Proof.
  intros [L H] [L' H']. apply nth_error_ext. intros i. destruct (Nat.lt_ge_cases i (n * vn)) as [Hi|Hi].
  - assert (V : vn <> 0) by lia. assert (i / vn < n) by (apply Nat.div_lt_upper_bound; lia).
    assert (Em : i mod vn < vn) by (apply Nat.mod_upper_bound; auto).
    specialize (H (i / vn) (i mod vn) H0 Em). specialize (H' (i / vn) (i mod vn) H0 Em).
    replace (i / vn * vn + i mod vn) with i in * by (rewrite (Nat.div_mod i vn) at 1 by auto; lia). congruence.
  - rewrite !(proj2 (nth_error_None _ _)); auto; lia.
Qed.
Lemma holds_vec_list {X} (h : X -> nat -> T) (xs : list X) l b : holds_vec l (length xs) vn b ->
  (forall i x k, nth_error xs i = Some x -> k < vn -> b i k = h x k) -> l = flat_map (fun x => vec (h x)) xs.
Proof.
  intros H E. eapply holds_vec_eq; [exact H|]. eapply holds_vec_ext; [apply (vecs_holds h (fun i k => match nth_error xs i with Some x => h x k | None => b i k end))|].
  - intros i x k ->. auto.
  - intros i k Hi Hk. cbn. destruct (nth_error xs i) eqn:Ex; auto. symmetry. eauto.
Qed.
Lemma holds_vec_any (e : T) l n : length l = n * vn -> holds_vec l n vn (fun i k => nth (i * vn + k) l e).
Proof.
  intros L. split; auto. intros i k Hi Hk. apply nth_error_nth'. nia.
Qed.
Lemma holds_vec_app (e : T) l l' n m b : holds_vec l n vn b -> length l' = m * vn ->
  holds_vec (l ++ l') (n + m) vn (fun i k => if i <? n then b i k else nth ((i - n) * vn + k) l' e).
Proof.
  intros [L H] L'. split; [rewrite app_length; lia|]. intros i k Hi Hk. destruct (Nat.ltb_spec i n) as [Hn|Hn].
  - rewrite nth_error_app1 by nia. auto.
  - rewrite nth_error_app2 by nia. replace (i * vn + k - length l) with ((i - n) * vn + k) by nia.
    apply nth_error_nth'. nia.
Qed.
End Vec.

(** ** Messages *)
Section Msgs.
Context {T : Type}.
Variable vn : nat.
Variable cnt : nat -> nat.
Variable piece : nat -> list T.
Hypothesis piece_len : forall q, length (piece q) = cnt q * vn.
Notation busy := (filter (fun q => negb (cnt q =? 0))).

Lemma flat_map_busy qs : flat_map piece (busy qs) = flat_map piece qs.
Proof.
  induction qs as [|q qs IH]; cbn [filter flat_map]; auto. destruct (Nat.eqb_spec (cnt q) 0) as [E|E]; cbn [negb flat_map]; rewrite IH; auto.
  assert (piece q = []) as -> by (apply length_zero_iff_nil; rewrite piece_len, E; auto). auto.
Qed.
Lemma sends_pieces me qs tail : pw_exec_sends vn me (map (fun q => (q, cnt q)) qs) (flat_map piece qs ++ tail) =
  map (fun q => (q, me, piece q)) qs.
Proof.
  induction qs as [|q qs IH]; cbn [map pw_exec_sends flat_map]; auto. rewrite <- app_assoc.
  rewrite <- piece_len, firstn_app, firstn_all, Nat.sub_diag, skipn_app, skipn_all, Nat.sub_diag. cbn [firstn skipn].
  rewrite app_nil_r. cbn [app]. rewrite IH. auto.
Qed.
Lemma received_pieces qs : forall buf, length (flat_map piece qs) <= length buf ->
  pw_received vn (map (fun q => (q, cnt q)) qs) (map piece qs) buf = flat_map piece qs ++ skipn (length (flat_map piece qs)) buf.
Proof.
  induction qs as [|q qs IH]; intros buf L; cbn [map pw_received flat_map length skipn app] in *; auto. rewrite app_length in *.
  rewrite <- piece_len, Nat.sub_diag. cbn [firstn app]. rewrite IH by (rewrite skipn_length; lia). rewrite <- app_assoc. do 2 f_equal.
  rewrite skipn_add. auto.
Qed.
End Msgs.

(** ** What an exchange does to the data *)
Lemma NoDup_map_inj {A B} (f : A -> B) l : (forall a b, f a = f b -> a = b) -> NoDup l -> NoDup (map f l).
Proof.
  intros I. induction 1 as [|a l N ND IH]; cbn; constructor; auto. rewrite in_map_iff. intros (b & E & Hb). apply I in E as ->. auto.
Qed.
Lemma filter_false {A} (l : list A) : filter (fun _ => false) l = [].
Proof. induction l; auto. Qed.
Section Contract.
Context {T : Type}.
Variable op : T -> T -> T.
Variable e : T.
Variable np vn : nat.
Variable H FL : nat -> nat -> bool.
Variable PI : nat -> nat -> nat.
Variable n : nat -> nat.
Variable t : bool.
(** f p i k: component k of entry i on process p before the exchange. *)
Variable f : nat -> nat -> nat -> T.

Definition combined (x k : nat) : T :=
  fold_left op (map (fun q => f q (PI q x) k) (filter (fun q => H x q && (t || negb (FL x q))) (seq 0 np))) e.
Record exchanged (p : nat) (g : nat -> nat -> T) : Prop := {
  er_at : forall x k, x <> 0 -> H x p = true -> t && FL x p = false -> k < vn -> g (PI p x) k = combined x k;
  er_else : forall i k, i < n p -> k < vn ->
    (forall x, x <> 0 -> H x p = true -> t && FL x p = false -> i <> PI p x) -> g i k = f p i k }.
(** Before an exchange with t = false the flagged representatives hold the identity. *)
Definition neutral : Prop :=
  t = false -> forall p x k, p < np -> x <> 0 -> H x p = true -> FL x p = true -> k < vn -> f p (PI p x) k = e.
End Contract.

Lemma fold_extract {T} (op : T -> T -> T) e (M : cmonoid op e) (h : nat -> T) (c : nat -> bool) p l :
  NoDup l -> In p l -> c p = true ->
  fold_left op (map h (filter c l)) e = fold_left op (map h (filter (fun q => c q && negb (p =? q)) l)) (h p).
Proof.
  intros ND Hin Hc.
  assert (P : Permutation (filter c l) (p :: filter (fun q => c q && negb (p =? q)) l)).
  { apply NoDup_Permutation.
    - apply NoDup_filter; auto.
    - constructor; [|apply NoDup_filter; auto]. rewrite filter_In, Nat.eqb_refl. cbn. rewrite andb_false_r. intros [_ E]; discriminate.
    - intros q. cbn [In]. rewrite !filter_In, andb_true_iff, negb_true_iff, Nat.eqb_neq. destruct (Nat.eq_dec p q) as [<-|]; tauto. }
  rewrite (fold_left_perm op (cmon_comm op e M) (cmon_assoc op e M) _ _ (Permutation_map h P)). cbn [map fold_left].
  rewrite (cmon_id op e M). auto.
Qed.

Section Run.
Context {T : Type}.
Variable op : T -> T -> T.
Variable e : T.
Hypothesis M : cmonoid op e.
Variable usize lsize np : nat.
Variable H FL : nat -> nat -> bool.
Variable ex : nat -> nat -> nat -> bool.
Variable PI : nat -> nat -> nat.
Variable n : nat -> nat.
Hypothesis ok : plan_ok usize lsize np H FL ex PI n.
Variable mode : gs_mode.
Variable vn : nat.
Variable t : bool.
Variable d : nat -> pw_data.
Hypothesis d_ok : forall p, p < np -> side_ok usize lsize np FL ex PI true p (pw_comm0 (d p)) (pw_map0 (d p)) /\
  side_ok usize lsize np FL ex PI false p (pw_comm1 (d p)) (pw_map1 (d p)).
Variable f : nat -> nat -> nat -> T.
Variable u : nat -> udata T.
Hypothesis u_ok : forall p, p < np -> data_ok mode vn (u p) (n p) (f p).
Variable buf : nat -> list T.
Hypothesis buf_len : forall p, p < np -> length (buf p) = vn * pw_buffer_size (d p).
Hypothesis neut : neutral e np vn H FL PI t f.
Notation UMAX := (UINT_MAX usize).
Notation ys := (ys lsize FL ex).
Notation slots := (slots lsize np FL ex).

Lemma recv_side p : p < np -> side_ok usize lsize np FL ex PI (negb t) p (pw_recv t (d p)) (pw_map_recv t (d p)).
Proof. intros Hp. destruct (d_ok p Hp). destruct t; auto. Qed.
Lemma send_side p : p < np -> side_ok usize lsize np FL ex PI t p (pw_send t (d p)) (pw_map_send t (d p)).
Proof. intros Hp. destruct (d_ok p Hp). destruct t; auto. Qed.
Lemma ys_match p q : ys t p q = ys (negb t) q p.
Proof.
  unfold ys. rewrite (xs_sym usize lsize np H FL ex PI n ok p q). apply filter_ext. intros x. unfold keeps. destruct t; auto.
Qed.

Definition out (p q : nat) : list T := flat_map (fun x => vec vn (f p (PI p x))) (ys t p q).
Definition busy (r : bool) (p : nat) : list nat := filter (fun q => negb (length (ys r p q) =? 0)) (seq 0 np).
Definition pw_sends (p : nat) : list send := map (fun q => (q, p, out p q)) (busy t p).
Definition pw_ms (p : nat) : list (list T) := map (fun q => out q p) (busy (negb t) p).

Lemma out_length p q : length (out p q) = length (ys t p q) * vn.
Proof. apply vecs_length. Qed.

Lemma flat_slots r (h : nat -> nat -> list T) p : flat_map (fun qx => h (fst qx) (snd qx)) (slots r p) =
  flat_map (fun q => flat_map (h q) (ys r p q)) (seq 0 np).
Proof.
  unfold GsPwProof2.slots. rewrite flat_map_flat_map. apply flat_map_ext. intros q. rewrite flat_map_map. auto.
Qed.

Lemma slots_pi r p q x : p < np -> In (q, x) (slots r p) -> PI p x < n p.
Proof. intros Hp Hin. apply (in_slots usize lsize np H FL ex PI n) in Hin; auto. destruct Hin as (Hq & Hx & He & _). apply (pk_ex1 _ _ _ _ _ _ _ _ ok) in He; auto. apply (pk_pi _ _ _ _ _ _ _ _ ok); tauto. Qed.

Lemma side_valid r p c m : p < np -> side_ok usize lsize np FL ex PI r p c m -> forall L, length (slots r p) <= L -> L <= UMAX ->
  exists gs, m = encode UMAX gs /\ valid_map UMAX (n p) L gs /\
    Permutation (pairs gs) (combine (map (fun qx => PI p (snd qx)) (slots r p)) (seq 0 (length (slots r p)))).
Proof.
  intros Hp (_ & _ & gs & -> & N & P) L L1 L2. exists gs. split; auto. split; auto. apply valid_from_pairs; auto.
  - intros i j Hin. apply (Permutation_in _ P) in Hin. pose proof (in_combine_l _ _ _ _ Hin) as Hl. apply in_combine_r in Hin.
    apply in_seq in Hin. apply in_map_iff in Hl as ([q x] & <- & Hl). cbn. split; [|lia]. eapply slots_pi; eauto.
  - apply (pk_n _ _ _ _ _ _ _ _ ok); auto.
Qed.

Lemma side_total r p c m : side_ok usize lsize np FL ex PI r p c m -> pc_total c = length (slots r p) /\
  pc_msgs c = map (fun q => (q, length (ys r p q))) (busy r p).
Proof. intros (A & B & _). auto. Qed.
Lemma busy_sum r p : fold_right (fun ps a => snd ps * vn + a) 0 (map (fun q => (q, length (ys r p q))) (busy r p)) = length (slots r p) * vn.
Proof.
  unfold busy, GsPwProof2.slots. induction (seq 0 np) as [|q l IH]; cbn [filter map flat_map fold_right]; auto.
  rewrite app_length, map_length. destruct (Nat.eqb_spec (length (ys r p q)) 0) as [E|E]; cbn [negb map fold_right snd]; rewrite IH; lia.
Qed.
Lemma recv_off p : p < np -> pw_length vn (pw_recv t (d p)) = length (slots (negb t) p) * vn.
Proof. intros Hp. unfold pw_length. destruct (side_total _ _ _ _ (recv_side p Hp)) as [_ ->]. apply busy_sum. Qed.
Lemma buf_len' p : p < np -> length (buf p) = (length (slots (negb t) p) + length (slots t p)) * vn.
Proof.
  intros Hp. rewrite buf_len by auto. unfold pw_buffer_size. destruct (d_ok p Hp) as [D0 D1].
  rewrite (proj1 (side_total _ _ _ _ D0)), (proj1 (side_total _ _ _ _ D1)). destruct t; cbn [negb]; lia.
Qed.

Lemma scattered_unique gs (sl : list (nat * nat)) (a : nat -> T) p j qx old :
  Permutation (pairs gs) (combine (map (fun qx => PI p (snd qx)) sl) (seq 0 (length sl))) ->
  nth_error sl j = Some qx -> scattered gs a j old = a (PI p (snd qx)).
Proof.
  intros P Hj. unfold scattered.
  assert (E : filter (fun q => snd q =? j) (pairs gs) = [(PI p (snd qx), j)]).
  { apply Permutation_length_1_inv. pose proof (comb_scatter (fun qx => PI p (snd qx)) sl 0 j qx Hj) as E. cbn [Nat.add] in E. rewrite <- E.
    apply Permutation_filter. apply Permutation_sym. auto. }
  rewrite E. auto.
Qed.

Lemma pw_send_ok p : p < np ->
  exists sb, scatter_to_buf UMAX mode vn (pw_map_send t (d p)) (u p) (skipn (pw_length vn (pw_recv t (d p))) (buf p)) = Ok sb /\
    pw_exec_sends vn p (pc_msgs (pw_send t (d p))) sb = pw_sends p.
Proof.
  intros Hp. set (L := length (slots t p)).
  assert (HL : L <= UMAX) by (pose proof (slots_le usize lsize np H FL ex PI n ok t p Hp); unfold L; lia).
  destruct (side_valid t p _ _ Hp (send_side p Hp) L (le_n _) HL) as (gs & Em & V & P). rewrite Em.
  assert (B : holds_vec (skipn (pw_length vn (pw_recv t (d p))) (buf p)) L vn
     (fun i k => nth (i * vn + k) (skipn (pw_length vn (pw_recv t (d p))) (buf p)) e)).
  { apply holds_vec_any. rewrite skipn_length, recv_off, buf_len' by auto. unfold L. lia. }
  destruct (scatter_to_buf_ok UMAX mode vn gs (n p) L (u p) (f p) _ _ V (u_ok p Hp) B) as (sb & -> & HS).
  exists sb. split; auto.
  assert (E : sb = flat_map (fun q => out p q) (seq 0 np)).
  { rewrite (holds_vec_list vn (fun qx => f p (PI p (snd qx))) (slots t p) sb _ HS).
    - exact (flat_slots t (fun q x => vec vn (f p (PI p x))) p).
    - intros i qx k Hi Hk. cbn. exact (scattered_unique gs (slots t p) (fun j => f p j k) p i qx _ P Hi). }
  rewrite E, (proj2 (side_total _ _ _ _ (send_side p Hp))).
  rewrite <- (flat_map_busy vn (fun q => length (ys t p q)) (out p)) by (intros q; apply out_length). fold (busy t p).
  rewrite <- (app_nil_r (flat_map _ _)). rewrite (sends_pieces vn (fun q => length (ys t p q)) (out p)) by (intros q; apply out_length).
  reflexivity.
Qed.

Lemma pw_matched : matched np (fun _ => true) pw_sends (fun p => pw_exec_recvs vn (pw_recv t (d p))) pw_ms.
Proof.
  assert (ER : forall p, p < np -> pw_exec_recvs vn (pw_recv t (d p)) = map (fun q => (q, q, length (ys (negb t) p q) * vn)) (busy (negb t) p)).
  { intros p Hp. unfold pw_exec_recvs. rewrite (proj2 (side_total _ _ _ _ (recv_side p Hp))), map_map. reflexivity. }
  assert (NB : forall r p, NoDup (busy r p)) by (intros; apply NoDup_filter, seq_NoDup).
  assert (IB : forall r p q, In q (busy r p) <-> q < np /\ length (ys r p q) <> 0).
  { intros r p q. unfold busy. rewrite filter_In, in_seq, negb_true_iff, Nat.eqb_neq. intuition lia. }
  constructor.
  - intros p Hp _. unfold pw_sends. rewrite map_map. cbn. apply NoDup_map_inj; auto. intros a b E. congruence.
  - intros p Hp _. rewrite (ER p Hp), map_map. cbn. apply NoDup_map_inj; auto. intros a b E. congruence.
  - intros p q tg m Hp _ Hin. apply in_map_iff in Hin as (q' & E & Hq). injection E as <- <- <-. apply IB in Hq as [Hq HY].
    split; auto. split; auto. rewrite (ER q' Hq). exists (length (ys (negb t) q' p) * vn). apply in_map_iff. exists p. split; auto.
    apply IB. rewrite <- ys_match. auto.
  - intros q Hq _. rewrite (ER q Hq). unfold pw_ms.
    assert (A : forall p, In p (busy (negb t) q) -> p < np /\ length (ys (negb t) q p) <> 0) by (intros p Hp; apply IB; auto).
    induction (busy (negb t) q) as [|p l IH]; cbn [map]; constructor; auto.
    + cbn [fst snd]. destruct (A p (or_introl eq_refl)) as [Hp HY]. split; auto. split; auto. split.
      * unfold pw_sends. apply in_map_iff. exists q. split; auto. apply IB. rewrite ys_match. auto.
      * rewrite out_length, ys_match. auto.
    + apply IH. intros p' Hp'. apply A. right; auto.
Qed.

Lemma ex_eq x p q : p < np -> q < np -> x <> 0 -> H x p = true -> FL x p = false \/ FL x q = false ->
  ex x p q = H x q && negb (p =? q).
Proof.
  intros Hp Hq Hx Hh F. destruct (ex x p q) eqn:E.
  - apply (pk_ex1 _ _ _ _ _ _ _ _ ok) in E as (_ & -> & N); auto. apply Nat.eqb_neq in N. rewrite N. auto.
  - destruct (H x q) eqn:Hh2; auto. destruct (Nat.eqb_spec p q) as [->|N]; auto.
    rewrite (pk_ex2 _ _ _ _ _ _ _ _ ok x p q Hp Hq Hx Hh Hh2 N F) in E. discriminate.
Qed.

Lemma slots_at r p x : p < np -> x <> 0 -> H x p = true ->
  filter (fun qx => PI p (snd qx) =? PI p x) (slots r p) =
  map (fun q => (q, x)) (filter (fun q => ex x p q && keeps FL r x p q) (seq 0 np)).
Proof.
  intros Hp Hx Hh. unfold GsPwProof2.slots. rewrite filter_flat_map.
  rewrite (flat_map_ext_in _ (fun q => if ex x p q && keeps FL r x p q then [(q, x)] else [])).
  - induction (seq 0 np) as [|q l IH]; cbn [flat_map filter]; auto. rewrite IH. destruct (ex x p q && keeps FL r x p q); auto.
  - intros q Hq. assert (Hq' : q < np) by (apply in_seq in Hq; lia). rewrite filter_map. cbn [snd].
    rewrite (filter_ext_in _ (fun y => y =? x)).
    2:{ intros y Hy. apply filter_In in Hy as [Hy _]. apply (in_xs usize lsize np H FL ex PI n) in Hy; auto. destruct Hy as [Hy0 He].
        apply (pk_ex1 _ _ _ _ _ _ _ _ ok) in He as (Hyp & _); auto. destruct (Nat.eqb_spec y x) as [->|N]; [apply Nat.eqb_refl|].
        apply Nat.eqb_neq. intros E. apply N. exact (pk_inj _ _ _ _ _ _ _ _ ok y x p Hp Hy0 Hx Hyp Hh E). }
    assert (ND : NoDup (ys r p q)) by (unfold GsPwProof2.ys; apply NoDup_filter, NoDup_filter, seq_NoDup).
    assert (I : In x (ys r p q) <-> ex x p q && keeps FL r x p q = true).
    { unfold GsPwProof2.ys. rewrite filter_In, (in_xs usize lsize np H FL ex PI n ok p q x Hp Hq'), andb_true_iff. tauto. }
    clear -ND I. destruct (ex x p q && keeps FL r x p q).
    + assert (E : filter (fun y => y =? x) (ys r p q) = [x]); [|rewrite E; auto].
      apply Permutation_length_1_inv. apply NoDup_Permutation; [repeat constructor; auto|apply NoDup_filter; auto|].
      intros y. rewrite filter_In, Nat.eqb_eq. cbn [In]. split; [intros [<-|[]]|intros [_ ->]]; auto. split; auto. apply I; auto.
    + rewrite (filter_ext_in _ (fun _ => false)); [rewrite filter_false; auto|].
      intros y Hy. apply Nat.eqb_neq. intros ->. apply I in Hy. discriminate.
Qed.

Lemma pw_wait_ok p : p < np ->
  exists u' g, gather_from_buf op UMAX mode vn (pw_map_recv t (d p)) (u p)
      (pw_received vn (pc_msgs (pw_recv t (d p))) (pw_ms p) (buf p)) = Ok u' /\
    data_ok mode vn u' (n p) g /\ exchanged op e np vn H FL PI n t f p g.
Proof.
  intros Hp. set (r := negb t). set (L := length (slots r p)). set (L' := L + length (slots t p)).
  assert (HL : L' <= UMAX).
  { pose proof (slots_le usize lsize np H FL ex PI n ok t p Hp). pose proof (slots_le usize lsize np H FL ex PI n ok r p Hp). unfold L', L. lia. }
  destruct (side_valid r p _ _ Hp (recv_side p Hp) L' ltac:(unfold L', L; lia) HL) as (gs & Em & V & P). rewrite Em.
  rewrite (proj2 (side_total _ _ _ _ (recv_side p Hp))). fold r. unfold pw_ms. fold r.
  assert (EO : forall q, length (out q p) = length (ys r p q) * vn) by (intros q; rewrite out_length, ys_match; auto).
  assert (EP : flat_map (fun q => out q p) (busy r p) = flat_map (fun qx => vec vn (f (fst qx) (PI (fst qx) (snd qx)))) (slots r p)).
  { unfold busy. rewrite (flat_map_busy vn (fun q => length (ys r p q)) (fun q => out q p) EO).
    rewrite (flat_slots r (fun q x => vec vn (f q (PI q x))) p). apply flat_map_ext. intros q. unfold out. rewrite ys_match. auto. }
  assert (LE : length (flat_map (fun q => out q p) (busy r p)) = L * vn) by (rewrite EP; apply vecs_length).
  rewrite (received_pieces vn (fun q => length (ys r p q)) (fun q => out q p) EO).
  2:{ rewrite LE, buf_len' by auto. fold r. unfold L. lia. }
  set (tail := skipn _ (buf p)).
  assert (HT : length tail = length (slots t p) * vn).
  { unfold tail. rewrite skipn_length, LE, buf_len' by auto. fold r. unfold L. lia. }
  rewrite EP.
  set (b0 := fun i k => match nth_error (slots r p) i with Some qx => f (fst qx) (PI (fst qx) (snd qx)) k | None => e end).
  assert (B0 : holds_vec (flat_map (fun qx => vec vn (f (fst qx) (PI (fst qx) (snd qx)))) (slots r p)) L vn b0).
  { apply (vecs_holds vn (fun qx => f (fst qx) (PI (fst qx) (snd qx)))). intros i qx k Hi. unfold b0. rewrite Hi. auto. }
  set (b := fun i k => if i <? L then b0 i k else nth ((i - L) * vn + k) tail e).
  assert (B1 := holds_vec_app vn e _ tail L (length (slots t p)) b0 B0 HT : holds_vec _ L' vn b).
  destruct (gather_from_buf_ok op UMAX mode vn gs (n p) L' (u p) (f p) _ _ V (u_ok p Hp) B1) as (u' & -> & D).
  exists u', (fun i k => gathered op gs (fun j => b j k) i (f p i k)). split; auto. split; [exact D|]. clear D.
  assert (G : forall i k, gathered op gs (fun j => b j k) i (f p i k) =
     fold_left op (map (fun qx => f (fst qx) (PI (fst qx) (snd qx)) k) (filter (fun qx => PI p (snd qx) =? i) (slots r p))) (f p i k)).
  { intros i k. unfold gathered.
    rewrite (fold_left_perm op (cmon_comm op e M) (cmon_assoc op e M) _ _ (Permutation_map _ (Permutation_filter (fun q => fst q =? i) _ _ P))).
    rewrite (comb_gather (fun qx => PI p (snd qx)) i (fun j => b j k) (fun qx => f (fst qx) (PI (fst qx) (snd qx)) k)); auto.
    intros j qx Hj. cbn [Nat.add]. unfold b. assert (Hlt : j < L) by (apply nth_error_Some; rewrite Hj; discriminate).
    apply Nat.ltb_lt in Hlt. rewrite Hlt. unfold b0. rewrite Hj. auto. }
  constructor.
  - intros x k Hx Hh Hf Hk. cbn. rewrite G, (slots_at r p x Hp Hx Hh), map_map. cbn [fst snd].
    unfold combined. destruct t eqn:Et; cbn [andb orb] in *; unfold r; cbn [negb].
    + (* t = true: all holders *)
      rewrite (fold_extract op e M (fun q => f q (PI q x) k) (fun q => H x q && true) p);
        [|apply seq_NoDup|apply in_seq; lia|rewrite Hh; auto].
      do 2 f_equal. apply filter_ext_in. intros q Hq. unfold keeps. rewrite Hf, (ex_eq x p q) by (auto; apply in_seq in Hq; lia). cbn. rewrite !andb_true_r. auto.
    + destruct (FL x p) eqn:Ef.
      * rewrite (neut eq_refl p x k Hp Hx Hh Ef Hk). do 2 f_equal. apply filter_ext_in. intros q Hq. unfold keeps.
        destruct (FL x q) eqn:Eq; cbn [negb]; [rewrite !andb_false_r; auto|]. rewrite (ex_eq x p q) by (auto; apply in_seq in Hq; lia).
        destruct (Nat.eqb_spec p q) as [E|E]; cbn; destruct (H x q) eqn:Eh; cbn; auto; congruence.
      * rewrite (fold_extract op e M (fun q => f q (PI q x) k) (fun q => H x q && negb (FL x q)) p);
          [|apply seq_NoDup|apply in_seq; lia|rewrite Hh, Ef; auto].
        do 2 f_equal. apply filter_ext_in. intros q Hq. unfold keeps. rewrite (ex_eq x p q) by (auto; apply in_seq in Hq; lia).
        destruct (H x q), (p =? q), (FL x q); auto.
  - intros i k Hi Hk HN. cbn. rewrite G.
    assert (E : filter (fun qx => PI p (snd qx) =? i) (slots r p) = []); [|rewrite E; auto].
    destruct (filter (fun qx => PI p (snd qx) =? i) (slots r p)) as [|[q x] l] eqn:E; auto. exfalso.
    assert (Hin : In (q, x) ((q, x) :: l)) by (left; auto). rewrite <- E in Hin. apply filter_In in Hin as [Hin He].
    apply Nat.eqb_eq in He. cbn in He. apply (in_slots usize lsize np H FL ex PI n) in Hin; auto. destruct Hin as (Hq & Hx & Hex & Hkp).
    pose proof (pk_ex1 _ _ _ _ _ _ _ _ ok x p q Hp Hq Hex) as (H1 & H2 & H3).
    apply (HN x Hx H1); auto. unfold keeps, r in Hkp. destruct t; cbn in *; auto. apply negb_true_iff in Hkp. auto.
Qed.

Theorem pw_exec_goes : exists u' g,
  (forall p, p < np -> data_ok mode vn (u' p) (n p) (g p) /\ exchanged op e np vn H FL PI n t f p (g p)) /\
  goes np (fun p => pw_exec op UMAX mode vn t (d p) p (u p) (buf p)) (fun p => Ret (u' p)).
Proof.
  destruct (finite_choice (fun p (ug : udata T * (nat -> nat -> T)) =>
     gather_from_buf op UMAX mode vn (pw_map_recv t (d p)) (u p)
       (pw_received vn (pc_msgs (pw_recv t (d p))) (pw_ms p) (buf p)) = Ok (fst ug) /\
     data_ok mode vn (fst ug) (n p) (snd ug) /\ exchanged op e np vn H FL PI n t f p (snd ug)) (UFlat [], fun _ _ => e) np) as [ug Hug].
  { intros p Hp. destruct (pw_wait_ok p Hp) as (u' & g & Hu). exists (u', g). auto. }
  exists (fun p => fst (ug p)), (fun p => snd (ug p)). split; [intros p Hp; apply Hug; auto|].
  eapply (goes_comm np (fun _ => true) _ _ pw_sends (fun p => pw_exec_recvs vn (pw_recv t (d p)))
     (fun p ms => plift (gather_from_buf op UMAX mode vn (pw_map_recv t (d p)) (u p) (pw_received vn (pc_msgs (pw_recv t (d p))) ms (buf p)))) pw_ms).
  - apply pw_matched.
  - discriminate.
  - intros p Hp _. split.
    + unfold pw_exec, pw_exec_start, pw_exec_wait, comm. destruct (pw_send_ok p Hp) as (sb & -> & ES). cbn [plift pbind]. rewrite ES. auto.
    + destruct (Hug p Hp) as [-> _]. auto.
Qed.
End Run.
