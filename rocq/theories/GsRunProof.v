(** gs, gs_vec, gs_many: correctness from the maps of the handle and a correct exchange. *)
From Verif Require Import Base BaseLemmas Net NetProof Sort SortSpec Sarray Transfer OpsSpec Comm CommSpec CommProof CrystalProof TransferProof2
  Kernels KernelSpec KernelProof ListLemmas
  GsTop GsSpec GsSortProof GsTopProof1 GsTopProof3 GsTopProof4 GsExec GsCr Gs GsKernProof GsPwProof1 GsPwProof2 GsPwProof3 GsArProof GsLocalProof.

(** The exchange works, for every operation, domain and mode. *)
Definition remote_ok (usize np : nat) (ids : nat -> list Z) (r : nat -> gs_remote) : Prop :=
  forall (T : Type) (op : T -> T -> T) (e : T) mode vn t f (u : nat -> udata T) buf, cmonoid op e ->
  (forall p, p < np -> data_ok mode vn (u p) (length (ids p)) (f p)) ->
  (forall p, p < np -> length (buf p) = vn * buffer_size (r p)) ->
  neutral e np vn (fun x p => has (ids p) x) (fun x p => only_flagged (ids p) x) (fun p => prim (ids p)) t f ->
  exists u' g,
  (forall p, p < np -> data_ok mode vn (u' p) (length (ids p)) (g p) /\
     exchanged op e np vn (fun x p => has (ids p) x) (fun x p => only_flagged (ids p) x) (fun p => prim (ids p)) (fun p => length (ids p)) t f p (g p)) /\
  goes np (fun p => remote_exec op e (UINT_MAX usize) mode vn np p t (r p) (u p) (buf p)) (fun p => Ret (u' p)).

(** The handles g p work as for the ids passed. *)
Record handle_ok (usize np : nat) (ids : nat -> list Z) (g : nat -> gs_data) : Prop := {
  hk_size : forall p, p < np -> length (ids p) <= UINT_MAX usize;
  hk_local0 : forall p, p < np -> g_local0 (g p) = encode (UINT_MAX usize) (local_groups true (ids p));
  hk_local1 : forall p, p < np -> g_local1 (g p) = encode (UINT_MAX usize) (local_groups false (ids p));
  hk_flagged : forall p, p < np -> g_flagged (g p) = map (prim (ids p)) (filter (only_flagged (ids p)) (labels (ids p))) ++ [UINT_MAX usize];
  hk_remote : remote_ok usize np ids (fun p => g_r (g p)) }.

Lemma fold_flat {T} (op : T -> T -> T) e (M : cmonoid op e) {X} (L : X -> list T) qs : forall a,
  fold_left op (map (fun q => fold_left op (L q) e) qs) a = fold_left op (flat_map L qs) a.
Proof.
  induction qs as [|q qs IH]; intros a; cbn [map flat_map fold_left]; auto.
  rewrite fold_left_app, IH, (fold_left_op op e M (L q) a). auto.
Qed.
Lemma flat_filter {A B} (c : A -> bool) (L : A -> list B) l : (forall a, In a l -> c a = false -> L a = []) ->
  flat_map L (filter c l) = flat_map L l.
Proof.
  induction l as [|a l IH]; intros Hc; cbn [filter flat_map]; auto. destruct (c a) eqn:E; cbn [flat_map]; rewrite IH by (intros; apply Hc; auto; right; auto); auto.
  rewrite (Hc a); auto. left; auto.
Qed.

Section Aux.
Context {T : Type}.
Variable op : T -> T -> T.
Variable e : T.
Hypothesis M : cmonoid op e.
Variable usize np : nat.
Variable ids : nat -> list Z.
Variable g : nat -> gs_data.
Hypothesis ok : handle_ok usize np ids g.
Variable mode : gs_mode.
Variable vn : nat.
Variable t : bool.
Variable v : nat -> nat -> nat -> T.   (* v p i k *)
Variable u : nat -> udata T.
Hypothesis u_ok : forall p, p < np -> data_ok mode vn (u p) (length (ids p)) (v p).
Notation UMAX := (UINT_MAX usize).

(** The entries of label x that take part. *)
Definition part (l : list Z) (x : nat) : list nat := if t then all_at l x else unflagged_at l x.

Lemma all_perm l x : Permutation (unflagged_at l x ++ flagged_at l x) (all_at l x).
Proof.
  apply NoDup_Permutation; [apply parts_NoDup|apply indices_NoDup|]. intros j.
  rewrite in_app_iff, in_all_at, in_unflagged_at, in_flagged_at. destruct (is_flagged l j); intuition congruence.
Qed.
Lemma parts_cons l x : has l x = true -> exists tl', unflagged_at l x ++ flagged_at l x = prim l x :: tl' /\ tl' = members false l x.
Proof.
  intros Hh. pose proof (has_parts l x Hh) as N. unfold prim, members. destruct (unflagged_at l x ++ flagged_at l x); [congruence|]. cbn. eauto.
Qed.

(** The value of a representative before the exchange. *)
Definition before (p i k : nat) : T :=
  if is_prim (ids p) i then fold_left op (map (fun j => v p j k) (part (ids p) (label_at (ids p) i))) e else v p i k.

Lemma before_ok p : p < np -> exists u1, gs_before op e UMAX mode vn t (g p) (u p) = Ok u1 /\ data_ok mode vn u1 (length (ids p)) (before p).
Proof.
  intros Hp. set (l := ids p). pose proof (hk_size _ _ _ _ ok p Hp) as Fit. fold l in Fit.
  assert (HG : exists u1, local_gather op UMAX mode vn (if t then g_local1 (g p) else g_local0 (g p)) (u p) = Ok u1 /\
     data_ok mode vn u1 (length l) (fun i k => gathered op (local_groups (negb t) l) (fun j => v p j k) i (v p i k))).
  { replace (if t then g_local1 (g p) else g_local0 (g p)) with (encode UMAX (local_groups (negb t) l))
      by (destruct t; [rewrite (hk_local1 _ _ _ _ ok p Hp)|rewrite (hk_local0 _ _ _ _ ok p Hp)]; auto).
    apply local_gather_ok; auto. apply local_valid; auto. apply local_apart. apply u_ok; auto. }
  destruct HG as (u1 & E1 & D1). unfold gs_before. rewrite E1. cbn [bind].
  (* value at a representative after the local gather *)
  assert (G : forall x k, x <> 0 -> has l x = true -> gathered op (local_groups (negb t) l) (fun j => v p j k) (prim l x) (v p (prim l x) k) =
     fold_left op (map (fun j => v p j k) (prim l x :: members (negb t) l x)) e).
  { intros x k Hx Hh. rewrite local_gathered by auto. cbn [map fold_left]. rewrite (cmon_id op e M). auto. }
  assert (GO : forall i k, i < length l -> is_prim l i = false -> gathered op (local_groups (negb t) l) (fun j => v p j k) i (v p i k) = v p i k).
  { intros i k Hi Np. apply local_gathered_other. intros x Hx Hh E. subst i. assert (is_prim l (prim l x) = true); [|congruence].
    apply is_prim_iff; auto. rewrite (prim_label l x Hh). auto. }
  destruct t eqn:Et.
  - exists u1. split; auto. eapply data_ok_ext; [exact D1|]. intros i k Hi Hk. cbn beta. unfold before, part. rewrite ?Et. fold l.
    destruct (is_prim l i) eqn:Ep; [|apply GO; auto]. apply is_prim_iff in Ep as [Hx E]; auto. rewrite <- E at 1 2. rewrite G by (auto; apply has_label; auto).
    destruct (parts_cons l (label_at l i) (has_label l i Hi)) as (tl' & E1' & ->).
    cbn [negb]. rewrite <- E1'. apply (fold_left_perm op (cmon_comm op e M) (cmon_assoc op e M)). apply Permutation_map, all_perm.
  - set (is := map (prim l) (filter (only_flagged l) (labels l))).
    assert (HI : forall i, In i is -> i < length l).
    { intros i Hi. apply in_map_iff in Hi as (x & <- & Hx). apply filter_In in Hx as [Hx _]. apply in_labels in Hx as [_ Hx]. apply prim_lt; auto. }
    destruct (init_ok e UMAX mode vn is (length l) u1 _ Fit HI D1) as (u2 & E2 & D2).
    rewrite (hk_flagged _ _ _ _ ok p Hp). fold l. fold is. exists u2. split; auto.
    eapply data_ok_ext; [exact D2|]. intros i k Hi Hk. cbn beta. unfold before, part. rewrite ?Et. fold l.
    destruct (existsb (Nat.eqb i) is) eqn:Ex.
    + apply existsb_in in Ex. apply in_map_iff in Ex as (x & <- & Hx). apply filter_In in Hx as [Hx Hf]. apply in_labels in Hx as [H0 Hx].
      assert (Hpr : is_prim l (prim l x) = true) by (apply is_prim_iff; [apply prim_lt; auto|rewrite (prim_label l x Hx); auto]).
      rewrite Hpr, (prim_label l x Hx). apply Nat.eqb_eq, length_zero_iff_nil in Hf. rewrite Hf. auto.
    + destruct (is_prim l i) eqn:Ep; [|apply GO; auto]. apply is_prim_iff in Ep as [Hx E]; auto.
      assert (Hh : has l (label_at l i) = true) by (apply has_label; auto). rewrite <- E at 1 2. rewrite G by auto.
      destruct (unflagged_at l (label_at l i)) as [|a us] eqn:Eu.
      * exfalso. assert (existsb (Nat.eqb i) is = true); [|congruence]. apply existsb_in. apply in_map_iff. exists (label_at l i). split; auto.
        apply filter_In. split; [apply in_labels; auto|]. unfold only_flagged. rewrite Eu. auto.
      * unfold prim, members. cbn [negb]. rewrite app_nil_r, Eu. auto.
Qed.

Lemma combined_total x k : x <> 0 ->
  combined op e np (fun x p => has (ids p) x) (fun x p => only_flagged (ids p) x) (fun p => prim (ids p)) t before x k =
  total_over op e np ids (fun q j => v q j k) (fun l => part l x).
Proof.
  intros Hx. unfold combined, total_over.
  rewrite (map_ext_in _ (fun q => fold_left op (map (fun j => v q j k) (part (ids q) x)) e)).
  2:{ intros q Hq. apply filter_In in Hq as [_ Hq]. apply andb_true_iff in Hq as [Hh _]. unfold before.
      assert (Hpr : is_prim (ids q) (prim (ids q) x) = true) by (apply is_prim_iff; [apply prim_lt; auto|rewrite (prim_label _ x Hh); auto]).
      rewrite Hpr, (prim_label _ x Hh). auto. }
  rewrite (fold_flat op e M (fun q => map (fun j => v q j k) (part (ids q) x))), flat_filter; auto.
  intros q _ Hq. assert (part (ids q) x = []) as ->; auto.
  assert (HA : has (ids q) x = false -> all_at (ids q) x = []).
  { unfold has. intros A. apply negb_false_iff, Nat.eqb_eq, length_zero_iff_nil in A. auto. }
  assert (HU : has (ids q) x = false -> unflagged_at (ids q) x = []).
  { intros A. pose proof (all_perm (ids q) x) as P. rewrite (HA A) in P. apply Permutation_sym, Permutation_nil in P. apply app_eq_nil in P. tauto. }
  unfold part. destruct t; cbn in Hq.
  - rewrite andb_true_r in Hq. auto.
  - apply andb_false_iff in Hq as [Hq|Hq]; auto. apply negb_false_iff in Hq. unfold only_flagged in Hq. apply Nat.eqb_eq, length_zero_iff_nil in Hq. auto.
Qed.

Lemma before_neutral : neutral e np vn (fun x p => has (ids p) x) (fun x p => only_flagged (ids p) x) (fun p => prim (ids p)) t before.
Proof.
  intros Et p x k Hp Hx Hh Hf Hk. unfold before, part. rewrite Et.
  assert (Hpr : is_prim (ids p) (prim (ids p) x) = true) by (apply is_prim_iff; [apply prim_lt; auto|rewrite (prim_label _ x Hh); auto]).
  rewrite Hpr, (prim_label _ x Hh). unfold only_flagged in Hf. apply Nat.eqb_eq, length_zero_iff_nil in Hf. rewrite Hf. auto.
Qed.

Lemma after_ok p u1 f : p < np -> data_ok mode vn u1 (length (ids p)) f ->
  exchanged op e np vn (fun x p => has (ids p) x) (fun x p => only_flagged (ids p) x) (fun p => prim (ids p)) (fun p => length (ids p)) t before p f ->
  exists u2, gs_after UMAX mode vn t (g p) u1 = Ok u2 /\
    data_ok mode vn u2 (length (ids p)) (fun i k => gs_result op e np ids (fun q j => v q j k) t p i).
Proof.
  intros Hp D [XA XE]. set (l := ids p) in *. pose proof (hk_size _ _ _ _ ok p Hp) as Fit. fold l in Fit.
  assert (HS : exists u2, gs_after UMAX mode vn t (g p) u1 = Ok u2 /\
    data_ok mode vn u2 (length l) (fun i k => scattered (local_groups t l) (fun j => f j k) i (f i k))).
  { unfold gs_after. replace (if t then g_local0 (g p) else g_local1 (g p)) with (encode UMAX (local_groups t l))
      by (destruct t; [rewrite (hk_local0 _ _ _ _ ok p Hp)|rewrite (hk_local1 _ _ _ _ ok p Hp)]; auto).
    apply local_scatter_ok; auto. apply local_valid; auto. apply local_apart. }
  destruct HS as (u2 & E2 & D2). exists u2. split; auto. eapply data_ok_ext; [exact D2|]. intros i k Hi Hk. cbn beta.
  set (x := label_at l i). assert (Hh : has l x = true) by (apply has_label; auto).
  (* the scattered value *)
  assert (S1 : x <> 0 -> In i (members t l x) -> scattered (local_groups t l) (fun j => f j k) i (f i k) = f (prim l x) k).
  { intros Hx Hin. exact (local_scattered l t (fun j => f j k) x i (f i k) Hx Hh Hin). }
  assert (S2 : ~ (x <> 0 /\ In i (members t l x)) -> scattered (local_groups t l) (fun j => f j k) i (f i k) = f i k).
  { intros N. apply local_scattered_other. intros y Hy Hhy Hin. apply N. pose proof (proj1 (in_members t l y i Hhy) Hin) as (A & _).
    apply in_all_at in A as [_ A]. fold x in A. subst y. auto. }
  assert (IA : In i (all_at l x)) by (apply in_all_at; auto).
  (* the value of the representative *)
  assert (V1 : x <> 0 -> t && only_flagged l x = false -> f (prim l x) k = total_over op e np ids (fun q j => v q j k) (fun l => part l x)).
  { intros Hx Hf. rewrite <- combined_total by auto. apply XA; auto. }
  assert (XE' : (forall y, y <> 0 -> has l y = true -> t && only_flagged l y = false -> i <> prim l y) -> f i k = before p i k) by (intros N; apply XE; auto).
  assert (NPr : x = 0 \/ prim l x <> i -> before p i k = v p i k).
  { intros N. unfold before. fold l. destruct (is_prim l i) eqn:Ep; auto. apply is_prim_iff in Ep as [A B]; auto. fold x in A, B. tauto. }
  assert (NX : x = 0 \/ prim l x <> i \/ (t && only_flagged l x = true) -> f i k = before p i k).
  { intros N. apply XE'. intros y Hy Hhy Hf E. assert (y = x) by (rewrite <- (prim_label l y Hhy), <- E; auto). subst y.
    destruct N as [N|[N|N]]; congruence. }
  assert (Z0 : x = 0 -> scattered (local_groups t l) (fun j => f j k) i (f i k) = v p i k).
  { intros Ex. rewrite S2 by tauto. rewrite NX, NPr; auto. }
  unfold gs_result.
  destruct t eqn:Et; unfold gs_forward, gs_transpose; fold l; fold x; (destruct (Nat.eqb_spec x 0) as [Ex|Ex]; [auto|]);
    unfold part in V1; rewrite Et in V1.
  - cbn [andb] in *. destruct (is_flagged l i) eqn:Fi; cbn [negb].
      * (* flagged: not scattered to *)
        rewrite S2. 2:{ intros [_ Hin]. apply in_members in Hin as (_ & _ & F); auto. rewrite F in Fi; auto. discriminate. }
        destruct (Nat.eqb_spec (prim l x) i) as [Ep|Ep].
        -- assert (Fx : only_flagged l x = true) by (rewrite <- (prim_flag l x Hh), Ep; auto). rewrite Fx. cbn [andb].
           rewrite NX by auto. unfold before. fold l. assert (Hpr : is_prim l i = true) by (apply is_prim_iff; auto). rewrite Hpr. unfold part. rewrite Et. reflexivity.
        -- rewrite andb_false_r. rewrite NX, NPr; auto.
      * assert (Fx : only_flagged l x = false).
        { unfold only_flagged. assert (Hu : In i (unflagged_at l x)) by (apply in_unflagged_at; auto). destruct (unflagged_at l x); [destruct Hu|auto]. }
        rewrite (V1 Ex Fx) in S1. destruct (Nat.eq_dec i (prim l x)) as [Ep|Ep].
        -- rewrite S2; [rewrite Ep at 1; apply V1; auto|]. intros [_ Hin]. apply in_members in Hin; tauto.
        -- apply S1; auto. apply in_members; auto.
  - cbn [andb] in *. rewrite (V1 Ex eq_refl) in S1. destruct (Nat.eq_dec i (prim l x)) as [Ep|Ep].
      * rewrite S2; [rewrite Ep at 1; apply V1; auto|]. intros [_ Hin]. apply in_members in Hin; tauto.
      * apply S1; auto. apply in_members; auto. split; auto. split; auto. discriminate.
Qed.

Variable buf : nat -> list T.
Hypothesis buf_len : forall p, p < np -> length (buf p) = vn * buffer_size (g_r (g p)).

Theorem gs_aux_goes : exists u',
  (forall p, p < np -> data_ok mode vn (u' p) (length (ids p)) (fun i k => gs_result op e np ids (fun q j => v q j k) t p i)) /\
  goes np (fun p => gs_aux op e UMAX mode vn np p t (g p) (u p) (buf p)) (fun p => Ret (u' p)).
Proof.
  destruct (finite_choice _ (UFlat []) np before_ok) as [u1 H1].
  destruct (hk_remote _ _ _ _ ok T op e mode vn t before u1 buf M ltac:(intros p Hp; apply H1; auto) buf_len before_neutral) as (u2 & f & H2 & G2).
  destruct (finite_choice (fun p u3 => gs_after UMAX mode vn t (g p) (u2 p) = Ok u3 /\
    data_ok mode vn u3 (length (ids p)) (fun i k => gs_result op e np ids (fun q j => v q j k) t p i)) (UFlat []) np) as [u3 H3].
  { intros p Hp. destruct (H2 p Hp) as [D X]. exact (after_ok p (u2 p) (f p) Hp D X). }
  exists u3. split; [intros p Hp; apply H3; auto|].
  eapply goes_trans; [apply (goes_ext np _ (fun p => pbind (remote_exec op e UMAX mode vn np p t (g_r (g p)) (u1 p) (buf p)) (fun u => plift (gs_after UMAX mode vn t (g p) u))))|].
  - intros p Hp. unfold gs_aux. destruct (H1 p Hp) as [-> _]. auto.
  - eapply goes_trans; [exact (goes_bind np (fun p u => plift (gs_after UMAX mode vn t (g p) u)) _ _ G2)|].
    apply goes_ext. intros p Hp. destruct (H3 p Hp) as [-> _]. auto.
Qed.
End Aux.
