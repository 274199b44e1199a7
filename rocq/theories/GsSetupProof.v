(** From the topology to the handle. *)
From Verif Require Import Base BaseLemmas Net NetProof Sort SortSpec Sarray Transfer TransferSpec OpsSpec Comm CommSpec CommProof CrystalProof TransferProof2
  Kernels KernelSpec KernelProof ListLemmas
  GsTop GsSpec GsSortProof GsTopProof1 GsTopProof2 GsTopProof3 GsTopProof4 GsExec GsCr Gs GsKernProof GsPwProof1 GsPwProof2 GsPwProof3 GsArProof
  GsLocalProof GsRunProof.

Lemma total_ge {X} np (F : nat -> list X) p : p < np -> length (F p) <= total np F.
Proof.
  intros Hp. unfold total. replace np with (p + (1 + (np - p - 1))) by lia. rewrite !seq_app, !map_app, !concat_app, !app_length. cbn [seq map concat plus].
  rewrite app_length. lia.
Qed.

Lemma times3 t w u : 1 <= u -> t * 3 <= t * (w + 3) * u.
Proof. intros Hu. rewrite <- Nat.mul_assoc. apply Nat.mul_le_mono_l. nia. Qed.

Section Setup.
Variable usize lsize INT_MAX np : nat.
Variable ids : nat -> list Z.
Hypothesis fits : setup_fits usize lsize INT_MAX np ids.
Notation UMAX := (UINT_MAX usize).
Notation H := (fun x p => has (ids p) x).
Notation FL := (fun x p => only_flagged (ids p) x).
Notation PI := (fun p => prim (ids p)).
Notation n := (fun p => length (ids p)).

Lemma exchange_sym x p q : exchange ids x p q = exchange ids x q p.
Proof. unfold exchange. rewrite (Nat.eqb_sym p q), (andb_comm (has _ _)), (andb_comm (only_flagged _ _)). auto. Qed.
Lemma label_fit p x : p < np -> has (ids p) x = true -> x < ULONG_MAX lsize.
Proof.
  intros Hp Hh. destruct (sf_ids _ _ _ _ _ fits p Hp) as [_ Hl]. apply has_iff in Hh as (i & Hi & <-). auto.
Qed.
Lemma in_xs' p q x : p < np -> (In x (xs lsize (exchange ids) p q) <-> x <> 0 /\ exchange ids x p q = true).
Proof.
  intros Hp. unfold xs. rewrite filter_In, andb_true_iff, negb_true_iff, Nat.eqb_neq, in_seq. split; [tauto|].
  intros [Hx He]. split; [|split; auto]. split; [lia|]. apply exchange_iff in He. apply (label_fit p); tauto.
Qed.
Lemma xs_NoDup p q : NoDup (xs lsize (exchange ids) p q).
Proof. apply NoDup_filter, seq_NoDup. Qed.

Lemma sh_canon p : p < np -> Permutation (sh_spec np ids p) (canon lsize np FL (exchange ids) PI p).
Proof.
  intros Hp. apply NoDup_Permutation.
  - unfold sh_spec. apply NoDup_flat_map; [apply labels_NoDup| |].
    + intros x _. apply NoDup_map_inj; [|apply NoDup_filter, seq_NoDup]. intros a b E. congruence.
    + intros x y s _ _ Hx Hy. apply in_map_iff in Hx as (a & <- & _), Hy as (b & E & _). congruence.
  - unfold canon. apply NoDup_flat_map; [apply seq_NoDup| |].
    + intros q _. apply NoDup_map_inj; [|apply xs_NoDup]. intros a b E. unfold row in E. congruence.
    + intros q r s _ _ Hx Hy. apply in_map_iff in Hx as (a & <- & _), Hy as (b & E & _). unfold row in E. congruence.
  - intros s. unfold sh_spec, canon. rewrite !in_flat_map. split.
    + intros (x & Hx & Hs). apply in_labels in Hx as [Hx _]. apply in_map_iff in Hs as (q & <- & Hq). apply in_partners in Hq as [Hq He].
      exists q. split; [apply in_seq; lia|]. apply in_map_iff. exists x. split; auto. apply in_xs'; auto.
    + intros (q & Hq & Hs). apply in_seq in Hq. apply in_map_iff in Hs as (x & <- & Hx). apply in_xs' in Hx as [Hx He]; auto.
      exists x. split; [apply in_labels; split; auto; apply exchange_iff in He; tauto|]. apply in_map_iff. exists q. split; auto.
      apply in_partners. split; auto. lia.
Qed.
Lemma sh_spec_length p : length (sh_spec np ids p) = length (flat_map (fun x => partners np ids x p) (labels (ids p))).
Proof. unfold sh_spec. induction (labels (ids p)) as [|x l IH]; cbn [flat_map]; auto. rewrite !app_length, map_length, IH. auto. Qed.

Lemma len_fit p : p < np -> length (ids p) <= UMAX.
Proof. intros Hp. destruct (sf_ids _ _ _ _ _ fits p Hp) as [Hl _]. pose proof (ulim_pos usize). unfold UINT_MAX. lia. Qed.

Lemma plan : plan_ok usize lsize np H FL (exchange ids) PI n.
Proof.
  destruct fits as [us ls np1 npl mx fi lb pb]. constructor; auto.
  - intros p Hp. apply len_fit; auto.
  - intros x p Hp Hx Hh. apply (label_fit p); auto.
  - intros x p Hp Hx Hh. apply prim_lt; auto.
  - intros x y p Hp Hx Hy Hhx Hhy E. rewrite <- (prim_label _ _ Hhx), E, (prim_label _ _ Hhy). auto.
  - apply exchange_sym.
  - intros x p q Hp Hq He. apply exchange_iff in He. tauto.
  - intros x p q Hp Hq Hx Hh1 Hh2 N F. apply exchange_iff. repeat split; auto. apply andb_false_iff. auto.
  - intros p Hp. rewrite <- (Permutation_length (sh_canon p Hp)), sh_spec_length.
    pose proof (total_ge np (fun p => flat_map (fun x => partners np ids x p) (labels (ids p))) p Hp). cbn beta in *.
    set (k := length _) in *. clear lb. set (t := total _ _) in *. unfold UINT_MAX. pose proof (ulim_pos usize).
    pose proof (times3 t (words_for usize (2 * lsize + 3 * usize)) usize us). lia.
Qed.

Lemma shared_iff' x : shared np ids x = true <-> exists p q, p < np /\ q < np /\ exchange ids x p q = true.
Proof.
  destruct fits. apply (shared_iff usize lsize INT_MAX np ids); auto.
Qed.

Lemma shared_count L : NoDup L -> (forall x, In x L <-> x <> 0 /\ shared np ids x = true) -> length L <= UMAX.
Proof.
  intros ND HL. destruct fits as [us ls np1 npl mx fi lb pb].
  assert (I : length L <= total np (fun p => labels (ids p))).
  { unfold total. apply NoDup_incl_length; auto. intros x Hx. apply HL in Hx as [Hx Hs]. apply shared_iff' in Hs as (p & q & Hp & Hq & He).
    apply in_concat. exists (labels (ids p)). split; [apply in_map_iff; exists p; split; auto; apply in_seq; lia|].
    apply in_labels. split; auto. apply exchange_iff in He. tauto. }
  clear pb. set (t := total _ _) in *. unfold UINT_MAX. pose proof (ulim_pos usize).
  pose proof (times3 t (words_for usize (lsize + usize)) usize us). lia.
Qed.

Variable ord : nat -> nat.
Variable N : nat.
Variable top : nat -> topology.
Hypothesis num : numbering np ids ord N.
Hypothesis top_ok : forall p, p < np -> topology_ok np ids ord N p (top p).

Lemma erase_sh_spec p : map erase (sh_spec np ids p) = sh_spec np ids p.
Proof. unfold sh_spec. rewrite map_flat_map. apply flat_map_ext. intros x. rewrite map_map. apply map_ext. reflexivity. Qed.
Lemma top_canon p : p < np -> Permutation (map erase (t_sh (top p))) (canon lsize np FL (exchange ids) PI p).
Proof.
  intros Hp. rewrite (Permutation_map erase (tok_sh _ _ _ _ _ _ (top_ok p Hp))), erase_sh_spec. apply sh_canon; auto.
Qed.

Lemma pw_remote_ok d : (forall p, p < np -> side_ok usize lsize np FL (exchange ids) PI true p (pw_comm0 (d p)) (pw_map0 (d p)) /\
    side_ok usize lsize np FL (exchange ids) PI false p (pw_comm1 (d p)) (pw_map1 (d p))) ->
  remote_ok usize np ids (fun p => RPw (d p)).
Proof.
  intros Hd T op e mode vn t f u buf M Hu Hb Hn.
  exact (pw_exec_goes op e M usize lsize np H FL (exchange ids) PI n plan mode vn t d Hd f u Hu buf Hb Hn).
Qed.
Lemma pw_setup_all : exists d sh, (forall p, p < np -> pw_setup usize lsize (t_sh (top p)) = Ok (d p, sh p) /\
    Permutation (map erase (sh p)) (canon lsize np FL (exchange ids) PI p)) /\
  remote_ok usize np ids (fun p => RPw (d p)).
Proof.
  destruct (finite_choice (fun p (x : pw_data * list shared_id) => pw_setup usize lsize (t_sh (top p)) = Ok x /\
     Permutation (map erase (snd x)) (canon lsize np FL (exchange ids) PI p) /\
     side_ok usize lsize np FL (exchange ids) PI true p (pw_comm0 (fst x)) (pw_map0 (fst x)) /\
     side_ok usize lsize np FL (exchange ids) PI false p (pw_comm1 (fst x)) (pw_map1 (fst x))) (PW (PC [] 0) (PC [] 0) [] [], []) np) as [x Hx].
  { intros p Hp. destruct (pw_setup_ok usize lsize np H FL (exchange ids) PI n plan p _ Hp (top_canon p Hp)) as (d & sh & A & B & C & D). exists (d, sh). auto. }
  exists (fun p => fst (x p)), (fun p => snd (x p)). split.
  - intros p Hp. destruct (Hx p Hp) as (-> & P & _). split; auto. destruct (x p); auto.
  - apply pw_remote_ok. intros p Hp. apply (Hx p Hp).
Qed.

Lemma ar_remote_ok : remote_ok usize np ids (fun p => RAr (allreduce_setup usize (t_pr (top p)) (t_total (top p)))).
Proof.
  intros T op e mode vn t f u buf M Hu Hb Hn. destruct num as (L & ND & HN & HL & HO).
  destruct (finite_choice (fun p l => t_pr (top p) = map (fun x => PR x (ord x) (prim (ids p) x) (only_flagged (ids p) x)) l /\
     Permutation (filter (sharing np ids p) (labels (ids p))) l) [] np) as [ls Hls].
  { intros p Hp. destruct (Permutation_map_inv _ _ (tok_pr _ _ _ _ _ _ (top_ok p Hp))) as (l & E & P). eauto. }
  assert (E : forall p, p < np -> allreduce_setup usize (t_pr (top p)) (t_total (top p)) =
     allreduce_setup usize (pr_rows FL PI ord ls p) (length L)).
  { intros p Hp. rewrite (proj1 (Hls p Hp)), (tok_total _ _ _ _ _ _ (top_ok p Hp)), HN. reflexivity. }
  assert (HS : forall p x, p < np -> (In x (ls p) <-> x <> 0 /\ exists q, q < np /\ exchange ids x p q = true)).
  { intros p x Hp. destruct (Hls p Hp) as [_ HP]. rewrite <- HP, filter_In, in_labels. unfold sharing. split.
    - intros [[Hx Hh] Hs]. split; auto. destruct (partners np ids x p) as [|q l] eqn:Eq; [discriminate|].
      exists q. apply in_partners. rewrite Eq. left; auto.
    - intros (Hx & q & Hq & He). pose proof (proj2 (in_partners np ids x p q) (conj Hq He)) as Hin. apply exchange_iff in He.
      split; [tauto|]. destruct (partners np ids x p); [destruct Hin|auto]. }
  destruct (allreduce_exec_goes op e M usize lsize np (sf_np1 _ _ _ _ _ fits) H FL (exchange ids) PI n plan L ord ls HO HS) with
    (mode := mode) (vn := vn) (t := t) (f := f) (u := u) (buf := buf) as (u' & g & D & G); auto.
  - intros p x Hp Hin. apply HS in Hin as (Hx & q & Hq & He); auto. apply HL. split; auto. apply shared_iff'. eauto.
  - intros p Hp. destruct (Hls p Hp) as [_ HP]. rewrite <- HP. apply NoDup_filter, labels_NoDup.
  - apply shared_count; auto.
  - intros p Hp. rewrite Hb by auto. cbn. rewrite (tok_total _ _ _ _ _ _ (top_ok p Hp)), HN. auto.
  - exists u', g. split; auto. eapply goes_trans; [|exact G]. apply goes_ext. intros p Hp. cbn [remote_exec]. rewrite E; auto.
Qed.

Lemma handle_from_top r g : remote_ok usize np ids r ->
  (forall p, p < np -> g p = GS (local_map usize (t_nz (top p)) true) (local_map usize (t_nz (top p)) false) (flagged_primaries_map usize (t_nz (top p))) (r p)) ->
  handle_ok usize np ids g.
Proof.
  intros R Eg. constructor.
  - apply len_fit.
  - intros p Hp. rewrite Eg by auto. cbn. rewrite (tok_nz _ _ _ _ _ _ (top_ok p Hp)). apply local_map_ok.
  - intros p Hp. rewrite Eg by auto. cbn. rewrite (tok_nz _ _ _ _ _ _ (top_ok p Hp)). apply local_map_ok.
  - intros p Hp. rewrite Eg by auto. cbn. rewrite (tok_nz _ _ _ _ _ _ (top_ok p Hp)). apply flagged_map_ok.
  - intros T op e mode vn t f u buf M Hu Hb Hn.
    destruct (R T op e mode vn t f u buf M Hu) as (u' & h & D & G); auto.
    + intros p Hp. rewrite Hb by auto. rewrite Eg by auto. auto.
    + exists u', h. split; auto. eapply goes_trans; [|exact G]. apply goes_ext. intros p Hp. rewrite Eg by auto. auto.
Qed.
End Setup.
