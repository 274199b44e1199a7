(** Proofs for C62: with the all-reduce method the entries of a group agree on all processes, for every operation. *)
From Verif Require Import Base BaseLemmas Net NetProof Sort SortSpec SortLemmas Sarray Transfer TransferSpec OpsSpec Comm CommSpec CommProof CrystalProof
  Kernels KernelSpec KernelProof ListLemmas GsTop GsSpec GsLocalProof GsSortProof GsTopProof1 GsTopProof2 GsTopProof3 GsTopProof4 GsExec GsCr Gs GsKernProof
  GsPwProof1 GsPwProof2 GsPwProof3 GsArProof GsRunProof GsSetupProof GsSetupProof2 GsUserSpec GsUserProof GsUserProof2 TransferProof2
  BracketSpec BracketProof CopiesProof HalvingSpec HalvingProof.
From Coq Require Import Permutation.

Section Run.
Context {T : Type}.
Variable op : T -> T -> T.
Variable e : T.
Variable usize lsize np : nat.
Hypothesis np1 : 1 <= np.
Variable H FL : nat -> nat -> bool.
Variable ex : nat -> nat -> nat -> bool.
Variable PI : nat -> nat -> nat.
Variable n : nat -> nat.
Hypothesis ok : plan_ok usize lsize np H FL ex PI n.
Variable L : list nat.
Variable ord : nat -> nat.
Variable ls : nat -> list nat.
Hypothesis L_ord : forall i x, nth_error L i = Some x -> ord x = i.
Hypothesis ls_in : forall p x, p < np -> (In x (ls p) <-> x <> 0 /\ exists q, q < np /\ ex x p q = true).
Hypothesis ls_L : forall p x, p < np -> In x (ls p) -> In x L.
Hypothesis ls_nodup : forall p, p < np -> NoDup (ls p).
Notation UMAX := (UINT_MAX usize).
Hypothesis L_len : length L <= UMAX.
Variable mode : gs_mode.
Variable vn : nat.
Variable t : bool.
Variable f : nat -> nat -> nat -> T.
Variable u : nat -> udata T.
Hypothesis u_ok : forall p, p < np -> data_ok mode vn (u p) (n p) (f p).
Variable buf : nat -> list T.
Hypothesis buf_len : forall p, p < np -> length (buf p) = vn * (length L * 2).

Notation rows := (pr_rows FL PI ord ls).
Notation sl := (sel FL ls).

(** What the exchange does, whatever the operation. *)
Lemma ar_exec_any : exists (u' : nat -> udata T) (Rv : nat -> nat -> T),
  (forall p, p < np -> data_ok mode vn (u' p) (n p) (fun i k => scattered (map (fun x => (ord x, [PI p x])) (sl t p)) (fun j => Rv j k) i (f p i k))) /\
  goes np (fun p => allreduce_exec op e UMAX mode vn t (allreduce_setup usize (rows p) (length L)) np p (u p) (buf p)) (fun p => Ret (u' p)).
Proof.
  destruct (finite_choice (fun p b => (b <- init_array e (firstn (vn * length L) (buf p)) (vn * length L) ;;
    scatter_to_buf UMAX mode vn (allreduce_map_setup usize (rows p) (negb t) true) (u p) b) = Ok b /\
    holds_vec b (length L) vn (contrib e FL PI L ls t f p)) [] np) as [b Hb].
  { intros p Hp. eapply (ar_to_ok e usize lsize np np1 H FL ex PI n); eauto. }
  set (rb := vec (vn * length L) (fun i => eval op e (fun q _ _ => nth i (b q) e) (halving np 0 np))).
  set (R := fun j k => nth (j * vn + k) rb e).
  assert (HR : holds_vec rb (length L) vn R).
  { split; [unfold rb; rewrite vec_length; lia|]. intros j k Hj Hk. unfold R. apply nth_error_nth'. unfold rb. rewrite vec_length. nia. }
  set (gs := fun p => map (fun x => (ord x, [PI p x])) (sl t p)).
  assert (HF : forall p, p < np -> exists u', scatter_from_buf UMAX mode vn (encode UMAX (gs p)) (u p) rb = Ok u' /\
     data_ok mode vn u' (n p) (fun i k => scattered (gs p) (fun j => R j k) i (f p i k))).
  { intros p Hp. apply (scatter_from_buf_ok UMAX mode vn (gs p) (n p) (length L)); auto. split; auto. split; [apply (pk_n _ _ _ _ _ _ _ _ ok); auto|].
    intros i js Hin. apply in_map_iff in Hin as (x & E & Hx). injection E as <- <-.
    apply (in_sel usize lsize np H FL ex PI n ok ls ls_in) in Hx as (Hx & Hh & Hin & _); auto. split; [discriminate|]. split; [apply (ord_lt np L ord ls L_ord ls_L p x Hp Hin)|].
    intros j [<-|[]]. apply (pk_pi _ _ _ _ _ _ _ _ ok); auto. }
  destruct (finite_choice _ (UFlat []) np HF) as [u' Hu'].
  exists u', R. split; [intros p Hp; apply (Hu' p Hp)|].
  assert (EG : vn * (length L * 2 / 2) = vn * length L) by (rewrite Nat.div_mul; auto).
  eapply goes_trans; [apply (goes_ext np _ (fun p => pbind (comm_allreduce op np p (vn * length L) (b p) (firstn (vn * length L) (skipn (vn * length L) (buf p))))
     (fun b => plift (scatter_from_buf UMAX mode vn (encode UMAX (gs p)) (u p) b))))|].
  - intros p Hp. unfold allreduce_exec, allreduce_setup. cbn [ar_buffer_size ar_to0 ar_to1 ar_from0 ar_from1]. rewrite EG.
    replace (if t then allreduce_map_setup usize (rows p) false true else allreduce_map_setup usize (rows p) true true)
      with (allreduce_map_setup usize (rows p) (negb t) true) by (destruct t; auto).
    replace (if t then allreduce_map_setup usize (rows p) true false else allreduce_map_setup usize (rows p) false false)
      with (encode UMAX (gs p)) by (unfold gs; destruct t; rewrite map_setup_eq; auto).
    destruct (Hb p Hp) as [-> _]. reflexivity.
  - eapply goes_trans; [apply (goes_bind np (fun p b => plift (scatter_from_buf UMAX mode vn (encode UMAX (gs p)) (u p) b)) _ (fun _ => rb))|].
    + apply allreduce_goes_any; auto. intros p Hp. destruct (Hb p Hp) as [_ [LB _]]. split; [lia|].
      rewrite firstn_length, skipn_length, buf_len by auto. lia.
    + apply goes_ext. intros p Hp. destruct (Hu' p Hp) as [-> _]. auto.
Qed.

(** Values after the exchange. *)
Lemma scat_in R p x (d : nat -> T) : p < np -> In x (sl t p) ->
  scattered (map (fun x => (ord x, [PI p x])) (sl t p)) R (PI p x) (d (PI p x)) = R (ord x).
Proof.
  intros Hp Hx. unfold scattered. rewrite pairs_from, filter_map, map_map. cbn [fst snd].
  rewrite (filter_one (PI p) (sl t p) x); auto.
  - apply (sel_nodup np FL); auto.
  - intros y Hy E. apply (in_sel usize lsize np H FL ex PI n ok ls ls_in) in Hy as (Hy & Hhy & _); auto.
    apply (in_sel usize lsize np H FL ex PI n ok ls ls_in) in Hx as (Hx & Hhx & _); auto.
    exact (pk_inj _ _ _ _ _ _ _ _ ok y x p Hp Hy Hx Hhy Hhx E).
Qed.
Lemma scat_out R p x (d : nat -> T) : p < np -> x <> 0 -> H x p = true -> ~ In x (sl t p) ->
  scattered (map (fun x => (ord x, [PI p x])) (sl t p)) R (PI p x) (d (PI p x)) = d (PI p x).
Proof.
  intros Hp Hx0 Hhx Hx. unfold scattered. rewrite pairs_from, filter_map, map_map. cbn [fst snd].
  rewrite filter_none; auto. intros y Hy. apply Nat.eqb_neq. intros E. pose proof Hy as Hy'.
  apply (in_sel usize lsize np H FL ex PI n ok ls ls_in) in Hy' as (Hy0 & Hhy & _); auto.
  apply Hx. replace x with y; auto. exact (pk_inj _ _ _ _ _ _ _ _ ok y x p Hp Hy0 Hx0 Hhy Hhx E).
Qed.
End Run.

(** A handle of the all-reduce method. *)
Record ar_handle (usize np : nat) (ids : nat -> list Z) (hs : nat -> gs_data) (L : list nat) (ord : nat -> nat) (ls : nat -> list nat) : Prop := {
  ah_ord : forall i x, nth_error L i = Some x -> ord x = i;
  ah_in : forall p x, p < np -> (In x (ls p) <-> x <> 0 /\ exists q, q < np /\ exchange ids x p q = true);
  ah_L : forall p x, p < np -> In x (ls p) -> In x L;
  ah_nodup : forall p, p < np -> NoDup (ls p);
  ah_len : length L <= UINT_MAX usize;
  ah_r : forall p, p < np -> g_r (hs p) = RAr (allreduce_setup usize (pr_rows (fun x p => only_flagged (ids p) x) (fun p => prim (ids p)) ord ls p) (length L))
}.

Section Setup.
Variable usize lsize INT_MAX np : nat.
Variable ids : nat -> list Z.
Hypothesis fits : setup_fits usize lsize INT_MAX np ids.

Lemma ar_rows ord N top : numbering np ids ord N -> (forall p, p < np -> topology_ok np ids ord N p (top p)) ->
  exists L ls, ar_handle usize np ids (fun p => GS [] [] [] (RAr (allreduce_setup usize (t_pr (top p)) (t_total (top p))))) L ord ls.
Proof.
  intros num top_ok. destruct num as (L & ND & HN & HL & HO).
  destruct (finite_choice (fun p l => t_pr (top p) = map (fun x => PR x (ord x) (prim (ids p) x) (only_flagged (ids p) x)) l /\
     Permutation (filter (sharing np ids p) (labels (ids p))) l) [] np) as [ls Hls].
  { intros p Hp. destruct (Permutation_map_inv _ _ (tok_pr _ _ _ _ _ _ (top_ok p Hp))) as (l & E & P). eauto. }
  assert (HS : forall p x, p < np -> (In x (ls p) <-> x <> 0 /\ exists q, q < np /\ exchange ids x p q = true)).
  { intros p x Hp. destruct (Hls p Hp) as [_ HP]. rewrite <- HP, filter_In, in_labels. unfold sharing. split.
    - intros [[Hx Hh] Hs]. split; auto. destruct (partners np ids x p) as [|q l] eqn:Eq; [discriminate|].
      exists q. apply in_partners. rewrite Eq. left; auto.
    - intros (Hx & q & Hq & He). pose proof (proj2 (in_partners np ids x p q) (conj Hq He)) as Hin. apply exchange_iff in He.
      split; [tauto|]. destruct (partners np ids x p); [destruct Hin|auto]. }
  exists L, ls. constructor; auto.
  - intros p x Hp Hin. apply HS in Hin as (Hx & q & Hq & He); auto. apply HL. split; auto. eapply shared_iff'; eauto.
  - intros p Hp. destruct (Hls p Hp) as [_ HP]. rewrite <- HP. apply NoDup_filter, labels_NoDup.
  - eapply shared_count; eauto.
  - intros p Hp. cbn [g_r]. rewrite (proj1 (Hls p Hp)), (tok_total _ _ _ _ _ _ (top_ok p Hp)), HN. reflexivity.
Qed.

Lemma setup_ar hs : setup_gives usize lsize INT_MAX np ids false gs_all_reduce hs -> exists L ord ls, ar_handle usize np ids hs L ord ls.
Proof.
  intros G. destruct fits as [us ls np1 npl mx fi lb pb] eqn:EF. clear EF.
  destruct (get_topology_goes usize lsize INT_MAX np ids us ls np1 npl mx fi lb pb) as (ord & N & top & num & tok & GT).
  destruct (ar_rows ord N top num tok) as (L & lx & A).
  exists L, ord, lx. destruct A as [A1 A2 A3 A4 A5 A6]. constructor; auto. intros p Hp.
  set (hs' := fun p => GS (local_map usize (t_nz (top p)) true) (local_map usize (t_nz (top p)) false) (flagged_primaries_map usize (t_nz (top p)))
    (RAr (allreduce_setup usize (t_pr (top p)) (t_total (top p))))).
  assert (E : forall p, p < np -> hs p = hs' p).
  { apply (returns_fun_at np _ _ _ G). apply goes_always_fun. unfold gs_setup.
    eapply goes_trans; [exact (goes_bind np (fun p top => pbind (plift (if false then '(t, _) <- make_topology_unique usize lsize p top None ;; Ok t else Ok top)) (fun top =>
      pbind (remote_setup usize lsize np p gs_all_reduce top) (fun r =>
      Ret (GS (local_map usize (t_nz top) true) (local_map usize (t_nz top) false) (flagged_primaries_map usize (t_nz top)) r)))) _ _ GT)|].
    apply goes_ext. intros q Hq. reflexivity. }
  rewrite (E p Hp). exact (A6 p Hp).
Qed.
End Setup.

Section Copies.
Variable usize lsize INT_MAX np : nat.
Variable ids : nat -> list Z.
Hypothesis fits : setup_fits usize lsize INT_MAX np ids.
Variable hs : nat -> gs_data.
Hypothesis given : setup_gives usize lsize INT_MAX np ids false gs_all_reduce hs.
Variable mode : gs_mode.
Variable vn : nat.
Variable t : bool.
Notation UMAX := (UINT_MAX usize).
Notation H := (fun x p => has (ids p) x).
Notation FL := (fun x p => only_flagged (ids p) x).
Notation PI := (fun p => prim (ids p)).
Context {T : Type}.
Variable op : T -> T -> T.
Variable e : T.

Lemma ok : handle_ok usize np ids hs.
Proof. eapply setup_handle; eauto. Qed.

(** Before the exchange: a representative whose label is only flagged holds e when transpose = 0. *)
Lemma before_any v u p : p < np -> data_ok mode vn u (length (ids p)) v ->
  exists u1 f1, gs_before op e UMAX mode vn t (hs p) u = Ok u1 /\ data_ok mode vn u1 (length (ids p)) f1 /\
  (t = false -> forall x k, x <> 0 -> has (ids p) x = true -> only_flagged (ids p) x = true -> k < vn -> f1 (prim (ids p) x) k = e).
Proof.
  intros Hp D. set (l := ids p). pose proof (hk_size _ _ _ _ ok p Hp) as Fit. fold l in Fit.
  assert (HG : exists u1, local_gather op UMAX mode vn (if t then g_local1 (hs p) else g_local0 (hs p)) u = Ok u1 /\
     data_ok mode vn u1 (length l) (fun i k => gathered op (local_groups (negb t) l) (fun j => v j k) i (v i k))).
  { replace (if t then g_local1 (hs p) else g_local0 (hs p)) with (encode UMAX (local_groups (negb t) l))
      by (destruct t; [rewrite (hk_local1 _ _ _ _ ok p Hp)|rewrite (hk_local0 _ _ _ _ ok p Hp)]; auto).
    apply local_gather_ok; auto. apply local_valid; auto. apply local_apart. }
  destruct HG as (u1 & E1 & D1). unfold gs_before. rewrite E1. cbn [bind].
  destruct t eqn:Et.
  - eexists _, _. split; [reflexivity|]. split; [exact D1|discriminate].
  - set (is := map (prim l) (filter (only_flagged l) (labels l))).
    assert (HI : forall i, In i is -> i < length l).
    { intros i Hi. apply in_map_iff in Hi as (x & <- & Hx). apply filter_In in Hx as [Hx _]. apply in_labels in Hx as [_ Hx]. apply prim_lt; auto. }
    destruct (init_ok e UMAX mode vn is (length l) u1 _ Fit HI D1) as (u2 & E2 & D2).
    rewrite (hk_flagged _ _ _ _ ok p Hp). fold l. fold is. eexists _, _. split; [exact E2|]. split; [exact D2|].
    intros _ x k Hx Hh Hf Hk. cbn beta. replace (existsb (Nat.eqb (prim l x)) is) with true; auto. symmetry. apply GsArProof.existsb_in.
    apply in_map. apply filter_In. split; auto. apply in_labels. auto.
Qed.

Theorem ar_copies v u buf w f : (forall p, p < np -> data_ok mode vn (u p) (length (ids p)) (v p)) ->
  (forall p, p < np -> length (buf p) = vn * buffer_size (g_r (hs p))) ->
  (forall p, p < np -> data_ok mode vn (w p) (length (ids p)) (f p)) ->
  always_returns (map (fun p => gs_aux op e UMAX mode vn np p t (hs p) (u p) (buf p)) (seq 0 np)) (map w (seq 0 np)) ->
  forall p q i j k, p < np -> q < np -> i < length (ids p) -> j < length (ids q) -> k < vn ->
  label_at (ids p) i <> 0 -> label_at (ids p) i = label_at (ids q) j ->
  (t = true -> is_flagged (ids p) i = false /\ is_flagged (ids q) j = false) -> f p i k = f q j k.
Proof.
  intros Hu Hb Dw V. destruct (setup_ar usize lsize INT_MAX np ids fits hs given) as (L & ord & ls & A).
  destruct (finite_choice (fun p (x : udata T * (nat -> nat -> T)) => gs_before op e UMAX mode vn t (hs p) (u p) = Ok (fst x) /\ data_ok mode vn (fst x) (length (ids p)) (snd x) /\
    (t = false -> forall y k, y <> 0 -> has (ids p) y = true -> only_flagged (ids p) y = true -> k < vn -> snd x (prim (ids p) y) k = e)) (UFlat [], fun _ _ => e) np) as [x1 H1].
  { intros p Hp. destruct (before_any (v p) (u p) p Hp (Hu p Hp)) as (a & b & R). exists (a, b). exact R. }
  set (u1 := fun p => fst (x1 p)). set (f1 := fun p => snd (x1 p)).
  destruct (ar_exec_any op e usize lsize np (sf_np1 _ _ _ _ _ fits) H FL (exchange ids) PI (fun p => length (ids p)) (plan _ _ _ _ _ fits) L ord ls
    (ah_ord _ _ _ _ _ _ _ A) (ah_in _ _ _ _ _ _ _ A) (ah_L _ _ _ _ _ _ _ A) (ah_nodup _ _ _ _ _ _ _ A) (ah_len _ _ _ _ _ _ _ A) mode vn t f1 u1) with (buf := buf) as (u2 & Rv & D2 & G2).
  { intros p Hp. apply (H1 p Hp). }
  { intros p Hp. rewrite Hb, (ah_r _ _ _ _ _ _ _ A) by auto. reflexivity. }
  set (f2 := fun p i k => scattered (map (fun x => (ord x, [PI p x])) (sel FL ls t p)) (fun j => Rv j k) i (f1 p i k)).
  destruct (finite_choice (fun p u3 => gs_after UMAX mode vn t (hs p) (u2 p) = Ok u3 /\
    data_ok mode vn u3 (length (ids p)) (fun i k => scattered (local_groups t (ids p)) (fun j => f2 p j k) i (f2 p i k))) (UFlat []) np) as [w3 H3].
  { intros p Hp. unfold gs_after. replace (if t then g_local0 (hs p) else g_local1 (hs p)) with (encode UMAX (local_groups t (ids p)))
      by (destruct t; [rewrite (hk_local0 _ _ _ _ ok p Hp)|rewrite (hk_local1 _ _ _ _ ok p Hp)]; auto).
    apply local_scatter_ok; [apply local_valid; auto; apply (hk_size _ _ _ _ ok p Hp)|apply local_apart|]. exact (D2 p Hp). }
  assert (E : forall p, p < np -> w p = w3 p).
  { apply (returns_fun_at np _ _ _ V). apply goes_always_fun.
    eapply goes_trans; [|eapply goes_trans; [exact (goes_bind np (fun p u => plift (gs_after UMAX mode vn t (hs p) u)) _ _ G2)|]].
    - apply goes_ext. intros p Hp. unfold gs_aux. destruct (H1 p Hp) as [-> _]. cbn [plift pbind]. rewrite (ah_r _ _ _ _ _ _ _ A) by auto. reflexivity.
    - apply goes_ext. intros p Hp. destruct (H3 p Hp) as [-> _]. auto. }
  assert (S : forall p m k, p < np -> m < length (ids p) -> k < vn -> label_at (ids p) m <> 0 -> (t = true -> is_flagged (ids p) m = false) ->
    f p m k = f2 p (prim (ids p) (label_at (ids p) m)) k).
  { intros p m k Hp Hm Hk Hx Fm. set (l := ids p) in *. set (x := label_at l m) in *.
    assert (Hh : has l x = true) by (apply has_label; auto).
    destruct (H3 p Hp) as [_ D3]. rewrite <- (E p Hp) in D3.
    assert (Q : f p m k = scattered (local_groups t l) (fun j => f2 p j k) m (f2 p m k)) by (apply (data_at_eq mode vn (w p) (length l) (f p) (fun i k => scattered (local_groups t l) (fun j => f2 p j k) i (f2 p i k))); auto; apply Dw; auto).
    rewrite Q. destruct (Nat.eq_dec m (prim l x)) as [Em|N]; [rewrite Em|].
    - apply local_scattered_other. intros y Hy Hhy Hin. apply (in_members t l y _ Hhy) in Hin as (C & B & _). apply in_all_at in C as [_ C].
      rewrite (prim_label l x Hh) in C. subst y. auto.
    - apply (local_scattered l t (fun j => f2 p j k) x); auto. apply in_members; auto. split; [apply in_all_at; split; auto|auto]. }
  intros p q i j k Hp Hq Hi Hj Hk Hx Hl Hf. rewrite (S p i k), (S q j k); auto; try (intros; apply Hf; auto); try congruence. rewrite <- Hl.
  set (x := label_at (ids p) i) in *. destruct (Nat.eq_dec p q) as [<-|N]; auto.
  assert (Hhp : has (ids p) x = true) by (apply has_label; auto). assert (Hhq : has (ids q) x = true) by (rewrite Hl; apply has_label; auto).
  pose proof (ah_in _ _ _ _ _ _ _ A) as AI.
  assert (X : only_flagged (ids p) x && only_flagged (ids q) x = false -> In x (ls p) /\ In x (ls q)).
  { intros F. assert (EX : exchange ids x p q = true) by (apply exchange_iff; auto). split; apply AI; auto; split; auto; [exists q|exists p; rewrite exchange_sym]; auto. }
  assert (IN : In x (sel FL ls t p) -> In x (sel FL ls t q) -> f2 p (prim (ids p) x) k = f2 q (prim (ids q) x) k).
  { intros I1 I2. unfold f2.
    rewrite (scat_in usize lsize np H FL (exchange ids) PI (fun p => length (ids p)) (plan _ _ _ _ _ fits) ord ls AI (ah_nodup _ _ _ _ _ _ _ A) t (fun j => Rv j k) p x (fun i => f1 p i k)); auto.
    rewrite (scat_in usize lsize np H FL (exchange ids) PI (fun p => length (ids p)) (plan _ _ _ _ _ fits) ord ls AI (ah_nodup _ _ _ _ _ _ _ A) t (fun j => Rv j k) q x (fun i => f1 q i k)); auto. }
  destruct t eqn:Et.
  - destruct Hf as [F1 F2]; auto. assert (U : forall r m, m < length (ids r) -> label_at (ids r) m = x -> is_flagged (ids r) m = false -> only_flagged (ids r) x = false).
    { intros r m Hm Em Fm. unfold only_flagged. apply Nat.eqb_neq. intros C. apply length_zero_iff_nil in C.
      assert (In m (unflagged_at (ids r) x)) by (apply in_unflagged_at; auto). rewrite C in *. auto. }
    pose proof (U p i Hi eq_refl F1) as Up. pose proof (U q j Hj (eq_sym Hl) F2) as Uq. destruct X as [I1 I2]; [rewrite Up; auto|].
    apply IN; apply filter_In; split; auto; cbn; [rewrite Up|rewrite Uq]; auto.
  - assert (SE : forall r, In x (ls r) -> In x (sel FL ls false r)) by (intros r Hr; apply filter_In; auto).
    destruct (only_flagged (ids p) x && only_flagged (ids q) x) eqn:Eb.
    + apply andb_true_iff in Eb as [B1 B2].
      assert (K : forall a b, a < np -> b < np -> a <> b -> has (ids b) x = true -> only_flagged (ids b) x = true -> only_flagged (ids a) x = true -> In x (ls a) -> In x (ls b)).
      { intros a b Ha Hb0 Nab Hb1 Fb Fa Hin. apply AI in Hin as (_ & r & Hr & Er); auto. pose proof Er as Er'. apply exchange_iff in Er as (_ & Hhr & _ & Fr).
        apply AI; auto. split; auto. exists r. split; auto. rewrite Fa in Fr. cbn in Fr. apply exchange_iff. split; auto. split; auto. split.
        - intros ->. congruence.
        - rewrite Fr. apply andb_false_r. }
      destruct (in_dec Nat.eq_dec x (ls p)) as [I1|I1].
      * apply IN; apply SE; auto. apply (K p q); auto.
      * assert (I2 : ~ In x (ls q)) by (intros I2; apply I1; apply (K q p); auto). unfold f2.
        rewrite (scat_out usize lsize np H FL (exchange ids) PI (fun p => length (ids p)) (plan _ _ _ _ _ fits) ord ls AI false (fun j => Rv j k) p x (fun i => f1 p i k)); auto;
          [|intros C; apply filter_In in C; tauto].
        rewrite (scat_out usize lsize np H FL (exchange ids) PI (fun p => length (ids p)) (plan _ _ _ _ _ fits) ord ls AI false (fun j => Rv j k) q x (fun i => f1 q i k)); auto;
          [|intros C; apply filter_In in C; tauto].
        unfold f1. rewrite (proj2 (proj2 (H1 p Hp))), (proj2 (proj2 (H1 q Hq))); auto.
    + destruct X as [I1 I2]; auto.
Qed.
End Copies.
