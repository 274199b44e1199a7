(** gs_setup with every method. *)
From Verif Require Import Base BaseLemmas Net NetProof Sort SortSpec Sarray Transfer TransferSpec OpsSpec Comm CommSpec CommProof CrystalProof TransferProof2
  Kernels KernelSpec KernelProof ListLemmas
  GsTop GsSpec GsSortProof GsTopProof1 GsTopProof2 GsTopProof3 GsTopProof4 GsExec GsCr Gs GsKernProof GsPwProof1 GsPwProof2 GsPwProof3 GsArProof
  GsLocalProof GsRunProof GsSetupProof GsCrProof6.
From Coq Require Import Permutation.

(** The method of a handle; [N]: the number of shared ids. *)
Definition uses (m : gs_method) (N : nat) (r : gs_remote) : Prop :=
  match m, r with
  | gs_pairwise, RPw _ | gs_crystal_router, RCr _ => True
  | gs_all_reduce, RAr d => ar_buffer_size d = N * 2
  | _, _ => False
  end.
Definition one_method (np : nat) (m : gs_method) (N : nat) (r : nat -> gs_remote) : Prop :=
  exists m', (forall p, p < np -> uses m' N (r p)) /\ match m with gs_auto _ _ => True | _ => m' = m end.

Section Setup.
Variable usize lsize INT_MAX np : nat.
Variable ids : nat -> list Z.
Hypothesis fits : setup_fits usize lsize INT_MAX np ids.
Notation H := (fun x p => has (ids p) x).
Notation FL := (fun x p => only_flagged (ids p) x).
Notation PI := (fun p => prim (ids p)).
Notation n := (fun p => length (ids p)).
Notation canon := (canon lsize np FL (exchange ids) PI).
Notation LB := (concat (map (fun p => labels (ids p)) (seq 0 np))).

Lemma LB_in x p : p < np -> x <> 0 -> has (ids p) x = true -> (exists q, q < np /\ q <> p /\ has (ids q) x = true) -> In x LB.
Proof.
  intros Hp Hx Hh _. apply in_concat. exists (labels (ids p)). split; [|apply in_labels; auto]. apply (in_map (fun p => labels (ids p))). apply in_seq. lia.
Qed.
Lemma LB_has x : In x LB -> x < ulim lsize.
Proof.
  intros Hx. apply in_concat in Hx as (l & Hl & Hx). apply in_map_iff in Hl as (p & <- & Hp). apply in_seq in Hp. apply in_labels in Hx as [_ Hh].
  apply (label_fit _ _ _ _ _ fits p) in Hh; [|lia]. pose proof (ulim_pos lsize). unfold ULONG_MAX in Hh. lia.
Qed.
Lemma LB_size : 3 * length LB <= UINT_MAX usize.
Proof.
  destruct fits as [us ls np1 npl mx fi lb pb]. clear pb. fold (total np (fun p => labels (ids p))). set (t := total _ _) in *.
  pose proof (times3 t (words_for usize (lsize + usize)) usize us). unfold UINT_MAX. pose proof (ulim_pos usize). lia.
Qed.
Lemma canon_size : 2 * length (concat (map canon (seq 0 np))) < ulim usize.
Proof.
  assert (E : length (concat (map canon (seq 0 np))) = total np (fun p => flat_map (fun x => partners np ids x p) (labels (ids p)))).
  { unfold total. assert (B : forall l, (forall p, In p l -> p < np) -> length (concat (map canon l)) = length (concat (map (fun p => flat_map (fun x => partners np ids x p) (labels (ids p))) l))).
    { induction l as [|p l IH]; intros Hl; cbn [map concat]; auto. rewrite !app_length, IH by (intros; apply Hl; right; auto). f_equal.
      rewrite <- (Permutation_length (sh_canon _ _ _ _ _ fits p (Hl p (or_introl eq_refl)))). apply sh_spec_length. }
    apply B. intros p Hp. apply in_seq in Hp. lia. }
  rewrite E. destruct fits as [us ls np1 npl mx fi lb pb]. clear lb. set (t := total _ _) in *.
  pose proof (times3 t (words_for usize (2 * lsize + 3 * usize)) usize us). lia.
Qed.

Lemma cr_setup_all (sh : nat -> list shared_id) : (forall p, p < np -> Permutation (map erase (sh p)) (canon p)) ->
  exists d sh', remote_ok usize np ids (fun p => RCr (d p)) /\ goes np (fun p => cr_setup usize lsize np p (sh p)) (fun p => Ret (d p, sh' p)).
Proof.
  intros P. pose proof (sf_np1 _ _ _ _ _ fits) as np1.
  destruct (cr_setup_goes usize lsize np np1 H FL (exchange ids) PI n (plan _ _ _ _ _ fits) LB LB_in LB_has LB_size canon_size sh P) as (d & sh' & _ & OK & G).
  exists d, sh'. split; auto. intros T op e mode vn t f u buf M Hu Hb Hn.
  exact (cr_exec_goes usize lsize np np1 H FL (exchange ids) PI n (plan _ _ _ _ _ fits) LB LB_in LB_has LB_size canon_size op e M mode vn t d OK f u Hu buf Hb Hn).
Qed.

Variable ord : nat -> nat.
Variable N : nat.
Variable top : nat -> topology.
Hypothesis num : numbering np ids ord N.
Hypothesis top_ok : forall p, p < np -> topology_ok np ids ord N p (top p).

Theorem remote_setup_goes m : exists r, (remote_ok usize np ids r /\ one_method np m N r) /\
  goes np (fun p => remote_setup usize lsize np p m (top p)) (fun p => Ret (r p)).
Proof.
  destruct (pw_setup_all _ _ _ _ _ fits ord N top top_ok) as (d & sh & Hpw & Rpw).
  pose proof (ar_remote_ok _ _ _ _ _ fits ord N top num top_ok) as Rar.
  destruct m as [cf af| | |]; cbn [remote_setup].
  - destruct (cr_setup_all sh) as (c & sh' & Rcr & Gcr); [intros p Hp; apply Hpw; auto|].
    destruct (Nat.ltb_spec 1 np) as [L|L].
    + exists (fun p => if (N.of_nat N <? 100000)%N && af then RAr (allreduce_setup usize (t_pr (top p)) (t_total (top p))) else if cf then RCr (c p) else RPw (d p)).
      split; [split; [destruct ((N.of_nat N <? 100000)%N && af); [exact Rar|destruct cf; auto]|destruct ((N.of_nat N <? 100000)%N && af); [exists gs_all_reduce|destruct cf; [exists gs_crystal_router|exists gs_pairwise]]; (split; [|exact I]); intros p Hp; cbn; auto; rewrite (tok_total _ _ _ _ _ _ (top_ok p Hp)); auto]|].
      eapply goes_trans.
      * apply (goes_ext np _ (fun p => pbind (cr_setup usize lsize np p (sh p)) (fun x => Ret (if (N.of_nat (t_total (top p)) <? 100000)%N && af
          then RAr (allreduce_setup usize (t_pr (top p)) (t_total (top p))) else if cf then RCr (fst x) else RPw (d p))))).
        intros p Hp. unfold auto_setup. destruct (Hpw p Hp) as [-> _]. cbn [plift pbind]. apply Nat.ltb_lt in L. rewrite L. reflexivity.
      * eapply goes_trans; [exact (goes_bind np _ _ _ Gcr)|]. apply goes_ext. intros p Hp. cbn [pbind fst].
        rewrite (tok_total _ _ _ _ _ _ (top_ok p Hp)). reflexivity.
    + exists (fun p => RPw (d p)). split; [split; [auto|exists gs_pairwise; split; [intros p Hp; cbn; auto|exact I]]|]. apply goes_ext. intros p Hp. unfold auto_setup. destruct (Hpw p Hp) as [-> _]. cbn [plift pbind].
      apply Nat.ltb_ge in L. rewrite L. reflexivity.
  - exists (fun p => RPw (d p)). split; [split; [auto|exists gs_pairwise; split; [intros p Hp; cbn; auto|reflexivity]]|]. apply goes_ext. intros p Hp. destruct (Hpw p Hp) as [-> _]. reflexivity.
  - destruct (cr_setup_all (fun p => t_sh (top p))) as (c & sh' & Rcr & Gcr); [intros p Hp; apply (top_canon _ _ _ _ _ fits ord N top top_ok); auto|].
    exists (fun p => RCr (c p)). split; [split; [auto|exists gs_crystal_router; split; [intros p Hp; cbn; auto|reflexivity]]|]. exact (goes_bind np (fun p (x : cr_data * list shared_id) => Ret (RCr (fst x))) _ _ Gcr).
  - eexists. split; [split; [exact Rar|]|apply goes_refl]. exists gs_all_reduce. split; [|reflexivity]. intros p Hp. cbn. rewrite (tok_total _ _ _ _ _ _ (top_ok p Hp)). auto.
Qed.
End Setup.

(** gs_setup without unique, with the method the handle uses. *)
Theorem gs_setup_method usize lsize INT_MAX np ids m : setup_fits usize lsize INT_MAX np ids ->
  exists g N, (handle_ok usize np ids g /\ one_method np m N (fun p => g_r (g p)) /\ exists ord, numbering np ids ord N) /\
  goes np (fun p => gs_setup usize lsize INT_MAX np p (ids p) false m) (fun p => Ret (g p)).
Proof.
  intros fits. destruct fits as [us ls np1 npl mx fi lb pb] eqn:EF. clear EF.
  destruct (get_topology_goes usize lsize INT_MAX np ids us ls np1 npl mx fi lb pb) as (ord & N & top & num & tok & G).
  destruct (remote_setup_goes usize lsize INT_MAX np ids fits ord N top num tok m) as (r & [R RM] & GR).
  exists (fun p => GS (local_map usize (t_nz (top p)) true) (local_map usize (t_nz (top p)) false) (flagged_primaries_map usize (t_nz (top p))) (r p)).
  exists N. split; [split; [eapply handle_from_top; eauto|split; [exact RM|eauto]]|]. unfold gs_setup.
  eapply goes_trans; [exact (goes_bind np (fun p top => pbind (plift (if false then '(t, _) <- make_topology_unique usize lsize p top None ;; Ok t else Ok top)) (fun top =>
    pbind (remote_setup usize lsize np p m top) (fun r =>
    Ret (GS (local_map usize (t_nz top) true) (local_map usize (t_nz top) false) (flagged_primaries_map usize (t_nz top)) r)))) _ _ G)|].
  cbn [pbind plift].
  exact (goes_bind np (fun p r => Ret (GS (local_map usize (t_nz (top p)) true) (local_map usize (t_nz (top p)) false) (flagged_primaries_map usize (t_nz (top p))) r)) _ _ GR).
Qed.

(** gs_setup without unique: every method gives handles for the ids passed. *)
Theorem gs_setup_goes usize lsize INT_MAX np ids m : setup_fits usize lsize INT_MAX np ids ->
  exists g, handle_ok usize np ids g /\
  goes np (fun p => gs_setup usize lsize INT_MAX np p (ids p) false m) (fun p => Ret (g p)).
Proof.
  intros fits. destruct (gs_setup_method usize lsize INT_MAX np ids m fits) as (g & N & (Hok & _) & G). eauto.
Qed.
