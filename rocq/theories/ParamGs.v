(** Parametricity of the kernels (Kernels.v), the all-reduce (Comm.v) and the execution of a
    gather-scatter (GsExec.v, GsCr.v, Gs.v): related data give related results, for operations that
    preserve the relation. *)
From Verif Require Import Base BaseLemmas Net NetProof Param Sort Sarray Ops Kernels Comm Transfer GsTop GsExec GsCr Gs.

Section Param.
Context {A B : Type}.
Variable R : A -> B -> Prop.
Variable op : A -> A -> A.
Variable op' : B -> B -> B.
Variable e : A.
Variable e' : B.
Hypothesis Hop : forall a b c d, R a b -> R c d -> R (op a c) (op' b d).
Hypothesis He : R e e'.
Variable SENT : nat.
Notation RL := (Forall2 R).
Notation RLL := (Forall2 RL).

Definition rin (i : option (list A)) (i' : option (list B)) : Prop := ropt RL i i'.
Lemma r_src i i' o o' : rin i i' -> RL o o' -> RL (src i o) (src i' o').
Proof. destruct i, i'; cbn; tauto. Qed.
Lemma r_alias i i' m : rin i i' -> alias_ok SENT i m = alias_ok SENT i' m.
Proof. destruct i, i'; cbn; tauto. Qed.

Ltac rb := eapply rres_bind; [first [apply (f2_rd R)|apply (f2_wr R)|eassumption|eauto]; eauto|intros ? ? ?].

Lemma r_gather_array n : forall o o' i i', RL o o' -> RL i i' -> rres RL (gather_array op o i n) (gather_array op' o' i' n).
Proof.
  induction n as [|n IH]; intros o o' i i' Ho Hi; cbn [gather_array]; [auto|]. destruct Ho as [|p p' o o' Hp Ho]; [exact I|]. destruct Hi as [|q q' i i' Hq Hi]; [exact I|].
  eapply rres_bind; [apply IH; eauto|]. intros a b H. cbn. constructor; auto.
Qed.
Lemma r_init_array n : forall o o', RL o o' -> rres RL (init_array e o n) (init_array e' o' n).
Proof.
  induction n as [|n IH]; intros o o' Ho; cbn [init_array]; [auto|]. destruct Ho as [|p p' o o' Hp Ho]; [exact I|].
  eapply rres_bind; [apply IH; eauto|]. intros a b H. cbn. constructor; auto.
Qed.
Definition rpos (s : @at_pos A) (s' : @at_pos B) : Prop :=
  match s, s' with
  | AtHead, AtHead => True
  | AtFirst i t, AtFirst j t' => i = j /\ R t t'
  | AtNext i t, AtNext j t' => i = j /\ R t t'
  | _, _ => False
  end.
Lemma r_gather_loop i i' io st m : rin i i' -> forall s s' o o', rpos s s' -> RL o o' -> rres RL (gather_loop op SENT i io st s m o) (gather_loop op' SENT i' io st s' m o').
Proof.
  intros Hi. induction m as [|x m IH]; intros s s' o o' Hs Ho; cbn [gather_loop]; [exact I|].
  destruct s, s'; cbn [rpos] in Hs; try tauto.
  - destruct (x =? SENT); [auto|]. eapply rres_bind; [apply (f2_rd R); eauto|]. intros; apply IH; cbn; auto.
  - destruct Hs as [<- Ht]. eapply rres_bind; [apply (f2_rd R), r_src; eauto|]. intros; apply IH; cbn; auto.
  - destruct Hs as [<- Ht]. destruct (x =? SENT).
    + eapply rres_bind; [apply (f2_wr R); eauto|]. intros; apply IH; cbn; auto.
    + eapply rres_bind; [apply (f2_rd R), r_src; eauto|]. intros; apply IH; cbn; auto.
Qed.
Lemma r_gather_strided i i' io st m o o' : rin i i' -> RL o o' -> rres RL (gather_strided op SENT i io st m o) (gather_strided op' SENT i' io st m o').
Proof. intros Hi Ho. unfold gather_strided. rewrite (r_alias i i' m Hi). destruct (alias_ok SENT i' m); [apply r_gather_loop; cbn; auto|exact I]. Qed.
Lemma r_scatter_loop oo os i i' io st m : rin i i' -> forall s s' o o', rpos s s' -> RL o o' -> rres RL (scatter_loop SENT oo os i io st s m o) (scatter_loop SENT oo os i' io st s' m o').
Proof.
  intros Hi. induction m as [|x m IH]; intros s s' o o' Hs Ho; cbn [scatter_loop]; [exact I|].
  destruct s, s'; cbn [rpos] in Hs; try tauto.
  - destruct (x =? SENT); [auto|]. eapply rres_bind; [apply (f2_rd R), r_src; eauto|]. intros; apply IH; cbn; auto.
  - destruct Hs as [<- Ht]. eapply rres_bind; [apply (f2_wr R); eauto|]. intros; apply IH; cbn; auto.
  - destruct Hs as [<- Ht]. destruct (x =? SENT); [apply IH; cbn; auto|]. eapply rres_bind; [apply (f2_wr R); eauto|]. intros; apply IH; cbn; auto.
Qed.
Lemma r_scatter_strided oo os i i' io st m o o' : rin i i' -> RL o o' -> rres RL (scatter_strided SENT oo os i io st m o) (scatter_strided SENT oo os i' io st m o').
Proof. intros Hi Ho. unfold scatter_strided. rewrite (r_alias i i' m Hi). destruct (alias_ok SENT i' m); [apply r_scatter_loop; cbn; auto|exact I]. Qed.
Lemma r_init_ m : forall o o', RL o o' -> rres RL (init_ e SENT m o) (init_ e' SENT m o').
Proof. induction m as [|x m IH]; intros o o' Ho; cbn [init_]; [exact I|]. destruct (x =? SENT); [auto|]. eapply rres_bind; [apply (f2_wr R); eauto|]. intros; apply IH; auto. Qed.
Lemma r_vec_acc i i' n : rin i i' -> forall pk q o o', RL o o' -> rres RL (vec_acc op i n pk q o) (vec_acc op' i' n pk q o').
Proof.
  intros Hi. induction n as [|n IH]; intros pk q o o' Ho; cbn [vec_acc]; [exact I|].
  eapply rres_bind; [apply (f2_rd R); eauto|]. intros a b Hab. eapply rres_bind; [apply (f2_rd R), r_src; eauto|]. intros c d Hcd.
  eapply rres_bind; [apply (f2_wr R); eauto|]. intros o1 o1' Ho1. destruct n; [auto|]. apply IH; auto.
Qed.
Lemma r_gather_vec_loop i i' vn m : rin i i' -> forall s o o', RL o o' -> rres RL (gather_vec_loop op SENT i vn s m o) (gather_vec_loop op' SENT i' vn s m o').
Proof.
  intros Hi. induction m as [|x m IH]; intros s o o' Ho; cbn [gather_vec_loop]; [exact I|].
  destruct s; try (destruct (x =? SENT); [auto|]); try (apply IH; auto); (eapply rres_bind; [apply r_vec_acc; eauto|]; intros; apply IH; auto).
Qed.
Lemma r_gather_vec i i' vn m o o' : rin i i' -> RL o o' -> rres RL (gather_vec op SENT i vn m o) (gather_vec op' SENT i' vn m o').
Proof. intros Hi Ho. unfold gather_vec. rewrite (r_alias i i' m Hi). destruct (alias_ok SENT i' m); [apply r_gather_vec_loop; auto|exact I]. Qed.
Lemma r_copy i i' n : rin i i' -> forall p q o o', RL o o' -> rres RL (copy_elems i n p q o) (copy_elems i' n p q o').
Proof.
  intros Hi. induction n as [|n IH]; intros p q o o' Ho; cbn [copy_elems]; [auto|].
  eapply rres_bind; [apply (f2_rd R), r_src; eauto|]. intros c d Hcd. eapply rres_bind; [apply (f2_wr R); eauto|]. intros o1 o1' Ho1. apply IH; auto.
Qed.
Lemma r_scatter_vec_loop i i' vn m : rin i i' -> forall s o o', RL o o' -> rres RL (scatter_vec_loop SENT i vn s m o) (scatter_vec_loop SENT i' vn s m o').
Proof.
  intros Hi. induction m as [|x m IH]; intros s o o' Ho; cbn [scatter_vec_loop]; [exact I|].
  destruct s; try (destruct (x =? SENT); [auto|]); try (apply IH; auto); (eapply rres_bind; [apply r_copy; eauto|]; intros; apply IH; auto).
Qed.
Lemma r_scatter_vec i i' vn m o o' : rin i i' -> RL o o' -> rres RL (scatter_vec SENT i vn m o) (scatter_vec SENT i' vn m o').
Proof. intros Hi Ho. unfold scatter_vec. rewrite (r_alias i i' m Hi). destruct (alias_ok SENT i' m); [apply r_scatter_vec_loop; auto|exact I]. Qed.
Lemma r_fill n : forall p o o', RL o o' -> rres RL (fill e n p o) (fill e' n p o').
Proof. induction n as [|n IH]; intros p o o' Ho; cbn [fill]; [exact I|]. eapply rres_bind; [apply (f2_wr R); eauto|]. intros o1 o1' Ho1. destruct n; [auto|]. apply IH; auto. Qed.
Lemma r_init_vec vn m : forall o o', RL o o' -> rres RL (init_vec e SENT vn m o) (init_vec e' SENT vn m o').
Proof. induction m as [|x m IH]; intros o o' Ho; cbn [init_vec]; [exact I|]. destruct (x =? SENT); [auto|]. eapply rres_bind; [apply r_fill; eauto|]. intros; apply IH; auto. Qed.
Lemma r_many (f : option (list A) -> list A -> res (list A)) (f' : option (list B) -> list B -> res (list B)) vn :
  (forall i i' o o', rin i i' -> RL o o' -> rres RL (f i o) (f' i' o')) -> forall i i' o o', ropt RLL i i' -> RLL o o' -> rres RLL (many f i vn o) (many f' i' vn o').
Proof.
  intros Hf. induction vn as [|n IH]; intros i i' o o' Hi Ho; cbn [many]; [auto|]. destruct Ho as [|a a' o o' Ha Ho]; [exact I|].
  destruct i as [i|], i' as [i'|]; cbn in Hi; try tauto.
  - destruct Hi as [|b b' i i' Hb Hi]; [exact I|]. eapply rres_bind; [apply Hf; eauto|]. intros c d Hcd. eapply rres_bind; [apply IH; eauto|]. intros; cbn; auto.
  - eapply rres_bind; [apply Hf; eauto; exact I|]. intros c d Hcd. eapply rres_bind; [apply (IH None None); eauto|]. intros; cbn; auto.
Qed.
Lemma r_gather_vec_to_many i i' vn m : RL i i' -> forall n k o o', RLL o o' -> rres RLL (gather_vec_to_many_loop op SENT i vn k n m o) (gather_vec_to_many_loop op' SENT i' vn k n m o').
Proof.
  intros Hi. induction n as [|n IH]; intros k o o' Ho; cbn [gather_vec_to_many_loop]; [auto|]. destruct Ho as [|a a' o o' Ha Ho]; [exact I|].
  eapply rres_bind; [apply (r_gather_strided (Some i) (Some i')); eauto|]. intros c d Hcd. eapply rres_bind; [apply IH; eauto|]. intros; cbn; auto.
Qed.
Lemma r_scatter_many_to_vec vn m : forall n i i' k o o', RLL i i' -> RL o o' -> rres RL (scatter_many_to_vec_loop SENT i vn k n m o) (scatter_many_to_vec_loop SENT i' vn k n m o').
Proof.
  induction n as [|n IH]; intros i i' k o o' Hi Ho; cbn [scatter_many_to_vec_loop]; [auto|]. destruct Hi as [|a a' i i' Ha Hi]; [exact I|].
  eapply rres_bind; [apply (r_scatter_strided k vn (Some a) (Some a')); eauto|]. intros c d Hcd. apply IH; auto.
Qed.
Lemma r_scatter_vec_to_many i i' vn m : RL i i' -> forall n k o o', RLL o o' -> rres RLL (scatter_vec_to_many_loop SENT i vn k n m o) (scatter_vec_to_many_loop SENT i' vn k n m o').
Proof.
  intros Hi. induction n as [|n IH]; intros k o o' Ho; cbn [scatter_vec_to_many_loop]; [auto|]. destruct Ho as [|a a' o o' Ha Ho]; [exact I|].
  eapply rres_bind; [apply (r_scatter_strided 0 1 (Some i) (Some i')); eauto|]. intros c d Hcd. eapply rres_bind; [apply IH; eauto|]. intros; cbn; auto.
Qed.

(** ** Data of the user *)
Variable mode : gs_mode.
Variable vn : nat.
Definition ru (u : udata A) (u' : udata B) : Prop :=
  match u, u' with UFlat l, UFlat l' => RL l l' | UMany l, UMany l' => RLL l l' | _, _ => False end.
Ltac um := intros Hu; destruct mode; match goal with |- _ => idtac end.
Lemma r_flat x y : rres RL x y -> rres ru (l <- x ;; Ok (UFlat l)) (l <- y ;; Ok (UFlat l)).
Proof. intros H. eapply rres_bind; [exact H|]. intros; cbn; auto. Qed.
Lemma r_umany x y : rres RLL x y -> rres ru (l <- x ;; Ok (UMany l)) (l <- y ;; Ok (UMany l)).
Proof. intros H. eapply rres_bind; [exact H|]. intros; cbn; auto. Qed.
Lemma r_local_gather m u u' : ru u u' -> rres ru (local_gather op SENT mode vn m u) (local_gather op' SENT mode vn m u').
Proof.
  intros Hu. unfold local_gather. destruct mode, u, u'; cbn in Hu; try tauto; try exact I.
  - apply r_flat, r_gather_strided; cbn; auto.
  - apply r_flat, r_gather_vec; cbn; auto.
  - apply r_umany, r_many; cbn; auto. intros. apply r_gather_strided; auto.
Qed.
Lemma r_local_scatter m u u' : ru u u' -> rres ru (local_scatter SENT mode vn m u) (local_scatter SENT mode vn m u').
Proof.
  intros Hu. unfold local_scatter. destruct mode, u, u'; cbn in Hu; try tauto; try exact I.
  - apply r_flat, r_scatter_strided; cbn; auto.
  - apply r_flat, r_scatter_vec; cbn; auto.
  - apply r_umany, r_many; cbn; auto. intros. apply r_scatter_strided; auto.
Qed.
Lemma r_init m u u' : ru u u' -> rres ru (init e SENT mode vn m u) (init e' SENT mode vn m u').
Proof.
  intros Hu. unfold init. destruct mode, u, u'; cbn in Hu; try tauto; try exact I.
  - apply r_flat, r_init_; cbn; auto.
  - apply r_flat, r_init_vec; cbn; auto.
  - apply r_umany, r_many; cbn; auto. intros. apply r_init_; auto.
Qed.
Lemma r_scatter_to_buf m u u' b b' : ru u u' -> RL b b' -> rres RL (scatter_to_buf SENT mode vn m u b) (scatter_to_buf SENT mode vn m u' b').
Proof.
  intros Hu Hb. unfold scatter_to_buf. destruct mode, u, u'; cbn in Hu; try tauto; try exact I.
  - apply r_scatter_strided; cbn; auto.
  - apply r_scatter_vec; cbn; auto.
  - apply r_scatter_many_to_vec; auto.
Qed.
Lemma r_gather_from_buf m u u' b b' : ru u u' -> RL b b' -> rres ru (gather_from_buf op SENT mode vn m u b) (gather_from_buf op' SENT mode vn m u' b').
Proof.
  intros Hu Hb. unfold gather_from_buf. destruct mode, u, u'; cbn in Hu; try tauto; try exact I.
  - apply r_flat, r_gather_strided; cbn; auto.
  - apply r_flat, r_gather_vec; cbn; auto.
  - apply r_umany, r_gather_vec_to_many; auto.
Qed.
Lemma r_scatter_from_buf m u u' b b' : ru u u' -> RL b b' -> rres ru (scatter_from_buf SENT mode vn m u b) (scatter_from_buf SENT mode vn m u' b').
Proof.
  intros Hu Hb. unfold scatter_from_buf. destruct mode, u, u'; cbn in Hu; try tauto; try exact I.
  - apply r_flat, r_scatter_strided; cbn; auto.
  - apply r_flat, r_scatter_vec; cbn; auto.
  - apply r_umany, r_scatter_vec_to_many; auto.
Qed.

(** ** Exchanges *)
Lemma r_pw_sends me ms : forall b b', RL b b' -> Forall2 (rsend R) (pw_exec_sends vn me ms b) (pw_exec_sends vn me ms b').
Proof. induction ms as [|[p sz] ms IH]; intros b b' Hb; cbn [pw_exec_sends]; constructor; [split; cbn; auto; apply (f2_firstn R); auto|apply IH, (f2_skipn R); auto]. Qed.
Lemma r_pw_received msgs : forall ms ms' b b', RLL ms ms' -> RL b b' -> RL (pw_received vn msgs ms b) (pw_received vn msgs ms' b').
Proof.
  induction msgs as [|[p sz] msgs IH]; intros ms ms' b b' Hm Hb; cbn [pw_received]; [destruct Hm; auto|]. destruct Hm as [|m m' ms ms' H1 H2]; [auto|].
  rewrite (f2_len _ _ _ H1). apply Forall2_app; auto. apply Forall2_app; [apply (f2_firstn R), (f2_skipn R); auto|]. apply IH; auto. apply (f2_skipn R); auto.
Qed.
Lemma r_pw_exec t d me u u' b b' : ru u u' -> RL b b' -> rprog R ru (pw_exec op SENT mode vn t d me u b) (pw_exec op' SENT mode vn t d me u' b').
Proof.
  intros Hu Hb. unfold pw_exec, pw_exec_start. eapply rprog_bind; [apply rprog_lift, r_scatter_to_buf; [eauto|apply (f2_skipn R); eauto]|].
  intros sb sb' Hs. constructor; [apply r_pw_sends; auto|]. intros h. constructor. intros ms ms' Hm. apply rprog_lift, r_gather_from_buf; auto. apply r_pw_received; auto.
Qed.
Lemma r_over m m' b b' : RL m m' -> RL b b' -> RL (over m b) (over m' b').
Proof. intros Hm Hb. unfold over. rewrite (f2_len _ _ _ Hm). apply Forall2_app; auto. apply (f2_skipn R); auto. Qed.
Lemma r_ar_down id n f : forall t v v', RL v v' -> rprog R RL (allreduce_down id n f t v) (allreduce_down id n f t v').
Proof.
  induction f as [|f IH]; intros t v v' Hv; cbn [allreduce_down]; destruct (tn t <=? 1); try (constructor; auto; fail).
  destruct (tbase t =? id); [apply rprog_send; auto; apply (f2_firstn R); auto|]. apply rprog_recv. intros m m' Hm. apply IH, r_over; auto.
Qed.
Lemma r_ar_up np id n c : forall t v v' b b', RL v v' -> RL b b' -> rprog R RL (allreduce_up op np id n c t v b) (allreduce_up op' np id n c t v' b').
Proof.
  induction c as [c IH|c IH|]; intros t v v' b b' Hv Hb; cbn [allreduce_up]; (destruct (np <=? tn t); [apply r_ar_down; auto|]); [| |constructor].
  - cbv zeta. destruct (_ =? id).
    + apply rprog_recv. intros m m' Hm. eapply rprog_bind; [apply rprog_lift, r_gather_array; [eauto|apply r_over; eauto]|]. intros w w' Hw. apply IH; auto. apply r_over; auto.
    + apply rprog_send; [apply (f2_firstn R); auto|]. apply r_ar_down; auto.
  - cbv zeta. destruct (_ =? id).
    + apply rprog_recv. intros m m' Hm. eapply rprog_bind; [apply rprog_lift, r_gather_array; [eauto|apply r_over; eauto]|]. intros w w' Hw. apply IH; auto. apply r_over; auto.
    + apply rprog_send; [apply (f2_firstn R); auto|]. apply r_ar_down; auto.
Qed.
Lemma r_allreduce np id n v v' b b' : RL v v' -> RL b b' -> rprog R RL (comm_allreduce op np id n v b) (comm_allreduce op' np id n v' b').
Proof.
  intros Hv Hb. unfold comm_allreduce. destruct (n =? 0); [constructor; auto|]. unfold allreduce_imp.
  eapply (rprog_bind R eq); [apply rprog_lift; destruct (tree_descend np id (tree_root np)); cbn; auto|]. intros t t' <-. apply r_ar_up; auto.
Qed.
Lemma r_ar_exec t d np me u u' b b' : ru u u' -> RL b b' -> rprog R ru (allreduce_exec op e SENT mode vn t d np me u b) (allreduce_exec op' e' SENT mode vn t d np me u' b').
Proof.
  intros Hu Hb. unfold allreduce_exec. cbv zeta. eapply rprog_bind.
  { apply rprog_lift. eapply rres_bind; [apply r_init_array, (f2_firstn R); eauto|]. intros c c' Hc. apply r_scatter_to_buf; eauto. }
  intros c c' Hc. eapply rprog_bind; [apply r_allreduce; [eauto|apply (f2_firstn R), (f2_skipn R); auto]|]. intros w w' Hw. apply rprog_lift, r_scatter_from_buf; auto.
Qed.
Lemma r_cr_loop np sts : forall k u u' o o' n n', ru u u' -> RL o o' -> RL n n' -> rprog R ru (cr_exec_loop op SENT mode vn np k sts u o n) (cr_exec_loop op' SENT mode vn np k sts u' o' n').
Proof.
  induction sts as [|st rest IH]; intros k u u' o o' n n' Hu Ho Hn; cbn [cr_exec_loop]; [constructor|]. destruct rest as [|st2 rest].
  - apply rprog_lift. eapply rres_bind; [apply r_scatter_from_buf; eauto|]. intros v v' Hv. apply r_gather_from_buf; auto.
  - assert (Hs : RL (skipn (c_r st * vn) n) (skipn (c_r st * vn) n')) by (apply (f2_skipn R); auto).
    cbv zeta. eapply rprog_bind.
    { apply rprog_lift. destruct (k =? 0); [apply r_scatter_to_buf; eauto|]. eapply (rres_bind RL RL).
      - unfold scatter_bb. destruct mode; [apply r_scatter_strided|apply r_scatter_vec|apply r_scatter_vec]; cbn; auto.
      - intros c c' Hc. unfold gather_bb. destruct mode; [apply r_gather_strided|apply r_gather_vec|apply r_gather_vec]; cbn; auto. }
    intros c c' Hc. apply rprog_comm; [constructor; [split; cbn; auto; apply (f2_firstn R); auto|constructor]|]. intros ms ms' Hm.
    apply IH; auto. apply Forall2_app; auto. apply r_pw_received; auto. apply (f2_firstn R); auto.
Qed.
Lemma r_remote np me t r u u' b b' : ru u u' -> RL b b' -> rprog R ru (remote_exec op e SENT mode vn np me t r u b) (remote_exec op' e' SENT mode vn np me t r u' b').
Proof.
  intros Hu Hb. destruct r; cbn [remote_exec]; [apply r_pw_exec; auto| |apply r_ar_exec; auto]. unfold cr_exec. apply r_cr_loop; auto; [apply (f2_firstn R); auto|apply (f2_firstn R), (f2_skipn R); auto].
Qed.
Theorem r_gs_aux np me t g u u' b b' : ru u u' -> RL b b' -> rprog R ru (gs_aux op e SENT mode vn np me t g u b) (gs_aux op' e' SENT mode vn np me t g u' b').
Proof.
  intros Hu Hb. unfold gs_aux. eapply rprog_bind.
  { apply rprog_lift. unfold gs_before. eapply rres_bind; [apply r_local_gather; eauto|]. intros v v' Hv. destruct t; [exact Hv|apply r_init; auto]. }
  intros v v' Hv. eapply rprog_bind; [apply r_remote; eauto|]. intros w w' Hw. apply rprog_lift. unfold gs_after. apply r_local_scatter; auto.
Qed.
End Param.
