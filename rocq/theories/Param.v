(** Relational parametricity, by hand, of message passing: programs over related words have
    related executions. *)
From Verif Require Import Base BaseLemmas Net NetProof.

Definition rres {X Y} (Q : X -> Y -> Prop) (x : res X) (y : res Y) : Prop :=
  match x, y with Ok a, Ok b => Q a b | Ok _, _ | _, Ok _ => False | _, _ => True end.
Lemma rres_bind {X Y X' Y'} (Q : X -> Y -> Prop) (Q' : X' -> Y' -> Prop) x y f g : rres Q x y ->
  (forall a b, Q a b -> rres Q' (f a) (g b)) -> rres Q' (bind x f) (bind y g).
Proof. destruct x, y; cbn; intros; auto; tauto. Qed.
Lemma rres_ub {X Y} (Q : X -> Y -> Prop) : rres Q UB UB.
Proof. exact I. Qed.
Lemma rres_ok {X Y} (Q : X -> Y -> Prop) a b : Q a b -> rres Q (Ok a) (Ok b).
Proof. auto. Qed.
Lemma rres_weaken {X Y} (Q Q' : X -> Y -> Prop) x y : (forall a b, Q a b -> Q' a b) -> rres Q x y -> rres Q' x y.
Proof. destruct x, y; cbn; auto. Qed.

Lemma f2_len {X Y} (Q : X -> Y -> Prop) l l' : Forall2 Q l l' -> length l = length l'.
Proof. induction 1; cbn; auto. Qed.
Section Lists.
Context {X Y : Type}.
Variable Q : X -> Y -> Prop.
Lemma f2_nth l l' : Forall2 Q l l' -> forall i, match nth_error l i, nth_error l' i with Some a, Some b => Q a b | None, None => True | _, _ => False end.
Proof. induction 1 as [|a b l l' H F IH]; intros [|i]; cbn; auto. apply IH. Qed.
Lemma f2_rd l l' i : Forall2 Q l l' -> rres Q (rd l i) (rd l' i).
Proof. intros H. pose proof (f2_nth l l' H i) as N. unfold rd. destruct (nth_error l i), (nth_error l' i); cbn; auto. Qed.
Lemma f2_upd l l' i a b : Forall2 Q l l' -> Q a b -> Forall2 Q (upd l i a) (upd l' i b).
Proof. intros H Hab. revert i. induction H as [|x y l l' E F IH]; intros [|i]; cbn; constructor; auto. Qed.
Lemma f2_wr l l' i a b : Forall2 Q l l' -> Q a b -> rres (Forall2 Q) (wr l i a) (wr l' i b).
Proof. intros H Hab. unfold wr. rewrite (f2_len _ _ _ H). destruct (i <? length l'); cbn; auto using f2_upd. Qed.
Lemma f2_firstn l l' n : Forall2 Q l l' -> Forall2 Q (firstn n l) (firstn n l').
Proof. intros H. revert n. induction H; intros [|n]; cbn; constructor; auto. Qed.
Lemma f2_skipn l l' n : Forall2 Q l l' -> Forall2 Q (skipn n l) (skipn n l').
Proof. intros H. revert n. induction H; intros [|n]; cbn; auto. Qed.
Lemma f2_map {X'} {Y'} (f : X' -> X) (g : Y' -> Y) (S : X' -> Y' -> Prop) l l' : (forall a b, S a b -> Q (f a) (g b)) -> Forall2 S l l' -> Forall2 Q (map f l) (map g l').
Proof. intros H. induction 1; cbn; constructor; auto. Qed.
End Lists.

Section Net.
Context {A B : Type}.
Variable R : A -> B -> Prop.

Definition rsend (s : @send A) (s' : @send B) : Prop := fst s = fst s' /\ Forall2 R (snd s) (snd s').
Inductive rprog {X Y} (Q : X -> Y -> Prop) : prog A X -> prog B Y -> Prop :=
| rp_ret a b : Q a b -> rprog Q (Ret a) (Ret b)
| rp_stop : rprog Q Stop Stop
| rp_post s s' r k k' : Forall2 rsend s s' -> (forall h, rprog Q (k h) (k' h)) -> rprog Q (Post s r k) (Post s' r k')
| rp_wait h k k' : (forall ms ms', Forall2 (Forall2 R) ms ms' -> rprog Q (k ms) (k' ms')) -> rprog Q (Wait h k) (Wait h k').

Lemma rprog_bind {X Y X' Y'} (Q : X -> Y -> Prop) (Q' : X' -> Y' -> Prop) p p' f f' : rprog Q p p' ->
  (forall a b, Q a b -> rprog Q' (f a) (f' b)) -> rprog Q' (pbind p f) (pbind p' f').
Proof. intros H Hf. induction H; cbn [pbind]; [auto|constructor|constructor; auto|constructor; auto]. Qed.
Lemma rprog_lift {X Y} (Q : X -> Y -> Prop) x y : rres Q x y -> rprog Q (plift x) (plift y).
Proof. destruct x, y; cbn; intros H; try (destruct H); constructor; auto. Qed.
Lemma rprog_comm {X Y} (Q : X -> Y -> Prop) s s' r k k' : Forall2 rsend s s' ->
  (forall ms ms', Forall2 (Forall2 R) ms ms' -> rprog Q (k ms) (k' ms')) -> rprog Q (comm s r k) (comm s' r k').
Proof. intros H Hk. constructor; auto. intros h. constructor; auto. Qed.
Lemma rprog_send {X Y} (Q : X -> Y -> Prop) d t m m' k k' : Forall2 R m m' -> rprog Q k k' -> rprog Q (comm_send d t m k) (comm_send d t m' k').
Proof. intros H Hk. apply rprog_comm; auto. constructor; auto. split; auto. Qed.
Lemma rprog_recv {X Y} (Q : X -> Y -> Prop) d t c k k' : (forall m m', Forall2 R m m' -> rprog Q (k m) (k' m')) -> rprog Q (comm_recv d t c k) (comm_recv d t c k').
Proof. intros Hk. apply rprog_comm; auto. intros ms ms' [|m m' l l' Hm []]; [constructor|auto|constructor]. Qed.

(** ** Executions *)
Variable X Y : Type.
Variable Q : X -> Y -> Prop.
Definition rgroup (g : @group A) (g' : @group B) : Prop := Forall2 rsend (fst g) (fst g') /\ snd g = snd g'.
Definition rstate (s : pstate A X) (s' : pstate B Y) : Prop := rprog Q (cur s) (cur s') /\ Forall2 rgroup (log s) (log s').

Lemma r_sends l l' : Forall2 rgroup l l' -> Forall2 rsend (all_sends l) (all_sends l').
Proof. unfold all_sends. induction 1 as [|g g' l l' [H _] F IH]; cbn; [constructor|apply Forall2_app; auto]. Qed.
Lemma r_recvs l l' : Forall2 rgroup l l' -> all_recvs l = all_recvs l'.
Proof. unfold all_recvs. induction 1 as [|g g' l l' [_ H] F IH]; cbn; congruence. Qed.
Lemma r_sent_on c s s' : Forall2 rsend s s' -> Forall2 (Forall2 R) (sent_on c s) (sent_on c s').
Proof.
  unfold sent_on. induction 1 as [|x x' s s' [E H] F IH]; cbn; auto. rewrite E. destruct (key_eqb (fst x') c); cbn; auto.
Qed.
Definition ropt {U V} (S : U -> V -> Prop) (u : option U) (v : option V) : Prop := match u, v with Some a, Some b => S a b | None, None => True | _, _ => False end.
Lemma r_recv_all st st' q r : Forall2 rstate st st' -> forall before, ropt (Forall2 (Forall2 R)) (recv_all st q before r) (recv_all st' q before r).
Proof.
  intros H. induction r as [|[[p t] cap] r IH]; intros before; cbn [recv_all]; [constructor|].
  pose proof (f2_nth _ _ _ H p) as N. destruct (nth_error st p) as [ps|], (nth_error st' p) as [ps'|]; try tauto; try exact I. destruct N as [_ L].
  pose proof (f2_nth _ _ _ (r_sent_on (q, t) _ _ (r_sends _ _ L)) (reqs_on (p, t) before)) as M.
  destruct (nth_error (sent_on (q, t) (all_sends (log ps))) _) as [m|], (nth_error (sent_on (q, t) (all_sends (log ps'))) _) as [m'|]; try tauto; try exact I.
  rewrite (f2_len _ _ _ M). destruct (length m' <=? cap); [|exact I]. specialize (IH (before ++ [(p, t, cap)])).
  destruct (recv_all st q _ r), (recv_all st' q _ r); cbn in *; try tauto. constructor; auto.
Qed.
Lemma r_matched st st' p s s' : Forall2 rstate st st' -> Forall2 rsend s s' -> forall b b', Forall2 rsend b b' -> sends_matched st p b s = sends_matched st' p b' s'.
Proof.
  intros H Hs. induction Hs as [|[[q t] m] [[q' t'] m'] s s' [E Hm] F IH]; intros b b' Hb; cbn [sends_matched]; auto. cbn [fst] in E. injection E as -> ->.
  pose proof (f2_nth _ _ _ H q') as N. destruct (nth_error st q') as [ps|], (nth_error st' q') as [ps'|]; try tauto. destruct N as [_ L].
  rewrite (r_recvs _ _ L), (f2_len _ _ _ (r_sent_on (q', t') _ _ Hb)). f_equal. apply IH. apply Forall2_app; auto. constructor; auto. split; auto.
Qed.
Lemma r_pstep b st st' p : Forall2 rstate st st' -> ropt (Forall2 rstate) (pstep b st p) (pstep b st' p).
Proof.
  intros H. unfold pstep. pose proof (f2_nth _ _ _ H p) as N. destruct (nth_error st p) as [ps|], (nth_error st' p) as [ps'|]; try tauto; try exact I.
  destruct N as [P L]. destruct P as [a c Hac| |s s' r k k' Hs Hk|h k k' Hk]; try exact I.
  - cbn [ropt]. apply f2_upd; auto. split; cbn [cur log]; [rewrite (f2_len _ _ _ L); auto|]. apply Forall2_app; auto. constructor; auto. split; auto.
  - pose proof (f2_nth _ _ _ L h) as N. destruct (nth_error (log ps) h) as [[s r]|], (nth_error (log ps') h) as [[s' r']|]; try tauto; try exact I.
    destruct N as [Ns Nr]. cbn [fst snd] in *. subst r'. pose proof (f2_firstn _ _ _ h L) as Lh. rewrite (r_recvs _ _ Lh).
    pose proof (r_recv_all st st' p r H (all_recvs (firstn h (log ps')))) as M. destruct (recv_all st p _ r), (recv_all st' p _ r); cbn in M; try tauto; try exact I.
    rewrite (r_matched st st' p s s' H Ns _ _ (r_sends _ _ Lh)). destruct (b || _); [|exact I]. cbn [ropt]. apply f2_upd; auto. split; cbn [cur log]; auto.
Qed.
Lemma r_exec sched : forall st st', Forall2 rstate st st' -> ropt (Forall2 rstate) (exec st sched) (exec st' sched).
Proof.
  induction sched as [|[p b] sched IH]; intros st st' H; cbn [exec]; auto. pose proof (r_pstep b st st' p H) as S. destruct (pstep b st p), (pstep b st' p); cbn in S; try tauto; try exact I. auto.
Qed.
(** What is always returned over B is, up to the relation, always returned over A. *)
Theorem r_always ps ps' rs' : Forall2 (rprog Q) ps ps' -> always_returns ps' rs' -> exists rs, Forall2 Q rs rs' /\ always_returns ps rs.
Proof.
  intros H (n & V). destruct (V [] (start ps') eq_refl) as (rest & fin & E & F & _).
  assert (S : Forall2 rstate (start ps) (start ps')) by (unfold start; apply (f2_map rstate _ _ (rprog Q)); auto; intros a c Hac; split; auto; constructor).
  pose proof (r_exec (unbuffered rest) _ _ S) as T. rewrite E in T. destruct (exec (start ps) (unbuffered rest)) as [fn|] eqn:E'; [|destruct T]. cbn in T.
  assert (G : exists rs, Forall2 Q rs rs' /\ finished fn rs).
  { clear E E' S V H. revert rs' F. unfold finished. induction T as [|s s' l l' [P _] T IH]; intros [|r rs'] F; try discriminate; [exists []; auto|].
    cbn [map] in F. injection F as F1 F2. destruct (IH rs' F2) as (rs & G1 & G2). rewrite F1 in P. inversion P as [a c Hac E1 E2| | | ]; subst. exists (a :: rs). split; [auto|]. cbn. congruence. }
  destruct G as (rs & G1 & G2). exists rs. split; auto. apply (one_schedule_decides ps rest fn rs E' G2).
Qed.
End Net.
