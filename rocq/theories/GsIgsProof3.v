(** Proofs for C34: igs with an operation of any algebra. *)
From Verif Require Import Base BaseLemmas Net NetProof NetReplay NetReplay2 TransferProof2 GsTop GsExec Gs GsUserSpec GsIgsSpec GsIgsProof.

Section Any.
Context {T : Type}.
Variable op : T -> T -> T.
Variable e : T.
Variable usize np : nat.
Variable hs : nat -> gs_data.
Variable mode : gs_mode.
Variable vn : nat.
Variable t : bool.
Variable u w : nat -> udata T.
Variable buf : nat -> list T.
Hypothesis pw : forall p, p < np -> is_pairwise (hs p).

Theorem pairwise_goes : always_returns (map (fun p => gs_aux op e (UINT_MAX usize) mode vn np p t (hs p) (u p) (buf p)) (seq 0 np)) (map w (seq 0 np)) ->
  goes np (fun p => gs_aux op e (UINT_MAX usize) mode vn np p t (hs p) (u p) (buf p)) (fun p => Ret (w p)).
Proof.
  intros G.
  destruct (finite_choice (fun p (x : list (@send T) * list recv * (list (list T) -> prog T (udata T))) =>
     gs_aux op e (UINT_MAX usize) mode vn np p t (hs p) (u p) (buf p) = comm (fst (fst x)) (snd (fst x)) (snd x) /\
     (forall ms, (exists a, snd x ms = Ret a) \/ snd x ms = Stop)) ([], [], fun _ => Stop) np) as [x Hx].
  { intros p Hp. destruct (pw p Hp) as [d Hd].
    destruct (pw_form op e (UINT_MAX usize) np (Conf false false false 0) mode vn t p (hs p) d (u p) (buf p) Hd) as [E|(s & r & K & u1 & E1 & E2 & _)].
    - exfalso. refine (returns_not_never np _ _ p G Hp _). rewrite E. constructor.
    - exists (s, r, K). auto. }
  apply (replay np (fun p => fst (fst (x p))) (fun p => snd (fst (x p))) (fun p => snd (x p))); auto.
  - intros p Hp. apply (Hx p Hp).
  - intros p ms Hp. apply (Hx p Hp).
Qed.
End Any.

Theorem pairwise_gives_any {T} (op : T -> T -> T) (e : T) usize np conf mode vn t hs (u w : nat -> udata T) :
  (forall p, p < np -> is_pairwise (hs p)) ->
  (forall buf, buffers np vn hs buf ->
    always_returns (map (fun p => gs_aux op e (UINT_MAX usize) mode vn np p t (hs p) (u p) (buf p)) (seq 0 np)) (map w (seq 0 np))) ->
  igs_mode_gives op e usize np conf mode vn t hs u w.
Proof.
  intros Hpw G buf Hb D mid y Hm. apply goes_always_fun. apply pairwise_overlap; auto. apply pairwise_goes; auto.
Qed.
