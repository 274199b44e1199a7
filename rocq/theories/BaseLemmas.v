(** Lemmas about the common vocabulary. *)
From Verif Require Import Base.

Section Lists.
Context {A : Type}.
Implicit Types l : list A.

Lemma upd_length l i v : length (upd l i v) = length l.
Proof. revert i; induction l as [|h t IH]; intros [|i]; simpl; auto. Qed.

Lemma nth_error_upd_eq l i v : i < length l -> nth_error (upd l i v) i = Some v.
Proof. revert i; induction l as [|h t IH]; intros [|i] H; simpl in *; try lia; auto.
       apply IH; lia. Qed.

Lemma nth_error_upd_ne l i j v : i <> j -> nth_error (upd l i v) j = nth_error l j.
Proof. revert i j; induction l as [|h t IH]; intros [|i] [|j] H; simpl; auto; try lia. Qed.

Lemma nth_error_upd l i j v :
  nth_error (upd l i v) j =
  if (i =? j) && (j <? length l) then Some v else nth_error l j.
Proof.
  destruct (Nat.eqb_spec i j) as [->|Hne]; simpl.
  - destruct (Nat.ltb_spec j (length l)) as [Hlt|Hge].
    + apply nth_error_upd_eq; auto.
    + rewrite !(proj2 (nth_error_None _ _)); auto; rewrite ?upd_length; auto.
  - apply nth_error_upd_ne; auto.
Qed.

Lemma upd_oob l i v : length l <= i -> upd l i v = l.
Proof. revert i; induction l as [|h t IH]; intros [|i] H; simpl in *; auto; try lia.
       f_equal; apply IH; lia. Qed.

Lemma upd_app_l l1 l2 i v : i < length l1 -> upd (l1 ++ l2) i v = upd l1 i v ++ l2.
Proof. revert i; induction l1 as [|h t IH]; intros [|i] H; simpl in *; try lia; auto.
       f_equal; apply IH; lia. Qed.

Lemma upd_app_r l1 l2 i v : length l1 <= i -> upd (l1 ++ l2) i v = l1 ++ upd l2 (i - length l1) v.
Proof. revert i; induction l1 as [|h t IH]; intros [|i] H; simpl in *; try lia; auto.
       f_equal; apply IH; lia. Qed.

Lemma upd_comm l i j v w : i <> j -> upd (upd l i v) j w = upd (upd l j w) i v.
Proof. revert i j; induction l as [|h t IH]; intros [|i] [|j] H; simpl; auto; try lia.
       f_equal; apply IH; lia. Qed.

Lemma upd_same l i v : nth_error l i = Some v -> upd l i v = l.
Proof. revert i; induction l as [|h t IH]; intros [|i] H; simpl in *; try discriminate; auto.
       - injection H as ->; auto.
       - f_equal; auto. Qed.

Lemma upd_upd l i v w : upd (upd l i v) i w = upd l i w.
Proof. revert i; induction l as [|h t IH]; intros [|i]; simpl; auto. f_equal; auto. Qed.

Lemma rd_ok l i v : nth_error l i = Some v -> rd l i = Ok v.
Proof. unfold rd; intros ->; auto. Qed.

Lemma rd_nth l i d : i < length l -> rd l i = Ok (nth i l d).
Proof. intros H; apply rd_ok, nth_error_nth'; auto. Qed.

Lemma rd_inv l i v : rd l i = Ok v -> nth_error l i = Some v.
Proof. unfold rd; destruct (nth_error l i); congruence. Qed.

Lemma rd_app_l l1 l2 i : i < length l1 -> rd (l1 ++ l2) i = rd l1 i.
Proof. intros H; unfold rd; rewrite nth_error_app1; auto. Qed.

Lemma rd_app_r l1 l2 i : length l1 <= i -> rd (l1 ++ l2) i = rd l2 (i - length l1).
Proof. intros H; unfold rd; rewrite nth_error_app2; auto. Qed.

Lemma wr_ok l i v : i < length l -> wr l i v = Ok (upd l i v).
Proof. intros H; unfold wr; destruct (Nat.ltb_spec i (length l)); auto; lia. Qed.

Lemma nth_error_ext l1 l2 : (forall i, nth_error l1 i = nth_error l2 i) -> l1 = l2.
Proof.
  revert l2; induction l1 as [|a t IH]; intros [|b t2] H; auto.
  - specialize (H 0); discriminate.
  - specialize (H 0); discriminate.
  - f_equal. + specialize (H 0); simpl in H; congruence.
    + apply IH; intros i; apply (H (S i)).
Qed.

Lemma nth_error_Some_lt l i v : nth_error l i = Some v -> i < length l.
Proof. intros H; apply nth_error_Some; congruence. Qed.

Lemma nth_error_lt_Some l i : i < length l -> exists v, nth_error l i = Some v.
Proof. intros H; destruct (nth_error l i) eqn:E; eauto. apply nth_error_None in E; lia. Qed.

Lemma firstn_snoc l i v : nth_error l i = Some v -> firstn (S i) l = firstn i l ++ [v].
Proof. revert i; induction l as [|h t IH]; intros [|i] H; simpl in *; try discriminate.
       - injection H as ->; auto. - f_equal; apply IH; auto. Qed.

Lemma skipn_cons l i v : nth_error l i = Some v -> skipn i l = v :: skipn (S i) l.
Proof. revert i; induction l as [|h t IH]; intros [|i] H; simpl in *; try discriminate.
       - injection H as ->; auto. - rewrite (IH i H); auto. Qed.

End Lists.

Lemma map_upd {A B} (f : A -> B) l i v : map f (upd l i v) = upd (map f l) i (f v).
Proof. revert i; induction l as [|h t IH]; intros [|i]; simpl; auto. f_equal; auto. Qed.

Lemma bind_ok {A B} (x : res A) (f : A -> res B) a : x = Ok a -> bind x f = f a.
Proof. intros ->; auto. Qed.

Lemma bind_inv {A B} (x : res A) (f : A -> res B) b :
  bind x f = Ok b -> exists a, x = Ok a /\ f a = Ok b.
Proof. destruct x; simpl; intros; try discriminate; eauto. Qed.

Lemma bind_assoc {A B C} (x : res A) (f : A -> res B) (g : B -> res C) :
  bind (bind x f) g = bind x (fun a => bind (f a) g).
Proof. destruct x; auto. Qed.

Lemma foldM_app {A S} (f : S -> A -> res S) l1 l2 s :
  foldM f (l1 ++ l2) s = bind (foldM f l1 s) (fun s' => foldM f l2 s').
Proof.
  revert s; induction l1 as [|x t IH]; intros s; simpl; auto.
  destruct (f s x); simpl; auto.
Qed.

Lemma mapM_ok {A B} (f : A -> res B) (g : A -> B) l :
  (forall x, In x l -> f x = Ok (g x)) -> mapM f l = Ok (map g l).
Proof.
  induction l as [|x t IH]; intros H; simpl; auto.
  rewrite H by (left; auto); simpl. rewrite IH; simpl; auto. intros; apply H; right; auto.
Qed.

Lemma repeat_nth_error {A} (x : A) n i : i < n -> nth_error (repeat x n) i = Some x.
Proof. revert i; induction n as [|n IH]; intros [|i] H; simpl; try lia; auto. apply IH; lia. Qed.

Lemma seq_nth_error s n i : i < n -> nth_error (seq s n) i = Some (s + i).
Proof. revert s i; induction n as [|n IH]; intros s [|i] H; simpl; try lia.
       - f_equal; lia. - rewrite IH by lia. f_equal; lia. Qed.

Lemma nth_error_map_Some {A B} (f : A -> B) l i v :
  nth_error l i = Some v -> nth_error (map f l) i = Some (f v).
Proof. intros H; rewrite nth_error_map, H; auto. Qed.
