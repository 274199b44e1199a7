(** Expressions with at most two values. *)
From Coq Require Import Permutation.
From Verif Require Import Base BracketSpec.

Section Few.
Context {T : Type}.
Variable op : T -> T -> T.
Variable e : T.
Hypothesis comm : forall a b, op a b = op b a.
Hypothesis neutral : forall a, op e a = a.
Variable v : nat -> nat -> nat -> T.
Notation V c := (v (fst (fst c)) (snd (fst c)) (snd c)).
Lemma eval_few x : match leaves x with [] => eval op e v x = e | [c] => eval op e v x = V c | [c; d] => eval op e v x = op (V c) (V d) | _ => True end.
Proof.
  induction x as [q j k| |a IHa b IHb]; cbn [leaves eval]; auto.
  destruct (leaves a) as [|c [|d [|d' l]]]; cbn [app]; auto.
  - rewrite IHa, neutral. exact IHb.
  - destruct (leaves b) as [|c' [|d' l']]; auto; rewrite IHa, IHb; auto. rewrite comm. apply neutral.
  - destruct (leaves b) as [|c' l']; auto. rewrite IHa, IHb, comm. apply neutral.
Qed.
Lemma eval_one x c : Permutation (leaves x) [c] -> eval op e v x = V c.
Proof. intros P. pose proof (eval_few x) as E. apply Permutation_sym, Permutation_length_1_inv in P. rewrite P in E. exact E. Qed.
Lemma eval_none x : Permutation (leaves x) [] -> eval op e v x = e.
Proof. intros P. pose proof (eval_few x) as E. apply Permutation_sym, Permutation_nil in P. rewrite P in E. exact E. Qed.
Lemma eval_two x c d : Permutation (leaves x) [c; d] -> eval op e v x = op (V c) (V d).
Proof.
  intros P. pose proof (eval_few x) as E. apply Permutation_sym, Permutation_length_2_inv in P as [P|P]; rewrite P in E; [exact E|]. rewrite E. apply comm.
Qed.
End Few.
