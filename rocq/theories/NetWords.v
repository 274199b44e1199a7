(** Messages whose contents are values of one type sent as words of another: a program whose
    messages consist of values of type A, run over messages of words of type B. *)
From Verif Require Import Base Net.

Section Words.
Context {A B : Type}.
Variable f : A -> B.
Variable g : B -> A.

Definition word_send (x : @send A) : @send B := let '(q, t, m) := x in (q, t, map f m).

(** Every value is stored in a word when it is sent and read back when it is received. *)
Fixpoint as_words {X} (p : prog A X) : prog B X :=
  match p with
  | Ret x => Ret x
  | Stop => Stop
  | Post s r k => Post (map word_send s) r (fun h => as_words (k h))
  | Wait h k => Wait h (fun ms => as_words (k (map (map g) ms)))
  end.
End Words.
