(** Specification vocabulary for the crystal router. *)
From Verif Require Import Base Net.

(** A message: target process, source process, contents. *)
Record msg (W : Type) := Msg { m_target : nat; m_source : nat; m_body : list W }.
Arguments Msg {W} _ _ _.
Arguments m_target {W} _.
Arguments m_source {W} _.
Arguments m_body {W} _.

(** Its representation in the data array (crystal.c:8-17) and that of a list of messages;
    ofN stores a number in a word. *)
Definition msg_words {W} (ofN : nat -> W) (m : msg W) : list W :=
  ofN (m_target m) :: ofN (m_source m) :: ofN (length (m_body m)) :: m_body m.
Definition words {W} (ofN : nat -> W) (ms : list (msg W)) : list W := concat (map (msg_words ofN) ms).

(** All messages of all processes, process by process; those addressed to process q. *)
Definition all_msgs {W} (np : nat) (ms : nat -> list (msg W)) : list (msg W) := concat (map ms (seq 0 np)).
Definition for_proc {W} (q : nat) (ms : list (msg W)) : list (msg W) :=
  filter (fun m => m_target m =? q) ms.

(** Every run of p posts at most k groups of messages (every group that crystal_exchange
    posts contains one send). *)
Inductive posts_at_most {W A} : nat -> prog W A -> Prop :=
| pam_ret k a : posts_at_most k (Ret a)
| pam_stop k : posts_at_most k Stop
| pam_post k s r f : (forall h, posts_at_most k (f h)) -> posts_at_most (S k) (Post s r f)
| pam_wait k h f : (forall ms, posts_at_most k (f ms)) -> posts_at_most k (Wait h f).
