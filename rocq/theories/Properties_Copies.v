(** C62: with the all-reduce method the entries of a group come out identical on all processes, whatever the operation. *)
From Verif Require Import Base Net NetProof GsTop GsSpec GsExec Gs GsUserSpec GsUserProof ArCopiesProof2 BracketProof2 Properties_Gs Properties_Bracket.

(** Settings as for C60: nothing is assumed of op and e. *)
Section Properties.
Variable usize lsize INT_MAX np : nat.
Variable ids : nat -> list Z.

(** transpose = 0: any two entries, on any two processes, whose ids agree up to sign; transpose = 1: any two unflagged
    entries with the same id. *)
Theorem C62_gs {T} (op : T -> T -> T) (e : T) hs transpose u w p q i j :
  setup_fits usize lsize INT_MAX np ids -> setup_gives usize lsize INT_MAX np ids false gs_all_reduce hs ->
  (forall p, p < np -> length (u p) = length (ids p)) -> gs_gives usize np op e transpose hs u w ->
  p < np -> q < np -> i < length (ids p) -> j < length (ids q) -> nth i (ids p) 0%Z <> 0%Z ->
  (if transpose then nth i (ids p) 0%Z = nth j (ids q) 0%Z /\ (0 < nth i (ids p) 0)%Z
   else Z.abs (nth i (ids p) 0%Z) = Z.abs (nth j (ids q) 0%Z)) ->
  nth_error (w p) i = nth_error (w q) j.
Proof. intros F G Hu Gw Hp Hq Hi Hj N S. apply (ar_gs usize lsize INT_MAX np ids F hs G transpose op e u w); auto. split; auto. Qed.
Theorem C62_gs_vec {T} (op : T -> T -> T) (e : T) hs transpose vn u w p q i j k :
  setup_fits usize lsize INT_MAX np ids -> setup_gives usize lsize INT_MAX np ids false gs_all_reduce hs -> 1 <= vn ->
  (forall p, p < np -> length (u p) = length (ids p) * vn) -> gs_vec_gives usize np op e vn transpose hs u w ->
  p < np -> q < np -> i < length (ids p) -> j < length (ids q) -> k < vn -> nth i (ids p) 0%Z <> 0%Z ->
  (if transpose then nth i (ids p) 0%Z = nth j (ids q) 0%Z /\ (0 < nth i (ids p) 0)%Z
   else Z.abs (nth i (ids p) 0%Z) = Z.abs (nth j (ids q) 0%Z)) ->
  nth_error (w p) (i * vn + k) = nth_error (w q) (j * vn + k).
Proof. intros F G Hv Hu Gw Hp Hq Hi Hj Hk N S. apply (ar_vec usize lsize INT_MAX np ids F hs G transpose op e vn u w p q i j k); auto. split; auto. Qed.
Theorem C62_gs_many {T} (op : T -> T -> T) (e : T) hs transpose vn u w p q i j k :
  setup_fits usize lsize INT_MAX np ids -> setup_gives usize lsize INT_MAX np ids false gs_all_reduce hs -> 1 <= vn ->
  (forall p, p < np -> length (u p) = vn /\ forall l, In l (u p) -> length l = length (ids p)) -> gs_many_gives usize np op e vn transpose hs u w ->
  p < np -> q < np -> i < length (ids p) -> j < length (ids q) -> k < vn -> nth i (ids p) 0%Z <> 0%Z ->
  (if transpose then nth i (ids p) 0%Z = nth j (ids q) 0%Z /\ (0 < nth i (ids p) 0)%Z
   else Z.abs (nth i (ids p) 0%Z) = Z.abs (nth j (ids q) 0%Z)) ->
  nth_error (nth k (w p) []) i = nth_error (nth k (w q) []) j.
Proof. intros F G Hv Hu Gw Hp Hq Hi Hj Hk N S. apply (ar_many usize lsize INT_MAX np ids F hs G transpose op e vn u w p q i j k); auto. split; auto. Qed.
End Properties.
Print Assumptions C62_gs.
Print Assumptions C62_gs_vec.
Print Assumptions C62_gs_many.

(** The hypotheses are met where the pairwise method gives different copies (C60_copies_on_processes_refuted): three
    processes with one entry of id 1 each, values 6, 4 and 10, add10.  The handle exists, gs returns, and the copies agree. *)
Example ex_same_copies : exists hs w, setup_gives 1 1 255 3 ids1 false gs_all_reduce hs /\ gs_gives 1 3 add10 0 false hs u3 w /\
  nth_error (w 0) 0 <> None /\ nth_error (w 0) 0 = nth_error (w 1) 0 /\ nth_error (w 0) 0 = nth_error (w 2) 0.
Proof.
  destruct (C25_setup_returns 1 1 255 3 ids1 gs_all_reduce ids1_fits) as (hs & G).
  destruct (C60_gs 1 1 255 3 ids1 gs_all_reduce hs false ids1_fits G) as (tr & _ & R).
  pose proof (R nat add10 0 u3 ltac:(intros; reflexivity)) as V. set (w := fun p => map _ _) in V.
  assert (E : forall p q, p < 3 -> q < 3 -> nth_error (w p) 0 = nth_error (w q) 0).
  { intros p q Hp Hq. apply (C62_gs 1 1 255 3 ids1 add10 0 hs false u3 w p q 0 0 ids1_fits G ltac:(intros; reflexivity) V Hp Hq); cbn; try lia. }
  exists hs, w. split; [exact G|]. split; [exact V|]. split; [discriminate|]. split; apply E; lia.
Qed.
