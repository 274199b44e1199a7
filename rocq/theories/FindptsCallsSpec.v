(** Specification for sequences of calls: the answers, if every answer for a point is that of one
    function of the element and the point. *)
From Verif Require Import Base Tensor Poly FindptsEl2 FindptsEl2Spec FindptsEl3 FindptsCalls.
From Coq Require Import Reals.

(** The point p in the slot i. *)
Definition in_slot (i : nat) (p : pt) : pt := Pt (px p) (pr p) (oldr p) (dist2 p) (dist2p p) (tr p) i (flags p).
(** solve x q: what is found for the point q in the element with the coordinates x;
    value x u r: the value at r of the function with the nodal values u;
    cur: the coordinates of the element that is current. *)
Fixpoint answers (solve : list arr -> list R -> pt) (value : list arr -> arr -> list R -> R) (cur : list arr) (l : list call) : list answer :=
  match l with
  | [] => []
  | Element x :: l => Started :: answers solve value x l
  | Search xs :: l => Points (map (fun '(i, q) => in_slot i (solve cur q)) (combine (seq 0 (length xs)) xs)) :: answers solve value cur l
  | Eval rs u :: l => Values (map (value cur u) rs) :: answers solve value cur l
  end.
(** What the caller has to see to: elements have enough coordinates (ok); searches are made in
    elements that are regular, for points that are reachable; no batch is larger than npt; functions have
    size values. *)
Fixpoint allowed (ok regular : list arr -> Prop) (reachable : list arr -> list R -> Prop) (npt size : nat) (cur : list arr) (l : list call) : Prop :=
  match l with
  | [] => True
  | Element x :: l => ok x /\ allowed ok regular reachable npt size x l
  | Search xs :: l => (regular cur /\ (length xs <= npt)%nat /\ forall q, In q xs -> reachable cur q) /\ allowed ok regular reachable npt size cur l
  | Eval rs u :: l => ((length rs <= npt)%nat /\ (size <= length u)%nat) /\ allowed ok regular reachable npt size cur l
  end.
(** Enough coordinates, with two dimensions; and the shape of the element. *)
Definition coords2 (nr ns : nat) (x : list arr) : Prop := length x = 2%nat /\ forall d, (d < 2)%nat -> (nr * ns <= length (nth d x []))%nat.
Definition shape_of (nr ns : nat) (zr zs : arr) (x : list arr) : shape := Shape nr ns zr zs (nth 0 x []) (nth 1 x []).
