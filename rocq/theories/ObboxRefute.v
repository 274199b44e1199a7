(** Small numbers of nodes; the box of an element that is folded. *)
From Verif Require Import Base BaseLemmas Tensor TensorSpec TensorProof Poly PolySpec PolyProof1 PolyProof2 PolyProof3 PolyImpSyntax PolyImp PolyGll PolyGllSpec PolyGllProof LobBnd LobBndSpec LobBndProof1 LobBndProof3 LobBndSetupProof2 LobBndSetupProof3 LobBndValid3 Obbox ObboxSpec ObboxMax ObboxProof1 ObboxProof2 ObboxProof3 ObboxProof4 ObboxProof5.
From Coq Require Import Reals Lra Psatz.
Open Scope R_scope.

Lemma good_small nn n m : (n = 2 /\ 2 <= m \/ n = 3 /\ 4 <= m \/ n = 4 /\ 7 <= m)%nat -> good_dir nn n m (gll_list n).
Proof.
  intros H. assert (Hn : (2 <= n <= 24)%nat) by lia. destruct (gll_ends n Hn) as [Zf Zl]. split; try lia.
  - apply gll_points. auto.
  - auto.
  - auto.
  - intros d d' E L. destruct (small_valid nn n m d H L) as (d1 & E1 & B & _). rewrite E in E1. injection E1 as <-. apply B.
Qed.

Definition folded (M : R) : arr := [-1; 0; 1; -1; M; 1; -1; 0; 1].
Definition flat_y : arr := [-1; -1; -1; 0; 0; 0; 1; 1; 1].
Lemma folded_centre z M : distinct z 3 -> get z 1 = 0 -> poly_2 z 3 z 3 (folded M) 0 0 0 = M.
Proof. intros D H. rewrite <- H at 1. rewrite <- H at 1. rewrite poly_pv2, pv2_s_node by (auto; lia). rewrite pv1_node by (auto; lia). reflexivity. Qed.

Lemma folded_out nn P mr ms tol : good R 0 Rplus Rmult P -> (4 <= mr)%nat -> (4 <= ms)%nat -> 0 <= tol ->
  exists M b, obbox_calc_2 nn P (folded M) flat_y 3 3 1 mr ms tol = Ok [b] /\ rmax (axis b 0) < M.
Proof.
  intros G Hr Hs Ht. pose proof (good_small nn 3 mr ltac:(lia)) as Gr. pose proof (good_small nn 3 ms ltac:(lia)) as Gs. unfold obbox_calc_2. cbv zeta. set (wsize := Nat.max _ _).
  destruct (setup_dir_ok nn 3 mr (gll_list 3) (repeat 0 wsize) Gr) as (I0r & dr & w1 & E & L1 & Or); [rewrite repeat_length; lia|]. rewrite E. cbn [bind]. clear E. rewrite repeat_length in L1.
  destruct (setup_dir_ok nn 3 ms (gll_list 3) w1 Gs) as (I0s & ds & w2 & E & L2 & Os); [lia|]. rewrite E. cbn [bind]. clear E.
  set (bot := fun i => nth i [-1; 0; 1] 0). set (top := fun i => nth i [-1; 0; 1] 0). set (lef := fun _ : nat => -1). set (rig := fun _ : nat => 1).
  set (K := Rabs (far dr 3 mr bot) + Rabs (far dr 3 mr top) + Rabs (far ds 3 ms lef) + Rabs (far ds 3 ms rig)).
  pose proof (Rabs_pos (far dr 3 mr bot)). pose proof (Rabs_pos (far dr 3 mr top)). pose proof (Rabs_pos (far ds 3 ms lef)). pose proof (Rabs_pos (far ds 3 ms rig)).
  set (M := K * (2 + tol) + 1). exists M. cbn [seq foldM Nat.mul].
  destruct (el_2_ok nn P G 3 3 mr ms (gll_list 3) (gll_list 3) I0r I0s dr ds Gr Gs Or Os (folded M) flat_y 0 tol w2 Ht) as (b & w' & E & Lw' & _ & _ & _ & F); [cbn; lia|cbn; lia|lia|lia|].
  rewrite E. cbn [bind app]. exists b. split; [reflexivity|]. apply (Rle_lt_trans _ (K * (2 + tol))); [|unfold M; lra]. apply F.
  - unfold K. lra.
  - rewrite (far_ext dr 3 mr _ bot); [pose proof (Rle_abs (far dr 3 mr bot)); unfold K; lra|]. intros [|[|[|i]]] Hi; [reflexivity..|lia].
  - rewrite (far_ext dr 3 mr _ top); [pose proof (Rle_abs (far dr 3 mr top)); unfold K; lra|]. intros [|[|[|i]]] Hi; [reflexivity..|lia].
  - rewrite (far_ext ds 3 ms _ lef); [pose proof (Rle_abs (far ds 3 ms lef)); unfold K; lra|]. intros [|[|[|i]]] Hi; [reflexivity..|lia].
  - rewrite (far_ext ds 3 ms _ rig); [pose proof (Rle_abs (far ds 3 ms rig)); unfold K; lra|]. intros [|[|[|i]]] Hi; [reflexivity..|lia].
Qed.
