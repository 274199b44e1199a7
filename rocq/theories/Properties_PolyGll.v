(** Property C51: Gauss-Lobatto-Legendre nodes and bases (in exact arithmetic). *)
From Verif Require Import Base Poly PolySpec PolyProof1 PolyProof2 PolyProof3 PolyImpSyntax PolyImp PolyGll PolyGllSpec PolyImpProof PolyGllProof PolyGllRoots.
From Coq Require Import Reals Lra.
Open Scope R_scope.

(** C51.  For 2 <= n <= 24 lobatto_nodes writes -1, 1 and in between numbers within 10^-17 of the
    n-2 points where P_(n-1)' is 0, in increasing order, and nothing else. *)
Theorem C51_nodes : forall nodes_n n z, (2 <= n <= 24)%nat -> (n <= length z)%nat ->
  exists z' roots, lobatto_nodes nodes_n z n = Ok z' /\ length z' = length z /\ (forall k, (n <= k)%nat -> get z' k = get z k) /\
    get z' 0 = -1 /\ get z' (n - 1) = 1 /\
    (forall i, (i + 1 < n)%nat -> get z' i < get z' (i + 1)) /\
    length roots = (n - 2)%nat /\ (forall i, (i < n - 2)%nat -> Rabs (get z' (i + 1) - get roots i) <= / 10 ^ 17) /\
    (forall i, (i + 1 < n - 2)%nat -> get roots i < get roots (i + 1)) /\
    forall x, derivable_pt_lim (P (n - 1)) x 0 <-> In x roots.
Proof.
  intros nn n z Hn Hz. destruct (nodes_fix_ok n Hn z Hz) as (z' & E & [L O] & Rg). destruct (gll_roots n Hn) as (l & Ll & I & A & C).
  assert (G : forall i, (i < n)%nat -> get z' i = get (gll_list n) i) by (intros i Hi; apply (Rg i Hi)).
  destruct (table_parts n Hn) as (_ & Lg & Hz' & Inc & _).
  exists z', l. split; [|split; [auto|split; [intros; apply O; lia|split; [|split; [|split; [|split; [auto|split; [|split]]]]]]]].
  - unfold lobatto_nodes. rewrite table_24. destruct (Nat.ltb_spec 24 n); [lia|]. destruct (Nat.leb_spec 2 n); [auto|lia].
  - rewrite G by lia. reflexivity.
  - rewrite G, Hz', zform_last by lia. reflexivity.
  - intros i Hi. rewrite !G by lia. rewrite Nat.add_1_r. apply Inc. auto.
  - intros i Hi. rewrite G by lia. apply A. auto.
  - intros i Hi. rewrite Nat.add_1_r. apply I. auto.
  - intros x. split.
    + intros D. assert (X : P1 (n - 1) x = 0) by (eapply uniqueness_limite; [apply P_der|exact D]). apply C in X. destruct X as (i & Hi & ->). apply nth_In. lia.
    + intros X. apply (In_nth _ _ 0) in X. destruct X as (i & Hi & <-). eapply der_eq; [apply P_der|]. apply C. exists i. split; [lia|auto].
Qed.
Print Assumptions C51_nodes.

(** gll_lag_setup for 2 <= n <= 24 returns a function of the table, and fills in the
    gll_lag_size(n) numbers of data: with it every later sequence of evaluations returns the basis
    for the nodes of lobatto_nodes, and its derivatives. *)
Theorem C51_gll_lag : forall nodes_n n data z, (2 <= n <= 24)%nat -> (gll_lag_size n <= length data)%nat ->
  lobatto_nodes nodes_n (repeat 0 n) n = Ok z ->
  exists f data', gll_lag_setup nodes_n data n = Ok (Some f, data') /\ length data' = length data /\
    (forall k, (gll_lag_size n <= k)%nat -> get data' k = get data k) /\ distinct z n /\
    forall calls, Forall (valid_call n) calls ->
      exists outs, evals f data' n calls = Ok outs /\ Forall2 (fun '(p, der, x) p' => evaluates z n der x p p') calls outs.
Proof.
  intros nn n data z Hn Hd Ez. unfold gll_lag_size in *. rewrite table_24 in *. destruct (Nat.leb_spec n 24); [|lia]. rewrite Nat.mul_1_l in *.
  assert (z = gll_list n) as ->.
  { unfold lobatto_nodes in Ez. rewrite table_24 in Ez. destruct (Nat.ltb_spec 24 n); [lia|]. destruct (Nat.leb_spec 2 n); [|lia].
    destruct (nodes_fix_ok n Hn (repeat 0 n)) as (z' & E & [L O] & Rg); [rewrite repeat_length; auto|]. rewrite E in Ez. injection Ez as <-.
    rewrite repeat_length in L. destruct (table_parts n Hn) as (_ & Lg & _). apply (nth_ext _ _ 0 0); [lia|]. intros i Hi. apply (Rg i). lia. }
  destruct (setup_fix_ok n Hn nn data Hd) as (d' & E & [L O] & Hr). eexists; exists d'. split; [exact E|]. split; [auto|]. split; [intros; apply O; lia|].
  split; [apply gll_distinct; auto|]. intros calls HF. apply evals_fix_ok; auto.
Qed.
Print Assumptions C51_gll_lag.

(** For n > 24, with the (distinct) nodes found by Newton's method. *)
Theorem C51_gll_lag_large : forall nodes_n n data z, (24 < n)%nat -> (gll_lag_size n <= length data)%nat ->
  nodes_n data n = Ok z -> length z = length data -> (forall k, (n <= k)%nat -> get z k = get data k) -> distinct z n ->
  exists f data', gll_lag_setup nodes_n data n = Ok (Some f, data') /\ length data' = length data /\
    (forall k, (gll_lag_size n <= k)%nat -> get data' k = get data k) /\
    forall calls, Forall (valid_call n) calls ->
      exists outs, evals f data' n calls = Ok outs /\ Forall2 (fun '(p, der, x) p' => evaluates z n der x p p') calls outs.
Proof.
  intros nn n data z Hn Hd Ez Lz Oz D. unfold gll_lag_size in *. rewrite table_24 in *. destruct (Nat.leb_spec n 24); [lia|].
  destruct (setup_big_ok nn data n z) as (d' & E & [L O] & Hr); auto. eexists; exists d'. split; [exact E|]. split; [auto|]. split; [intros; apply O; lia|].
  intros calls HF. apply evals_ok; auto. lia.
Qed.
Print Assumptions C51_gll_lag_large.

Example five_nodes : exists z, lobatto_nodes (fun z _ => Ok z) (repeat 0 5) 5 = Ok z /\ get z 2 = 0 /\ get z 4 = 1.
Proof. eexists. split; [vm_compute; reflexivity|]. split; reflexivity. Qed.
Example many_nodes : distinct (map INR (seq 0 30)) 30.
Proof.
  assert (G : forall i, (i < 30)%nat -> get (map INR (seq 0 30)) i = INR i).
  { intros i Hi. unfold get. rewrite (nth_indep _ 0 (INR 0)) by (rewrite map_length, seq_length; lia). rewrite map_nth, seq_nth by lia. reflexivity. }
  intros i j Hi Hj E. rewrite !G in E by auto. apply INR_eq in E. auto.
Qed.
