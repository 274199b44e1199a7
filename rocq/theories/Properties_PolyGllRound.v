(** C65: the rounding error of the Gauss-Lobatto-Legendre bases of gll_lag_setup. *)
From Verif Require Import Base Poly PolySpec PolyProof1 PolyImpSyntax PolyImp PolyGll PolyGllSpec PolyRound PolyRoundSpec PolyRoundProof3 PolyGllRound PolyGllRoundSpec PolyGllRoundProof3.
From Coq Require Import Reals Lra.
Open Scope R_scope.
Local Notation get := PolySpec.get.

(** The routines with the exact operations and the exact entries of the tables are those of PolyGll.v. *)
Theorem C65_exact : gll_lag_fl Rplus Rminus Rmult entry = gll_lag /\ lobatto_nodes_fl entry = lobatto_nodes /\
  gll_lag_setup_fl Rplus Rminus Rmult Rdiv entry = gll_lag_setup.
Proof. repeat split. Qed.
Print Assumptions C65_exact.

(** At most 24 points: the nodes z of lobatto_nodes are the tabulated ones up to the rounding of the literals, and the
    function returned evaluates the Lagrange basis of z, with the error of lagrange_eval or less. *)
Theorem C65_table : forall eps add sub mul div F lit, arithmetic eps add sub mul div -> doubling F mul -> literals F eps lit -> eps <= / 1000 ->
  forall n nodes_n data, (2 <= n <= 24)%nat -> (gll_lag_size n <= length data)%nat ->
  exists z f data', lobatto_nodes_fl lit nodes_n (repeat 0 n) n = Ok z /\ length z = n /\ distinct z n /\
    (forall i, (i < n)%nat -> Rabs (get z i - get (gll_list n) i) <= eps * Rabs (get (gll_list n) i)) /\
    gll_lag_setup_fl add sub mul div lit nodes_n data n = Ok (Some f, data') /\ length data' = length data /\
    (forall k, (gll_lag_size n <= k)%nat -> get data' k = get data k) /\
    forall calls, Forall (valid_call n) calls -> Forall (machine_call F) calls ->
      exists outs, evals f data' n calls = Ok outs /\ Forall2 (fun '(p, der, x) p' => evaluates_fl eps z n der x p p') calls outs.
Proof.
  intros eps add sub mul div F lit H D2 Hl He n nn data Hn Hd.
  assert (Sz : gll_lag_size n = n). { unfold gll_lag_size. change GLL_LAG_FIX_MAX with 24%nat. destruct (Nat.leb_spec n 24); lia. }
  rewrite Sz in *. destruct (setup_glf_ok eps add sub mul div H F D2 lit Hl He n Hn nn data Hd) as (d' & E & [L O] & Hr).
  exists (nodesl lit n). eexists. exists d'. split.
  { unfold lobatto_nodes_fl. change GLL_LAG_FIX_MAX with 24%nat. destruct (Nat.ltb_spec 24 n); [lia|]. destruct (Nat.leb_spec 2 n); [|lia]. apply nodes_list_ok. auto. }
  split; [apply nodesl_length|]. split; [eapply nodesl_distinct; eauto|]. split; [intros i Hi; rewrite nodesl_get by auto; eapply zl_near; eauto|].
  split; [exact E|]. split; [auto|]. split; [intros k Hk; apply O; lia|]. intros calls HF HM. eapply evals_glf_ok; eauto.
Qed.
Print Assumptions C65_table.

(** More points: if Newton's method puts distinct nodes into the first n entries, the basis is theirs. *)
Theorem C65_newton : forall eps add sub mul div lit, arithmetic eps add sub mul div ->
  forall n nodes_n data z, (24 < n)%nat -> (gll_lag_size n <= length data)%nat ->
  lobatto_nodes_fl lit nodes_n data n = Ok z -> length z = length data -> distinct z n -> (forall k, (n <= k)%nat -> get z k = get data k) ->
  exists f data', gll_lag_setup_fl add sub mul div lit nodes_n data n = Ok (Some f, data') /\ length data' = length data /\
    (forall k, (gll_lag_size n <= k)%nat -> get data' k = get data k) /\
    forall calls, Forall (valid_call n) calls ->
      exists outs, evals f data' n calls = Ok outs /\ Forall2 (fun '(p, der, x) p' => evaluates_fl eps z n der x p p') calls outs.
Proof.
  intros eps add sub mul div lit H n nn data z Hn Hd Ez Lz D Oz.
  assert (Sz : gll_lag_size n = (9 * n)%nat). { unfold gll_lag_size. change GLL_LAG_FIX_MAX with 24%nat. destruct (Nat.leb_spec n 24); lia. }
  rewrite Sz in *. unfold lobatto_nodes_fl in Ez. change GLL_LAG_FIX_MAX with 24%nat in Ez. destruct (Nat.ltb_spec 24 n); [|lia].
  destruct (setup_big_fl_ok eps add sub mul div lit nn data n z H Hn Hd Ez Lz D Oz) as (d' & E & [L O] & Hr).
  eexists. exists d'. split; [exact E|]. split; [auto|]. split; [intros k Hk; apply O; lia|]. intros calls HF. eapply (evals_fl_ok eps add sub mul div H); eauto. lia.
Qed.
Print Assumptions C65_newton.

(** Operations that are exact only for doubling, literals that are a little too large, and twelve points: the hypotheses are met. *)
Definition up (x : R) : R := x * (1 + / 1000).
Definition mul_up (a b : R) : R := if Req_EM_T a 2 then 2 * b else if Req_EM_T b 2 then a * 2 else up (a * b).
Example ex_arithmetic : arithmetic (/ 1000) (fun a b => up (a + b)) (fun a b => up (a - b)) mul_up (fun a b => up (a / b)) /\ doubling (fun _ => True) mul_up /\
  literals (fun _ => True) (/ 1000) (fun k => up (entry k)) /\ mul_up 3 3 <> 9 /\ (2 <= 12 <= 24)%nat /\ (gll_lag_size 12 <= length (repeat 0 12))%nat.
Proof.
  assert (K : forall x, Rabs (up x - x) <= / 1000 * Rabs x).
  { intros x. unfold up. replace (x * (1 + / 1000) - x) with (/ 1000 * x) by ring. rewrite Rabs_mult, (Rabs_pos_eq (/ 1000)); lra. }
  assert (Z : forall x, Rabs (x - x) <= / 1000 * Rabs x).
  { intros x. rewrite Rminus_diag_eq, Rabs_R0 by auto. pose proof (Rabs_pos x). lra. }
  split; [|split; [|split; [|split; [|split]]]].
  - constructor; intros; try apply K; try lra. unfold mul_up. destruct (Req_EM_T a 2) as [->|]; [apply Z|]. destruct (Req_EM_T b 2) as [->|]; [apply Z|apply K].
  - split; auto; intros a _; unfold mul_up; destruct (Req_EM_T 2 2); try lra; destruct (Req_EM_T a 2) as [->|]; auto.
  - intros k. split; [auto|apply K].
  - unfold mul_up. destruct (Req_EM_T 3 2); [lra|]. unfold up. lra.
  - lia.
  - cbn. lia.
Qed.
Example ex_calls : Forall (valid_call 12) [(repeat 0 36, 2%nat, 1 / 2); (repeat 7 15, 0%nat, -1)].
Proof. repeat constructor; cbn; lia. Qed.
