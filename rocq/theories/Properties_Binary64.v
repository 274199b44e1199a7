(** The results about rounding errors hold for type double, without overflow and underflow. *)
From Coq Require Import Reals Lra.
From Flocq Require Import Core.
From Verif Require Import Base Poly PolySpec PolyImpSyntax PolyImp PolyGll PolyGllSpec TensorSpec TensorRoundSpec PolyRound PolyRoundSpec PolyGllRound PolyGllRoundSpec.
From Verif Require Import Binary64 Binary64Proof Properties_PolyRound Properties_PolyGllRound.
Open Scope R_scope.
Local Notation get := PolySpec.get.

(** The hypotheses of C63 and of C64. *)
Theorem C63_binary64 : rounding u53 fl_add fl_mul.
Proof. exact fl_rounding. Qed.
Print Assumptions C63_binary64.
Theorem C64_binary64 : arithmetic u53 fl_add fl_sub fl_mul fl_div.
Proof. exact fl_arithmetic. Qed.
Print Assumptions C64_binary64.

(** An addition that is that of type double on its numbers, and meets the hypotheses of C60_rounding, C61_rounding and C61_comm_dot_rounding. *)
Theorem C60_binary64 : exists op : R -> R -> R, (forall a b, machine a -> machine b -> op a b = fl_add a b) /\
  0 <= u53 /\ (forall a b, Rabs (op a b - (a + b)) <= u53 * Rabs (a + b)) /\ (forall x, op 0 x = x /\ op x 0 = x).
Proof.
  exists (fun a b => if Req_EM_T a 0 then b else if Req_EM_T b 0 then a else fl_add a b). pose proof u53_small as U.
  assert (Z : forall x y, x = y -> Rabs (x - y) <= u53 * Rabs y). { intros x y ->. rewrite Rminus_diag_eq, Rabs_R0 by auto. apply Rmult_le_pos; [lra|apply Rabs_pos]. }
  split; [|split; [lra|split]].
  - intros a b Ha Hb. unfold fl_add. destruct (Req_EM_T a 0) as [->|]; [rewrite Rplus_0_l, fl_id; auto|]. destruct (Req_EM_T b 0) as [->|]; [rewrite Rplus_0_r, fl_id; auto|auto].
  - intros a b. destruct (Req_EM_T a 0) as [->|]; [apply Z; ring|]. destruct (Req_EM_T b 0) as [->|]; [apply Z; ring|]. apply fl_err.
  - intros x. destruct (Req_EM_T 0 0); [|lra]. split; [auto|]. destruct (Req_EM_T x 0); auto.
Qed.
Print Assumptions C60_binary64.

(** Gauss-Lobatto-Legendre bases of at most 24 points in type double: 144 units of roundoff for the values,
    169 for the first derivatives. *)
Theorem C65_binary64 : forall n nodes_n data, (2 <= n <= 24)%nat -> (gll_lag_size n <= length data)%nat ->
  let lit k := fl (entry k) in
  exists z f data', lobatto_nodes_fl lit nodes_n (repeat 0 n) n = Ok z /\ length z = n /\ distinct z n /\
    (forall i, (i < n)%nat -> Rabs (get z i - get (gll_list n) i) <= / 2 ^ 53 * Rabs (get (gll_list n) i)) /\
    gll_lag_setup_fl fl_add fl_sub fl_mul fl_div lit nodes_n data n = Ok (Some f, data') /\
    forall calls, Forall (valid_call n) calls -> Forall (machine_call machine) calls ->
      exists outs, evals f data' n calls = Ok outs /\ Forall2 (fun '(p, der, x) p' => forall i, (i < n)%nat ->
        Rabs (get p' i - basis z n i x) <= 144 / 2 ^ 53 * Rabs (basis z n i x) /\
        ((1 <= der)%nat -> exists D A, derivable_pt_lim (basis z n i) x D /\ derivable_pt_lim (shifted z n i x) 0 A /\
           Rabs (get p' (n + i) - D) <= 169 / 2 ^ 53 * A)) calls outs.
Proof.
  intros n nn data Hn Hd lit. pose proof u53_small as U.
  destruct (C65_table u53 fl_add fl_sub fl_mul fl_div machine lit fl_arithmetic fl_doubling fl_literals ltac:(lra) n nn data Hn Hd) as (z & f & d' & E1 & L & D & N & E2 & _ & _ & Q).
  exists z, f, d'. split; [auto|]. split; [auto|]. split; [auto|]. split; [exact N|]. split; [exact E2|].
  intros calls V M. destruct (Q calls V M) as (outs & E & FF). exists outs. split; [exact E|].
  assert (B : forall k c, (k + 1 <= c)%nat -> (c <= 200)%nat -> (1 + inv_eps u53) ^ k - 1 <= INR c / 2 ^ 53).
  { intros k c Hk Hc. exact (roundings_53 k c Hk Hc). }
  clear - Hn B FF. induction FF as [|[[p der] x] p' cl os Ev _ IH]; constructor; [|exact IH]. destruct Ev as (_ & _ & A0 & A1 & _). intros i Hi. split.
  - destruct (A0 i Hi) as [_ W]. unfold within in W. cbn [Nat.add] in W. eapply Rle_trans; [exact W|]. apply Rmult_le_compat_r; [apply Rabs_pos|].
    change 144 with (IZR (Z.of_nat 144)). rewrite <- INR_IZR_INZ. apply B; lia.
  - intros H1. destruct (A1 H1) as (DD & AA & W & HD). exists (DD i), (AA i). destruct (HD i Hi) as [HD1 HD2]. split; [auto|]. split; [auto|].
    destruct (W i Hi) as [W0 W1]. unfold within in W1. eapply Rle_trans; [exact W1|]. pose proof (Rabs_pos (DD i)). apply Rmult_le_compat_r; [lra|].
    change 169 with (IZR (Z.of_nat 169)). rewrite <- INR_IZR_INZ. apply B; lia.
Qed.
Print Assumptions C65_binary64.
(** Calls at machine numbers. *)
Example ex_machine : Forall (valid_call 12) [(repeat 0 24, 1%nat, / 2); (repeat 7 15, 0%nat, -1)] /\ Forall (machine_call machine) [(repeat 0 24, 1%nat, / 2); (repeat 7 15, 0%nat, -1)].
Proof.
  split; [repeat constructor; cbn; lia|]. repeat constructor; unfold machine_call; cbn [snd].
  - apply (generic_format_bpow radix2 (FLX_exp 53) (-1)). unfold FLX_exp. lia.
  - replace (-1) with (- (1)) by ring. apply generic_format_opp. apply (generic_format_bpow radix2 (FLX_exp 53) 0). unfold FLX_exp. lia.
Qed.
