(** Calls of the functions of poly_imp.h with rounding. *)
From Verif Require Import Base BaseLemmas Poly PolySpec PolyProof1 PolyProof2 PolyImpSyntax PolyImp PolyGll PolyImpProof.
From Verif Require Import TensorSpec TensorRoundSpec HalvingRound TensorRoundProof PolyRound PolyRoundSpec PolyRoundProof2 PolyGllRound PolyGllRoundSpec PolyGllRoundProof1.
From Coq Require Import Reals Lra.
Open Scope R_scope.
Local Notation get := PolySpec.get.

Section Call.
Variable eps : R.
Variables add sub mul div : R -> R -> R.
Hypothesis H : arithmetic eps add sub mul div.
Variable F : R -> Prop.
Hypothesis D2 : doubling F mul.
Variable lit : Z -> R.
Hypothesis Fl : forall k, F (lit k).
Variables n kw B0 B1 B2 : nat.
Variable f : prog.
Hypothesis C : checkf n kw B0 B1 B2 f = true.
Let g := map lit (nodes f).
Notation z := (fun i => zval g (zform n i)).

Lemma callf_ok p w der xh wS : (n <= length w)%nat -> (n * (der + 1) <= length p)%nat -> (der <= 2)%nat ->
  F xh -> (forall i, (i < n)%nat -> rel eps kw (get w i) (wS i)) ->
  exists p', gll_lag_fl add sub mul lit f p w n der xh = Ok (p', w) /\ same_out p p' 0 (n * (der + 1)) /\
    (forall i, (i < n)%nat -> rel eps B0 (get p' i) (wS i * L0 z n xh i)) /\
    ((1 <= der)%nat -> forall i, (i < n)%nat -> near (inv_eps eps) B1 (get p' (n + i)) (wS i * L1 z n xh i) (Rabs (wS i) * L1 (mz z xh) n 0 i)) /\
    ((2 <= der)%nat -> forall i, (i < n)%nat -> near (inv_eps eps) B2 (get p' (2 * n + i)) (wS i * L2 z n xh i) (Rabs (wS i) * L2 (mz z xh) n 0 i)).
Proof.
  intros Hw Hp Hder Fx Hr. assert (Fg : forall k, (k < length g)%nat -> F (get g k)).
  { intros k Hk. unfold g in *. rewrite map_length in Hk. unfold get. rewrite (nth_indep _ 0 (lit 0)) by (rewrite map_length; auto). rewrite map_nth. apply Fl. }
  unfold gll_lag_fl, call_fl. fold g. pose proof C as C'. unfold checkf in C'. replace (length (nodes f)) with (length g) in C' by apply map_length.
  destruct (fchk n (length g) kw B0 true [] _ _) as [d0|] eqn:C0; [|discriminate]. destruct (fchk n (length g) kw B1 false d0 _ _) as [d1|] eqn:C1; [|discriminate].
  destruct (fchk n (length g) kw B2 false d1 _ _) as [d2|] eqn:C2; [|discriminate]. clear C'.
  assert (T0 : (0 + n <= length p)%nat) by nia.
  destruct (fchk_ok eps add sub mul div H F D2 n kw g w xh Fx Fg Hw wS Hr _ _ _ _ _ [] p _ C0) as (e0 & p0 & E0 & P0 & H0); [intros v c Hv; discriminate|apply outs_range; nia|]. rewrite E0. cbn [bind].
  edestruct putsf_ok as [S0 R0]; [exact Hw|exact T0|exact P0|].
  assert (R0' : forall i, (i < n)%nat -> rel eps B0 (get p0 i) (wS i * L0 z n xh i)).
  { intros i Hi. destruct (R0 i Hi) as [_ Q]. specialize (Q eq_refl). unfold eo0 in Q. cbn [gmex Nat.add] in Q. rewrite gmex_eu0, gmex_ev0 in Q by auto.
    unfold L0. rewrite <- Rmult_assoc. exact Q. }
  destruct (Nat.eqb_spec der 0) as [->|N0].
  { exists p0. split; [auto|]. split; [eapply same_out_wide; [exact S0|lia|lia]|]. split; [auto|]. split; intros; lia. }
  assert (T1 : (n + n <= length p0)%nat) by (destruct S0; nia).
  destruct (fchk_ok eps add sub mul div H F D2 n kw g w xh Fx Fg Hw wS Hr _ _ _ _ _ e0 p0 _ C1 H0) as (e1 & p1 & E1 & P1 & H1); [apply outs_range; auto|]. rewrite E1. cbn [bind].
  edestruct putsf_ok as [S1 R1]; [exact Hw|exact T1|exact P1|].
  assert (X1 : forall i, (i < n)%nat -> near (inv_eps eps) B1 (get p1 (n + i)) (wS i * L1 z n xh i) (Rabs (wS i) * L1 (mz z xh) n 0 i)).
  { intros i Hi. destruct (R1 i Hi) as [Q _]. unfold eo1 in Q. cbn [gmex] in Q. rewrite !gmex_eu0, !gmex_eu1, !gmex_ev0, !gmex_ev1 in Q by auto.
    unfold L1. rewrite <- !(Rmult_assoc _ 2), !(Rmult_comm _ 2). exact Q. }
  assert (R01 : forall i, (i < n)%nat -> rel eps B0 (get p1 i) (wS i * L0 z n xh i)).
  { intros i Hi. destruct S1 as [_ S1]. rewrite S1 by lia. auto. }
  pose proof (same_out_trans _ _ _ _ _ _ _ 0 (n * (der + 1)) S0 S1 ltac:(lia) ltac:(nia) ltac:(lia) ltac:(nia)) as T. rewrite Nat.sub_0_r in T.
  destruct (Nat.eqb_spec der 1) as [->|N1].
  { exists p1. split; [auto|]. split; [exact T|]. split; [auto|]. split; intros; [auto|lia]. }
  assert (der = 2%nat) as -> by lia.
  assert (T2 : (2 * n + n <= length p1)%nat) by (destruct T; nia).
  destruct (fchk_ok eps add sub mul div H F D2 n kw g w xh Fx Fg Hw wS Hr _ _ _ _ _ e1 p1 _ C2 H1) as (e2 & p2 & E2 & P2 & H2); [apply outs_range; auto|]. rewrite E2. cbn [bind].
  edestruct putsf_ok as [S2 R2]; [exact Hw|exact T2|exact P2|].
  exists p2. split; [auto|].
  pose proof (same_out_trans _ _ _ _ _ _ _ 0 (n * (2 + 1)) T S2 ltac:(lia) ltac:(nia) ltac:(lia) ltac:(nia)) as TT. rewrite Nat.sub_0_r in TT.
  split; [exact TT|]. destruct S2 as [_ S2]. split; [intros i Hi; rewrite S2 by lia; auto|]. split; intros _ i Hi; [rewrite S2 by lia; auto|].
  destruct (R2 i Hi) as [Q _]. unfold eo2 in Q. cbn [gmex] in Q. rewrite !gmex_eu0, !gmex_eu1, !gmex_eu2, !gmex_ev0, !gmex_ev1, !gmex_ev2 in Q by auto.
  unfold L2. rewrite <- !(Rmult_assoc _ 4), !(Rmult_comm _ 4). exact Q.
Qed.
End Call.
