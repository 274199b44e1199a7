(** Setup of the pairwise method: the maps and messages as functions of the topology. *)
From Verif Require Import Base BaseLemmas Sort SortSpec Sarray Transfer KernelSpec KernelProof ListLemmas
  GsTop GsSortProof GsTopProof1 GsExec.
From Coq Require Import Sorting.Sorted.

Definition erase (s : shared_id) : shared_id := SH (s_id s) (s_i s) (s_p s) (s_ri s) 0 (s_local s) (s_remote s).

(** ** pw_messages *)
Fixpoint runs (lp : nat) (acc : list (nat * nat)) (ps : list nat) : list (nat * nat) :=
  match ps with
  | [] => rev acc
  | p :: ps' =>
      if p =? lp then match acc with (q, c) :: a => runs p ((q, S c) :: a) ps' | [] => runs p [] ps' end
      else runs p ((p, 1) :: acc) ps'
  end.

Lemma pw_messages_runs remote l : forall lp acc,
  pw_messages remote lp acc l = runs lp acc (map s_p (filter (fun s => negb (masked remote s)) l)).
Proof.
  induction l as [|s l IH]; intros lp acc; cbn [pw_messages filter map runs]; auto.
  destruct (masked remote s); cbn [negb]; [auto|]. cbn [map runs].
  destruct (s_p s =? lp); [destruct acc as [|[q c] a]|]; auto.
Qed.

Lemma runs_repeat q c : forall m acc rest, runs q ((q, m) :: acc) (repeat q c ++ rest) = runs q ((q, m + c) :: acc) rest.
Proof.
  induction c as [|c IH]; intros m acc rest; cbn [repeat app runs]; [do 3 f_equal; lia|].
  rewrite Nat.eqb_refl, IH. do 3 f_equal. lia.
Qed.

Lemma runs_blocks (cnt : nat -> nat) qs : forall lp acc, NoDup qs -> ~ In lp qs ->
  runs lp acc (flat_map (fun q => repeat q (cnt q)) qs) =
  rev acc ++ map (fun q => (q, cnt q)) (filter (fun q => negb (cnt q =? 0)) qs).
Proof.
  induction qs as [|q qs IH]; intros lp acc ND Hl; cbn [flat_map filter map runs].
  - rewrite app_nil_r. auto.
  - inversion ND; subst. destruct (cnt q) as [|c] eqn:Ec; cbn [repeat app Nat.eqb negb].
    + apply IH; auto. intros H. apply Hl. right; auto.
    + cbn [runs]. destruct (Nat.eqb_spec q lp) as [->|_]; [exfalso; apply Hl; left; auto|].
      rewrite runs_repeat, IH by auto. cbn [map rev]. rewrite <- app_assoc, Ec. auto.
Qed.

Section Usize.
Variable usize : nat.
Notation UMAX := (UINT_MAX usize).

(** ** pw_assign *)
Lemma pw_assign_ok remote l : forall c l' c', pw_assign usize remote c l = (l', c') ->
  map erase l' = map erase l /\ c' = c + length (filter (fun s => negb (masked remote s)) l) /\
  map s_bi (filter (fun s => negb (masked remote s)) l') = seq c (length (filter (fun s => negb (masked remote s)) l)) /\
  (forall s, In s l' -> masked remote s = true -> s_bi s = UMAX).
Proof.
  induction l as [|s l IH]; intros c l' c' E; cbn [pw_assign] in E.
  - injection E as <- <-. cbn. repeat split; auto; intros s [].
  - cbn [filter]. destruct (masked remote s) eqn:Em.
    + destruct (pw_assign usize remote c l) as [l0 c0] eqn:E0. injection E as <- <-.
      destruct (IH _ _ _ E0) as (A1 & A2 & A3 & A4). cbn [map filter negb].
      assert (Em' : forall b, masked remote (SH (s_id s) (s_i s) (s_p s) (s_ri s) b (s_local s) (s_remote s)) = true)
        by (intros; unfold masked in *; destruct remote; auto).
      rewrite Em'. cbn [negb]. split; [rewrite A1; reflexivity|]. repeat split; auto. intros s' [<-|Hs]; auto.
    + destruct (pw_assign usize remote (S c) l) as [l0 c0] eqn:E0. injection E as <- <-.
      destruct (IH _ _ _ E0) as (A1 & A2 & A3 & A4). cbn [map filter negb].
      assert (Em' : forall b, masked remote (SH (s_id s) (s_i s) (s_p s) (s_ri s) b (s_local s) (s_remote s)) = false)
        by (intros; unfold masked in *; destruct remote; auto).
      rewrite Em'. cbn [negb length map seq s_bi]. split; [rewrite A1; reflexivity|]. split; [lia|]. split; [rewrite A3; auto|].
      intros s' [<-|Hs] Hm; auto. rewrite Em' in Hm. discriminate.
Qed.

(** ** pw_map *)
Definition live (s : shared_id) : bool := negb (s_bi s =? UMAX).
Lemma pw_map_ok l :
  (exists gs, pw_map usize None l = encode UMAX gs /\ pairs gs = map (fun s => (s_i s, s_bi s)) (filter live l) /\
     forall g, In g gs -> snd g <> []) /\
  (forall i, exists js gs, pw_map usize (Some i) l = js ++ UMAX :: encode UMAX gs /\
     map (fun j => (i, j)) js ++ pairs gs = map (fun s => (s_i s, s_bi s)) (filter live l) /\
     forall g, In g gs -> snd g <> []).
Proof.
  induction l as [|s l [IHn IHs]].
  - split.
    + exists []. cbn. repeat split; auto; intros g [].
    + intros i. exists [], []. cbn. repeat split; auto; intros g [].
  - assert (F : exists gs, (if s_bi s =? UMAX then pw_map usize None l else s_i s :: s_bi s :: pw_map usize (Some (s_i s)) l) = encode UMAX gs /\
        pairs gs = map (fun s => (s_i s, s_bi s)) (filter live (s :: l)) /\ forall g, In g gs -> snd g <> []).
    { cbn [filter]. unfold live at 1. destruct (s_bi s =? UMAX); cbn [negb].
      - destruct IHn as (gs & E & P & N). exists gs. auto.
      - destruct (IHs (s_i s)) as (js & gs & E & P & N). exists ((s_i s, s_bi s :: js) :: gs). rewrite E. split; [|split].
        + unfold encode. cbn [flat_map fst snd app]. rewrite <- !app_assoc. reflexivity.
        + rewrite pairs_cons. cbn [map app]. rewrite P. reflexivity.
        + intros g [<-|Hg]; [discriminate|auto]. }
    split.
    + cbn [pw_map]. exact F.
    + intros i. cbn [pw_map]. destruct (Nat.eqb_spec (s_i s) i) as [Ei|Ei].
      * destruct (IHs i) as (js & gs & E & P & N). cbn [filter]. unfold live at 1.
        destruct (s_bi s =? UMAX); cbn [negb].
        -- exists js, gs. rewrite E. cbn [app]. auto.
        -- exists (s_bi s :: js), gs. rewrite E. cbn [app map]. rewrite P, <- Ei. auto.
      * destruct F as (gs & E & P & N). exists [], gs. rewrite E. cbn [app map]. auto.
Qed.

Lemma valid_from_pairs n m gs : (forall g, In g gs -> snd g <> []) ->
  (forall i j, In (i, j) (pairs gs) -> i < n /\ j < m) -> n <= UMAX -> m <= UMAX -> valid_map UMAX n m gs.
Proof.
  intros N P Hn Hm. split; auto. split; auto. intros i js Hg. split; [apply (N _ Hg)|].
  assert (A : forall j, In j js -> In (i, j) (pairs gs)).
  { intros j Hj. unfold pairs. apply in_flat_map. exists (i, js). split; auto. cbn. apply in_map; auto. }
  split.
  - specialize (N _ Hg). cbn in N. destruct js as [|j js]; [congruence|]. apply (P i j). apply A. left; auto.
  - intros j Hj. apply (P i j). auto.
Qed.
End Usize.
