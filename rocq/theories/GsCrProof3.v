(** The crystal-router setup: what each stage is made of. *)
From Verif Require Import Base BaseLemmas Net NetProof Sort SortSpec SortLemmas Transfer TransferProof TransferProof2 Kernels KernelSpec KernelProof ListLemmas Crystal CrystalProof
  GsTop GsSpec GsSortProof GsTopProof1 GsTopProof2 GsTopProof3 GsTopProof4 GsExec GsCr GsCrProof1 GsCrProof2.
From Coq Require Import Sorting.Sorted ZifyBool ZifyNat Permutation.
Ltac Zify.zify_post_hook ::= Z.div_mod_to_equations.

(** ** Who sends to whom *)
Section Froms.
Variable bl n : nat.
Hypothesis n2 : 2 <= n.
Notation nl := (nl n).
Notation bh := (bh bl n).
Notation froms := (froms bl n).

Lemma nl_cases : 2 * nl = n \/ 2 * nl = n + 1.
Proof. unfold CrystalProof.nl. lia. Qed.

Lemma froms_other p q : bl <= p < bl + n -> In q (froms p) -> bl <= q < bl + n /\ (p <? bh) = negb (q <? bh).
Proof.
  intros Hp Hq. pose proof nl_cases as Hn. unfold CrystalProof.froms, recvn, targ, targ0, CrystalProof.bh in *.
  destruct ((n mod 2 =? 1) && (p =? bl + nl)) eqn:E1.
  - apply andb_true_iff in E1 as [E1 E2]. apply Nat.eqb_eq in E1, E2. cbn [Nat.leb Nat.eqb app] in Hq.
    destruct (Nat.eqb_spec p (n - 1 - (p - bl) + bl)); destruct Hq as [<-|[<-|[]]]; 
      (split; [lia|]); destruct (Nat.ltb_spec p (bl + nl)); match goal with |- context [?a <? ?b] => destruct (Nat.ltb_spec a b) end; cbn; try lia.
  - apply andb_false_iff in E1. rewrite !Nat.eqb_neq in E1.
    destruct (Nat.eqb_spec p (n - 1 - (p - bl) + bl)) as [E|E]; cbn [Nat.leb Nat.eqb app] in Hq; [destruct Hq|]. destruct Hq as [<-|[]].
    split; [lia|]. destruct (Nat.ltb_spec p (bl + nl)); match goal with |- context [?a <? ?b] => destruct (Nat.ltb_spec a b) end; cbn; try lia.
Qed.

Context {X : Type}.
Variable g : nat -> list X.
Notation got := (fun p => concat (map g (froms p))).

Lemma froms_low : Permutation (concat (map got (seq bl nl))) (concat (map g (seq bh (n - nl)))).
Proof.
  pose proof nl_cases as Hnl. unfold CrystalProof.bh.
  replace (concat (map got (seq bl nl))) with (concat (map (fun p => g (targ0 bl n p)) (seq bl (n - nl)))).
  - rewrite <- map_map with (f := targ0 bl n). unfold targ0. rewrite seq_mirror by lia.
    etransitivity; [apply concat_map_perm; symmetry; apply Permutation_rev|].
    replace (bl + (n - (n - nl))) with (bl + nl) by lia. reflexivity.
  - assert (Eseq : seq bl nl = seq bl (n - nl) ++ seq (bl + (n - nl)) (2 * nl - n)) by (rewrite <- seq_app; f_equal; lia).
    rewrite Eseq, map_app, concat_app. clear Eseq.
    assert (concat (map got (seq (bl + (n - nl)) (2 * nl - n))) = []) as ->.
    { destruct Hnl as [H|H].
      - replace (2 * nl - n) with 0 by lia. auto.
      - replace (2 * nl - n) with 1 by lia. cbn [seq map concat]. rewrite app_nil_r.
        assert (froms (bl + (n - nl)) = []) as ->; auto.
        unfold CrystalProof.froms, recvn, targ, targ0. destruct (Nat.eqb_spec (bl + (n - nl)) bh) as [E|E]; [unfold CrystalProof.bh in E; lia|].
        rewrite andb_false_r. destruct (Nat.eqb_spec (bl + (n - nl)) (n - 1 - (bl + (n - nl) - bl) + bl)); [|lia]. auto. }
    rewrite app_nil_r. f_equal. apply map_ext_in. intros p Hp. apply in_seq in Hp.
    unfold CrystalProof.froms, recvn, targ. destruct (Nat.eqb_spec p bh); [unfold CrystalProof.bh in *; lia|]. rewrite andb_false_r.
    destruct (Nat.eqb_spec p (targ0 bl n p)); [unfold targ0 in *; lia|]. cbn. rewrite app_nil_r; auto.
Qed.
Lemma froms_high : Permutation (concat (map got (seq bh (n - nl)))) (concat (map g (seq bl nl))).
Proof.
  pose proof nl_cases as Hnl.
  replace (map got (seq bh (n - nl)))
    with (map (fun p => g (targ0 bl n p) ++ (if (n mod 2 =? 1) && (p =? bh) then g (bh - 1) else [])) (seq bh (n - nl))).
  2:{ apply map_ext_in. intros p Hp. apply in_seq in Hp.
      assert (E : p <> targ0 bl n p) by (unfold targ0, CrystalProof.bh in *; lia).
      unfold CrystalProof.froms, targ, recvn.
      destruct (Nat.eqb_spec p (targ0 bl n p)); [contradiction|].
      destruct (Nat.eqb_spec p bh) as [->|Hb].
      - destruct (Nat.eqb_spec (n mod 2) 1); cbn; rewrite ?app_nil_r; auto.
      - rewrite andb_false_r. cbn. rewrite !app_nil_r; auto. }
  rewrite concat_map_app.
  assert (E1 : Permutation (concat (map (fun p => g (targ0 bl n p)) (seq bh (n - nl)))) (concat (map g (seq bl (n - nl))))).
  { rewrite <- map_map with (f := targ0 bl n).
    apply concat_map_perm. apply NoDup_Permutation.
    - apply NoDup_map_inj; [|apply seq_NoDup].
      intros a b Ha Hb. apply in_seq in Ha, Hb. unfold targ0, CrystalProof.bh in *. lia.
    - apply seq_NoDup.
    - intros x. rewrite in_map_iff, in_seq. split.
      + intros (y & <- & Hy). apply in_seq in Hy. unfold targ0, CrystalProof.bh in *; lia.
      + intros Hx. exists (targ0 bl n x). rewrite in_seq. unfold targ0, CrystalProof.bh; lia. }
  rewrite E1.
  assert (Eseq : seq bl nl = seq bl (n - nl) ++ seq (bl + (n - nl)) (2 * nl - n)) by (rewrite <- seq_app; f_equal; lia).
  rewrite Eseq, map_app, concat_app. clear Eseq. apply Permutation_app_head.
  destruct Hnl as [H|H].
  + replace (2 * nl - n) with 0 by lia.
    destruct (Nat.eqb_spec (n mod 2) 1); [lia|]. cbn [andb seq map concat].
    generalize (seq bh (n - nl)). induction l; simpl; auto.
  + replace (2 * nl - n) with 1 by lia.
    destruct (Nat.eqb_spec (n mod 2) 1); [|lia]. cbn [andb seq map concat]. rewrite app_nil_r.
    replace (n - nl) with (S (n - nl - 1)) at 1 by lia. cbn [seq map concat].
    rewrite Nat.eqb_refl.
    assert (concat (map (fun p => if p =? bh then g (bh - 1) else []) (seq (S bh) (n - nl - 1))) = []) as ->.
    { assert (E : forall p, In p (seq (S bh) (n - nl - 1)) -> p <> bh) by (intros p Hp; apply in_seq in Hp; lia).
      revert E. generalize (seq (S bh) (n - nl - 1)). induction l as [|a l IH]; intros E; simpl; auto.
      destruct (Nat.eqb_spec a bh) as [Ea|_]; [exfalso; apply (E a); [left|]; auto|]. rewrite IH; auto.
      intros p Hp; apply E; right; auto. }
    rewrite app_nil_r. replace (bh - 1) with (bl + (n - nl)) by (unfold CrystalProof.bh; lia). apply Permutation_refl.
Qed.
End Froms.

(** ** Origins

    At a stage a process holds the data of some processes; an origin is such a process and the
    slot of each label of its data. *)
Definition origin := (nat * (nat -> nat))%type.

(** The processes whose data arrive in a stage, with the offset of their slots: s q is the
    size of the message of q. *)
Fixpoint offsets (s : nat -> nat) (acc : nat) (qs : list nat) : list (nat * nat) :=
  match qs with [] => [] | q :: qs' => (q, acc) :: offsets s (acc + s q) qs' end.
Definition ssum (s : nat -> nat) (qs : list nat) : nat := fold_right (fun q a => s q + a) 0 qs.
Definition branches (bl n : nat) (s : nat -> nat) (p : nat) : list (nat * nat) :=
  (p, ssum s (froms bl n p)) :: offsets s 0 (froms bl n p).
Definition next_origins (bl n : nat) (s : nat -> nat) (beta : nat -> nat -> nat) (A : nat -> list origin) (p : nat) : list origin :=
  flat_map (fun qo => map (fun a : origin => (fst a, fun x => snd qo + beta (fst qo) x)) (A (fst qo))) (branches bl n s p).

Lemma map_fst_offsets s qs : forall acc, map fst (offsets s acc qs) = qs.
Proof. induction qs as [|q qs IH]; intros acc; cbn; auto. rewrite IH; auto. Qed.
Lemma in_offsets s qs : forall acc q o, In (q, o) (offsets s acc qs) -> In q qs /\ acc <= o /\ o + s q <= acc + ssum s qs.
Proof.
  unfold ssum. induction qs as [|q0 qs IH]; intros acc q o Hin; cbn [offsets fold_right In] in *; [destruct Hin|]. destruct Hin as [E|Hin].
  - injection E as <- <-. split; auto. lia.
  - apply IH in Hin. destruct Hin as [H1 H2]. split; auto. lia.
Qed.
Lemma in_branches bl n s p q o : In (q, o) (branches bl n s p) ->
  q = p /\ o = ssum s (froms bl n p) \/ In q (froms bl n p) /\ o + s q <= ssum s (froms bl n p).
Proof.
  intros [E|Hin]; [injection E as <- <-; auto|]. right. apply in_offsets in Hin. split; [tauto|lia].
Qed.
Lemma froms_branch bl n s p q : In q (froms bl n p) -> exists o, In (q, o) (branches bl n s p).
Proof.
  intros Hq. rewrite <- (map_fst_offsets s (froms bl n p) 0) in Hq. apply in_map_iff in Hq as ([q' o] & E & Hin). cbn in E. subst q'.
  exists o. right. auto.
Qed.
Lemma froms_length bl n p : length (froms bl n p) <= 2.
Proof. unfold froms. destruct (1 <=? recvn bl n p), (recvn bl n p =? 2); cbn; lia. Qed.

Section Plan.
Variable usize np : nat.
Variable src dst : nat -> nat -> bool.    (* src x o, dst x d *)
Variable PI : nat -> nat -> nat.
Notation UMAX := (UINT_MAX usize).

(** Label x is at a process with these origins and has a destination in the interval. *)
Definition alive (A : list origin) (bl n x : nat) : Prop :=
  (exists a, In a A /\ src x (fst a) = true) /\ exists d, bl <= d < bl + n /\ dst x d = true.

(** The groups of slots to be combined. *)
Record maps_ok (A : list origin) (bl n : nat) (beta : nat -> nat) (gs : list cgroup) : Prop := {
  mo_heads : NoDup (map fst gs);
  mo_group : forall b s os, In (b, (s, os)) gs -> NoDup (s :: os) /\ exists x, b = beta x /\ alive A bl n x /\
    forall s', In s' (s :: os) <-> exists a, In a A /\ src x (fst a) = true /\ snd a x = s';
  mo_all : forall x, alive A bl n x -> exists s os, In (beta x, (s, os)) gs;
  mo_inj : forall x y, alive A bl n x -> alive A bl n y -> beta x = beta y -> x = y }.

Definition stage_maps (st : cr_stage) (gs : list cgroup) : Prop :=
  c_scatter st = encode UMAX (s_groups gs) /\ c_gather st = encode UMAX (g_groups gs).

(** The stages of the processes of an interval. *)
Inductive sok : nat -> nat -> (nat -> list origin) -> (nat -> list cr_stage) -> Prop :=
| sok_end bl A sts st gs :
    sts bl = [st] -> stage_maps st gs -> maps_ok (A bl) bl 1 (PI bl) gs -> sok bl 1 A sts
| sok_step bl n A sts st rest beta gs :
    2 <= n ->
    (forall p, bl <= p < bl + n ->
       sts p = st p :: rest p /\ stage_maps (st p) (gs p) /\ maps_ok (A p) bl n (beta p) (gs p) /\
       c_nrecvn (st p) = recvn bl n p /\ c_p1 (st p) = targ bl n p /\ c_p2 (st p) = p - 1 /\
       cr_msgs (c_nrecvn (st p)) (c_p1 (st p)) (c_p2 (st p)) (c_r1 (st p)) (c_r2 (st p)) =
         map (fun q => (q, c_s (st q))) (froms bl n p) /\
       c_r (st p) = ssum (fun q => c_s (st q)) (froms bl n p) /\ c_s (st p) <= c_sk (st p) /\
       (forall x, alive (A p) bl n x -> beta p x < c_sk (st p)) /\
       (forall x, (exists a, In a (A p) /\ src x (fst a) = true) ->
          (exists d, bl <= d < bl + n /\ dst x d = true /\ (p <? bh bl n) = negb (d <? bh bl n)) -> beta p x < c_s (st p))) ->
    sok bl (nl n) (next_origins bl n (fun q => c_s (st q)) beta A) rest ->
    sok (bh bl n) (n - nl n) (next_origins bl n (fun q => c_s (st q)) beta A) rest ->
    sok bl n A sts.
End Plan.
