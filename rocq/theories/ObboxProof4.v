(** Setup of one direction. *)
From Verif Require Import Base BaseLemmas Poly PolySpec PolyProof1 PolyProof2 PolyProof3 PolyImpSyntax PolyImp PolyGll PolyGllSpec PolyImpProof PolyGllCheck PolyGllProof PolyQuad LobBnd LobBndSpec LobBndProof1 LobBndSetupProof1 LobBndSetupProof2 LobBndSetupProof3 Obbox ObboxSpec ObboxMax ObboxProof1 ObboxProof2 ObboxProof3.
From Coq Require Import Reals Lra Psatz.
Open Scope R_scope.

Lemma eval_len z data n p der x p' data' : (1 <= n)%nat -> ready z data n -> (der <= 2)%nat -> (n * (der + 1) <= length p)%nat ->
  lagrange_eval p data n der x = Ok (p', data') -> length data' = length data.
Proof.
  intros Hn (Ld & Rz & Rw) Hder Hp E.
  destruct (eval_ok (get z) n x (wt z n) p data der) as (p1 & d1 & E1 & S & _); auto. rewrite E1 in E. injection E as <- <-. destruct S; auto.
Qed.

Lemma lag_any nn n zs (w : arr) : (2 <= n)%nat -> lobatto_points nn n zs -> (gll_lag_size n <= length w)%nat -> exists lag gd,
  gll_lag_setup nn w n = Ok (Some lag, gd) /\
  forall p x, (2 * n <= length p)%nat -> exists p' g', lag p gd n 1%nat x = Ok (p', g') /\ length g' = length w /\ evaluates zs n 1 x p p'.
Proof.
  intros Hn LP Hw. destruct (Nat.le_gt_cases n 24) as [H|H].
  - destruct (setup_fix_ok n ltac:(lia) nn w) as (gd & E & [Lg _] & Hr).
    { unfold gll_lag_size in Hw. rewrite table_24 in Hw. destruct (Nat.leb_spec n 24); lia. }
    eexists; exists gd. split; [exact E|]. intros p x Hp.
    destruct (eval_fix_ok n ltac:(lia) gd p 1 x Hr ltac:(lia) ltac:(lia)) as (p' & E' & Ev). exists p', gd. split; [auto|]. split; [auto|].
    apply (evaluates_ext (gll_list n)); auto. intros j Hj. destruct (lp_run _ _ _ LP (repeat 0 n)) as (a & Ea & _ & _ & Va); [rewrite repeat_length; auto|].
    destruct (nodes_fix_ok n ltac:(lia) (repeat 0 n)) as (z' & Ez & _ & Rg); [rewrite repeat_length; auto|].
    unfold lobatto_nodes in Ea. rewrite table_24 in Ea. destruct (Nat.ltb_spec 24 n); [lia|]. destruct (Nat.leb_spec 2 n); [|lia]. rewrite Ez in Ea. injection Ea as <-.
    rewrite <- Va by auto. symmetry. apply (Rg j Hj).
  - assert (Ls : (gll_lag_size n = 9 * n)%nat) by (unfold gll_lag_size; rewrite table_24; destruct (Nat.leb_spec n 24); lia).
    destruct (lp_run _ _ _ LP w) as (a & Ea & La & Oa & Va); [lia|].
    unfold lobatto_nodes in Ea. rewrite table_24 in Ea. destruct (Nat.ltb_spec 24 n); [|lia].
    assert (D : distinct a n) by (intros i j Hi Hj; rewrite !Va by auto; apply (lp_distinct _ _ _ LP); auto).
    destruct (setup_big_ok nn w n a) as (gd & E & [Lg _] & Hr); auto; [lia|].
    exists lagrange_eval, gd. split; [exact E|]. intros p x Hp.
    destruct (eval_ready a gd n p 1 x ltac:(lia) Hr D ltac:(lia) ltac:(lia)) as (p' & g' & E' & Hr' & Ev). exists p', g'. split; [auto|]. split; [|apply (evaluates_ext a); auto].
    rewrite <- Lg. apply (eval_len a gd n p 1 x p' g'); auto; lia.
Qed.

(** I0 holds the values and derivatives at 0 of the basis functions; d is a bound_data for the same nodes. *)
Record dir_ok (I0 d : arr) (n m : nat) (zs : arr) : Prop := {
  do_len : length I0 = (2 * n)%nat;
  do_val : forall i, (i < n)%nat -> get I0 i = basis zs n i 0;
  do_der : forall i, (i < n)%nat -> derivable_pt_lim (basis zs n i) 0 (get I0 (n + i));
  do_bd : bound_data d n m;
  do_nodes : forall i, (i < n)%nat -> get d i = get zs i }.

Lemma setup_dir_ok nn n m zs w : good_dir nn n m zs -> (gll_lag_size n <= length w)%nat ->
  exists I0 d w', setup_dir nn w n m = Ok (I0, d, w') /\ length w' = length w /\ dir_ok I0 d n m zs.
Proof.
  intros [Hn Hm LP HF HL HB] Hw. unfold setup_dir.
  destruct (lag_any nn n zs w Hn LP Hw) as (lag & gd & E & Q). rewrite E. cbn [bind].
  destruct (Q (repeat 0 (2 * n)) 0) as (I0 & g' & E' & Lg & LI & _ & V); [rewrite repeat_length; lia|]. rewrite E'. cbn [bind].
  destruct (setup_runs nn n m zs (repeat 0 (lob_bnd_size n m)) Hn Hm LP) as (d & Ed & [Ld _] & SD); [rewrite repeat_length; lia|]. rewrite Ed. cbn [bind].
  exists I0, d, g'. split; [auto|]. split; [auto|]. rewrite repeat_length in LI, Ld. split.
  - auto.
  - intros i Hi. apply V; auto.
  - intros i Hi. apply V; auto.
  - apply (setup_bound_data zs); auto; [lia|apply (lp_distinct _ _ _ LP)|]. apply (HB _ _ Ed). rewrite repeat_length. lia.
  - intros i Hi. apply (sd_node _ _ _ _ SD i Hi).
Qed.
