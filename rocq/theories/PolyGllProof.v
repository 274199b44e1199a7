(** Gauss-Lobatto-Legendre nodes and the functions set up by gll_lag_setup. *)
From Verif Require Import Base BaseLemmas Poly PolySpec PolyProof1 PolyProof2 PolyImpSyntax PolyImp PolyGll PolyGllSpec PolyImpProof.
From Coq Require Import Reals Lra.
Open Scope R_scope.

Lemma L_ext f g n x i : (i < n)%nat -> (forall j, (j < n)%nat -> f j = g j) ->
  L0 f n x i = L0 g n x i /\ L1 f n x i = L1 g n x i /\ L2 f n x i = L2 g n x i.
Proof.
  intros Hi E.
  assert (D : forall j, (j < n)%nat -> dd f x j = dd g x j) by (intros j Hj; unfold dd; rewrite E; auto).
  assert (U : forall k, (k <= n)%nat -> U0 f x k = U0 g x k /\ U1 f x k = U1 g x k /\ U2 f x k = U2 g x k).
  { induction k as [|k IH]; intros Hk; [auto|]. destruct IH as (A & B & C); [lia|]. cbn [U0 U1 U2]. rewrite A, B, C, D by lia. auto. }
  assert (V : forall k, W0 f n x k = W0 g n x k /\ W1 f n x k = W1 g n x k /\ W2 f n x k = W2 g n x k).
  { induction k as [|k (A & B & C)]; [auto|]. cbn [W0 W1 W2]. rewrite A, B, C, D by lia. auto. }
  destruct (U i ltac:(lia)) as (A & B & C). destruct (V (n - 1 - i)%nat) as (A' & B' & C').
  unfold L0, L1, L2, V0, V1, V2. rewrite A, B, C, A', B', C'. auto.
Qed.
Lemma regs_evaluates z n der x p p' : distinct z n -> same_out p p' 0 (n * (der + 1)) ->
  reg p' 0 n (fun i => wt z n i * L0 (get z) n x i) ->
  ((1 <= der)%nat -> reg p' n n (fun i => wt z n i * L1 (get z) n x i)) ->
  ((2 <= der)%nat -> reg p' (2 * n) n (fun i => wt z n i * L2 (get z) n x i)) -> evaluates z n der x p p'.
Proof.
  intros D Sp R0 R1 R2. destruct Sp as [Lp Sp]. split; [auto|]. split; [intros k Hk; apply Sp; lia|]. intros i Hi.
  assert (B : forall y, basis z n i y = wt z n i * L0 (get z) n y i) by (intros; apply basis_L0; auto).
  assert (D1 : forall y, derivable_pt_lim (basis z n i) y (wt z n i * L1 (get z) n y i)).
  { intros y. apply (derivable_pt_lim_ext (fun y => wt z n i * L0 (get z) n y i)); [intros; symmetry; apply B|]. apply der_scal, L0_der. }
  split; [rewrite <- (Nat.add_0_l i), (R0 i Hi), B; auto|]. split.
  - intros H. rewrite (R1 H i Hi). apply D1.
  - intros H. rewrite (R2 H i Hi). exists (fun y => wt z n i * L1 (get z) n y i). split; [apply D1|]. apply der_scal, L1_der.
Qed.

(** The nodes. *)
Definition tz (n : nat) : list Z := nth (n - 4) gllz_table [].
Definition zvalZ (t : list Z) (z : zf) : Z :=
  match z with ZM1 => - 10 ^ 52 | ZMG k => - nth k t 0 | Z00 => 0 | ZPG k => nth k t 0 | ZP1 => 10 ^ 52 end%Z.
Definition gll_list_Z (n : nat) : list Z :=
  let t := if (n <? 4)%nat then [] else tz n in
  ([- 10 ^ 52] ++ map Z.opp t ++ (if Nat.odd n then [0] else []) ++ rev t ++ [10 ^ 52])%Z.
Definition table_check (n : nat) : bool :=
  let t := if (n <? 4)%nat then [] else tz n in
  (length t =? n / 2 - 1)%nat &&
  (length (gll_list_Z n) =? n)%nat &&
  forallb (fun i => (nth i (gll_list_Z n) 0 =? zvalZ t (zform n i))%Z) (seq 0 n) &&
  forallb (fun i => (nth i (gll_list_Z n) 0 <? nth (S i) (gll_list_Z n) 0)%Z) (seq 0 (n - 1)) &&
  (if list_eq_dec Z.eq_dec t (nodes (nth (n - 2) gll_lag_table gll_lag_02)) then true else false).
Lemma tables_checked : forallb table_check (seq 2 23) = true.
Proof. vm_compute. reflexivity. Qed.

Lemma pow10_pos : 0 < 10 ^ 52. Proof. apply pow_lt. lra. Qed.
Lemma entry_opp z : entry (- z) = - entry z.
Proof. unfold entry. rewrite opp_IZR. unfold Rdiv. ring. Qed.
Lemma IZR_pow52 : IZR (10 ^ 52) = 10 ^ 52. Proof. rewrite pow_IZR. f_equal. Qed.
Lemma entry_1 : entry (10 ^ 52) = 1.
Proof. unfold entry. rewrite IZR_pow52. apply Rinv_r, Rgt_not_eq, pow10_pos. Qed.
Lemma entry_0 : entry 0 = 0. Proof. unfold entry, Rdiv. ring. Qed.
Lemma entry_lt a b : (a < b)%Z -> entry a < entry b.
Proof. intros H. unfold entry, Rdiv. apply Rmult_lt_compat_r; [apply Rinv_0_lt_compat, pow10_pos|apply IZR_lt, H]. Qed.
Lemma get_entry t k : get (map entry t) k = entry (nth k t 0%Z).
Proof. unfold get. rewrite <- entry_0, map_nth. reflexivity. Qed.
Lemma zval_entry t z : zval (map entry t) z = entry (zvalZ t z).
Proof. destruct z; cbn [zval zvalZ]; rewrite ?entry_opp, ?entry_1, ?entry_0, ?get_entry; auto. Qed.
Lemma gll_list_entry n : gll_list n = map entry (gll_list_Z n).
Proof.
  unfold gll_list, gll_list_Z, gll_table, tz. rewrite !map_app, map_rev. cbn [map]. rewrite entry_opp, entry_1.
  set (t := if (n <? 4)%nat then [] else nth (n - 4) gllz_table []).
  assert (E : map Ropp (map entry t) = map entry (map Z.opp t)) by (rewrite !map_map; apply map_ext; intros; symmetry; apply entry_opp).
  rewrite E. destruct (Nat.odd n); cbn [map]; rewrite ?entry_0; reflexivity.
Qed.

Lemma table_ok n : (2 <= n <= 24)%nat -> table_check n = true.
Proof. intros H. pose proof tables_checked as T. rewrite forallb_forall in T. apply T. apply in_seq. lia. Qed.
Lemma increasing_distinct z m : (forall i, (i + 1 < m)%nat -> get z i < get z (S i)) -> distinct z m.
Proof.
  intros H.
  assert (G : forall k i, (i + k < m)%nat -> (1 <= k)%nat -> get z i < get z (i + k)).
  { induction k as [|k IH]; intros i Hi Hk; [lia|]. destruct (Nat.eq_dec k 0) as [->|]; [rewrite Nat.add_1_r; apply H; lia|].
    eapply Rlt_trans; [apply IH; lia|]. rewrite Nat.add_succ_r. apply H. lia. }
  intros i j Hi Hj E. destruct (Nat.lt_trichotomy i j) as [C|[C|C]]; [|auto|].
  - pose proof (G (j - i)%nat i) as Q. replace (i + (j - i))%nat with j in Q by lia. specialize (Q Hj ltac:(lia)). lra.
  - pose proof (G (i - j)%nat j) as Q. replace (j + (i - j))%nat with i in Q by lia. specialize (Q Hi ltac:(lia)). lra.
Qed.
Section T.
Variable n : nat.
Hypothesis Hn : (2 <= n <= 24)%nat.
Let t := if (n <? 4)%nat then [] else tz n.
Lemma table_parts : length t = (n / 2 - 1)%nat /\ length (gll_list n) = n /\
  (forall i, (i < n)%nat -> get (gll_list n) i = zval (map entry t) (zform n i)) /\
  (forall i, (i + 1 < n)%nat -> get (gll_list n) i < get (gll_list n) (S i)) /\
  t = nodes (nth (n - 2) gll_lag_table gll_lag_02).
Proof.
  pose proof (table_ok n Hn) as C. unfold table_check in C. fold t in C. rewrite !andb_true_iff in C. destruct C as [[[[C1 C2] C3] C4] C5].
  apply Nat.eqb_eq in C1, C2. rewrite forallb_forall in C3, C4. rewrite gll_list_entry, map_length. split; [auto|]. split; [auto|]. split; [|split].
  - intros i Hi. rewrite get_entry, zval_entry. f_equal. apply Z.eqb_eq, C3. apply in_seq. lia.
  - intros i Hi. rewrite !get_entry. apply entry_lt, Z.ltb_lt, C4. apply in_seq. lia.
  - destruct list_eq_dec; [auto|discriminate].
Qed.
Lemma gll_distinct : distinct (gll_list n) n.
Proof. apply increasing_distinct, table_parts. Qed.

Lemma zform_0 : zform n 0 = ZM1. Proof. reflexivity. Qed.
Lemma zform_last : zform n (n - 1) = ZP1.
Proof. unfold zform. destruct (Nat.eqb_spec (n - 1) 0); [lia|]. rewrite Nat.eqb_refl. auto. Qed.
Lemma nodes_fix_ok z : (n <= length z)%nat ->
  exists z', lobatto_nodes_fix z n = Ok z' /\ same_out z z' 0 n /\ reg z' 0 n (get (gll_list n)).
Proof.
  intros Hz. destruct table_parts as (Lt & _ & Hg & _ & _). set (g := map entry t) in *. assert (Lg : length g = (n / 2 - 1)%nat) by (unfold g; rewrite map_length; auto).
  assert (DV : (n = 2 * (n / 2) + n mod 2)%nat) by (apply Nat.div_mod; lia). assert (MB := Nat.mod_upper_bound n 2 ltac:(lia)).
  assert (ODD : Nat.odd n = (n mod 2 =? 1)%nat).
  { rewrite <- Nat.bit0_mod, Nat.bit0_odd. destruct (Nat.odd n); reflexivity. }
  assert (D1 : ((n + 1) / 2 = n / 2 + n mod 2)%nat).
  { symmetry. apply (Nat.div_unique (n + 1) 2 _ (1 - n mod 2)%nat); lia. }
  unfold lobatto_nodes_fix. remember (n / 2)%nat as h eqn:Eh. rewrite wr_get by lia. cbn [bind]. rewrite wr_get by (rewrite upd_length'; lia). cbn [bind].
  set (z1 := upd (upd z 0 (-1)) (n - 1) 1).
  assert (A1 : length z1 = length z /\ forall k, get z1 k = if (k =? n - 1)%nat then 1 else if (k =? 0)%nat then -1 else get z k).
  { unfold z1. split; [rewrite !upd_length'; auto|]. intros k. rewrite !get_upd by (rewrite ?upd_length'; lia). auto. }
  clearbody z1. destruct A1 as [L1 A1].
  assert (A2 : exists z2, (if Nat.odd n then wr z1 h 0 else Ok z1) = Ok z2 /\ length z2 = length z /\
            forall k, (n <= k)%nat -> get z2 k = get z k).
  { destruct (Nat.odd n); [rewrite wr_get by lia|]; eexists; (split; [reflexivity|]); rewrite ?upd_length'; split; auto;
      intros k Hk; rewrite ?get_upd by lia; rewrite A1; repeat match goal with |- context [(?a =? ?b)%nat] => destruct (Nat.eqb_spec a b); try lia end; auto. }
  assert (A3 : exists z2, (if Nat.odd n then wr z1 h 0 else Ok z1) = Ok z2 /\ length z2 = length z /\ (forall k, (n <= k)%nat -> get z2 k = get z k) /\
            get z2 0 = -1 /\ get z2 (n - 1) = 1 /\ forall k, (2 * k + 1 = n)%nat -> (0 < k)%nat -> get z2 k = 0).
  { destruct A2 as (z2 & E2 & L2 & O2). exists z2. split; [auto|]. split; [auto|]. split; [auto|].
    destruct (Nat.odd n); cbn [bind] in E2.
    - rewrite wr_get in E2 by lia. injection E2 as <-. assert (n <> 2)%nat by (intros ->; discriminate ODD). 
      symmetry in ODD. apply Nat.eqb_eq in ODD. rewrite !get_upd by lia. rewrite !A1. split; [|split].
      + repeat match goal with |- context [(?a =? ?b)%nat] => destruct (Nat.eqb_spec a b); try lia end; auto.
      + repeat match goal with |- context [(?a =? ?b)%nat] => destruct (Nat.eqb_spec a b); try lia end; auto.
      + intros k Hk K0. rewrite get_upd by lia. destruct (Nat.eqb_spec k h); [auto|lia].
    - injection E2 as <-. symmetry in ODD. apply Nat.eqb_neq in ODD. rewrite !A1. split; [|split].
      + repeat match goal with |- context [(?a =? ?b)%nat] => destruct (Nat.eqb_spec a b); try lia end; auto.
      + repeat match goal with |- context [(?a =? ?b)%nat] => destruct (Nat.eqb_spec a b); try lia end; auto.
      + intros k Hk K0. lia. }
  clear A2. destruct A3 as (z2 & E2 & L2 & O2 & F0 & FN & FM). rewrite E2. cbn [bind]. clear E2.
  destruct (Nat.ltb_spec n 4) as [H4|H4].
  { exists z2. split; [auto|]. split; [split; [auto|intros k Hk; apply O2; lia]|]. intros i Hi. cbn [Nat.add]. rewrite Hg by auto.
    destruct (Nat.eq_dec i 0) as [->|]; [rewrite F0; reflexivity|]. destruct (Nat.eq_dec i (n - 1)) as [->|]; [rewrite FN, zform_last; reflexivity|].
    assert (2 * i + 1 = n)%nat by lia. rewrite (FM i) by lia. unfold zform.
    repeat match goal with |- context [(?a =? ?b)%nat] => destruct (Nat.eqb_spec a b); try lia end. reflexivity. }
  assert (Et : nth_error gllz_table (n - 4) = Some t).
  { unfold t, tz. destruct (Nat.ltb_spec n 4); [lia|]. apply nth_error_nth'. change (length gllz_table) with 21%nat. lia. }
  rewrite Et. fold g.
  (* left half *)
  assert (G1 : forall k, (k <= h - 1)%nat -> exists z3, foldM (fun z i => gi <- rd g (i - 1) ;; wr z i (- gi)) (seq 1 k) z2 = Ok z3 /\ length z3 = length z /\
            (forall j, (1 <= j <= k)%nat -> get z3 j = - get g (j - 1)) /\ (forall j, (j < 1 \/ k < j)%nat -> get z3 j = get z2 j)).
  { induction k as [|k IH]; intros Hk; [exists z2; split; [auto|]; split; [auto|]; split; auto; intros; lia|].
    destruct IH as (z3 & E3 & L3 & I3 & O3); [lia|]. rewrite seq_S, foldM_snoc, E3. cbn [bind]. rewrite rd_get by lia. cbn [bind]. rewrite wr_get by lia.
    eexists. split; [reflexivity|]. split; [rewrite upd_length'; auto|]. split.
    - intros j Hj. rewrite get_upd by lia. destruct (Nat.eqb_spec j (1 + k)) as [->|]; [auto|apply I3; lia].
    - intros j Hj. rewrite get_upd by lia. destruct (Nat.eqb_spec j (1 + k)); [lia|apply O3; lia]. }
  destruct (G1 (h - 1)%nat ltac:(lia)) as (z3 & E3 & L3 & I3 & O3). rewrite E3. cbn [bind].
  (* right half *)
  set (a := ((n + 1) / 2)%nat) in *.
  assert (G2 : forall k, (k <= n - 1 - a)%nat -> exists z4, foldM (fun '(z, i) j => gi <- rd g (i - 1) ;; z <- wr z j gi ;; Ok (z, (i - 1)%nat)) (seq a k) (z3, (h - 1)%nat) =
            Ok (z4, (h - 1 - k)%nat) /\ length z4 = length z /\
            (forall j, (a <= j < a + k)%nat -> get z4 j = get g (n - 2 - j)) /\ (forall j, (j < a \/ a + k <= j)%nat -> get z4 j = get z3 j)).
  { induction k as [|k IH]; intros Hk; [exists z3; split; [rewrite Nat.sub_0_r; auto|]; split; [auto|]; split; auto; intros; lia|].
    destruct IH as (z4 & E4 & L4 & I4 & O4); [lia|]. rewrite seq_S, foldM_snoc, E4. cbn [bind]. rewrite rd_get by lia. cbn [bind]. rewrite wr_get by lia. cbn [bind].
    replace (h - 1 - S k)%nat with (h - 1 - k - 1)%nat by lia. eexists. split; [reflexivity|]. split; [rewrite upd_length'; auto|]. split.
    - intros j Hj. rewrite get_upd by lia. destruct (Nat.eqb_spec j (a + k)) as [->|]; [f_equal; lia|apply I4; lia].
    - intros j Hj. rewrite get_upd by lia. destruct (Nat.eqb_spec j (a + k)); [lia|apply O4; lia]. }
  destruct (G2 (n - 1 - a)%nat ltac:(lia)) as (z4 & E4 & L4 & I4 & O4). rewrite E4. cbn [bind]. exists z4. split; [auto|]. split.
  - split; [auto|]. intros k Hk. rewrite O4, O3, O2 by lia. auto.
  - intros i Hi. cbn [Nat.add]. rewrite Hg by auto. unfold zform. rewrite <- Eh.
    destruct (Nat.eqb_spec i 0) as [->|]; [rewrite O4, O3 by lia; auto|].
    destruct (Nat.eqb_spec i (n - 1)) as [->|]; [rewrite O4, O3 by lia; auto|].
    destruct (Nat.eqb_spec (2 * i + 1) n); [rewrite O4, O3 by lia; apply FM; lia|].
    destruct (Nat.ltb_spec i h); cbn [zval].
    + rewrite O4 by lia. apply I3. lia.
    + apply I4. lia.
Qed.

(** The function of the table, with the weights in data. *)
Definition ready_fix (data : arr) : Prop := (n <= length data)%nat /\ reg data 0 n (wt (gll_list n) n).
Let f := nth (n - 2) gll_lag_table gll_lag_02.
Lemma f_nth : nth_error gll_lag_table (n - 2) = Some f.
Proof. apply nth_error_nth'. rewrite table_length. lia. Qed.
Lemma f_check : check n f = true.
Proof.
  pose proof all_checked as A. rewrite forallb_forall in A. apply (A (n, f)).
  assert (E : nth (n - 2) (combine (seq 2 23) gll_lag_table) (2%nat, gll_lag_02) = (n, f)).
  { rewrite combine_nth by reflexivity. rewrite seq_nth by lia. f_equal. lia. }
  rewrite <- E. apply nth_In. rewrite combine_length, seq_length, table_length. cbn. lia.
Qed.
Lemma f_call p w der x : (n <= length w)%nat -> (der <= 2)%nat -> (n * (der + 1) <= length p)%nat ->
  exists p', gll_lag f p w n der x = Ok (p', w) /\ same_out p p' 0 (n * (der + 1)) /\
    reg p' 0 n (fun i => get w i * L0 (get (gll_list n)) n x i) /\
    ((1 <= der)%nat -> reg p' n n (fun i => get w i * L1 (get (gll_list n)) n x i)) /\
    ((2 <= der)%nat -> reg p' (2 * n) n (fun i => get w i * L2 (get (gll_list n)) n x i)).
Proof.
  intros Hw Hder Hp. destruct (call_ok n f w x p der f_check Hw Hp Hder) as (p' & E & Sp & R0 & R1 & R2).
  exists p'. unfold gll_lag. rewrite E. cbn [bind]. split; [auto|]. split; [auto|].
  destruct table_parts as (_ & _ & Hg & _ & Et). fold f in Et. rewrite <- Et in *.
  assert (X : forall i, (i < n)%nat -> forall j, (j < n)%nat -> zval (map entry t) (zform n j) = get (gll_list n) j) by (intros; symmetry; auto).
  split; [|split].
  - intros i Hi. rewrite (R0 i Hi). f_equal. apply L_ext; eauto.
  - intros H i Hi. rewrite (R1 H i Hi). f_equal. apply L_ext; eauto.
  - intros H i Hi. rewrite (R2 H i Hi). f_equal. apply L_ext; eauto.
Qed.
Lemma setup_fix_ok nn data : (n <= length data)%nat ->
  exists data', gll_lag_setup nn data n = Ok (Some (gll_lag f), data') /\ same_out data data' 0 n /\ ready_fix data'.
Proof.
  intros Hd. unfold gll_lag_setup, lobatto_nodes. rewrite table_24. destruct (Nat.ltb_spec n 2); [lia|]. destruct (Nat.leb_spec n 24); [|lia].
  destruct (Nat.ltb_spec 24 n); [lia|]. destruct (Nat.leb_spec 2 n); [|lia]. rewrite f_nth.
  destruct (nodes_fix_ok (repeat 0 n)) as (z & Ez & Sz & Rz); [rewrite repeat_length; lia|]. rewrite Ez. cbn [bind].
  assert (Lz : length z = n) by (destruct Sz; rewrite repeat_length in *; auto).
  unfold lagrange_coef.
  lazymatch goal with |- context [fill ?a ?o ?k ?h] => destruct (fill_ok a o k h (fun _ => 1)) as (m2 & E2 & S2 & R2) end; [lia|auto|rewrite E2; cbn [bind]; clear E2].
  match goal with |- context [foldM ?h (seq 0 n) (repeat 0 n, m2)] => set (F := h) end.
  assert (G : forall k, (k <= n)%nat -> exists p m, foldM F (seq 0 k) (repeat 0 n, m2) = Ok (p, m) /\ length p = n /\ same_out data m 0 n /\
            reg m 0 n (fun i => if (i <? k)%nat then wt (gll_list n) n i else 1)).
  { induction k as [|k IH]; intros Hk.
    - exists (repeat 0 n), m2. split; [auto|]. split; [apply repeat_length|]. auto.
    - destruct IH as (p & m & E & Lp & Sm & Rw); [lia|]. rewrite seq_S, foldM_snoc, E. cbn [bind Nat.add]. unfold F. rewrite rd_get by lia. cbn [bind].
      assert (Lm : length m = length data) by apply Sm. replace (get z k) with (get (gll_list n) k) by (symmetry; apply (Rz k); lia).
      destruct (f_call p m 0 (get (gll_list n) k)) as (p' & E' & Sp & Rp & _); try lia; auto.
      rewrite E'. cbn [bind]. rewrite rd_get by (destruct Sp; lia). cbn [bind]. pose proof (Rp k ltac:(lia)) as Ek. cbn [Nat.add] in Ek. rewrite Ek.
      pose proof (Rw k ltac:(lia)) as Wk. cbn [Nat.add] in Wk. rewrite Wk, Nat.ltb_irrefl.
      rewrite wr_get by lia. cbn [bind]. eexists; eexists. split; [reflexivity|]. split; [destruct Sp; lia|]. split; [split|].
      + rewrite upd_length'. auto.
      + intros j Hj. rewrite get_upd by lia. destruct (Nat.eqb_spec j (0 + k)); [lia|]. destruct Sm as [_ Sm]. apply Sm. lia.
      + intros j Hj. rewrite get_upd by lia. destruct (Nat.eqb_spec (0 + j) (0 + k)) as [Q|Q].
        * replace j with k by lia. rewrite (proj2 (Nat.ltb_lt k (S k))) by lia. unfold wt. f_equal. ring.
        * rewrite (Rw j Hj). destruct (Nat.ltb_spec j k), (Nat.ltb_spec j (S k)); try lia; auto. }
  destruct (G n ltac:(lia)) as (p & m & E & Lp & Sm & Rw). rewrite E. cbn [bind]. exists m. split; [auto|]. split; [auto|].
  split; [destruct Sm; lia|]. intros i Hi. rewrite (Rw i Hi). rewrite (proj2 (Nat.ltb_lt i n)) by lia. auto.
Qed.
Lemma eval_fix_ok data p der x : ready_fix data -> (der <= 2)%nat -> (n * (der + 1) <= length p)%nat ->
  exists p', gll_lag f p data n der x = Ok (p', data) /\ evaluates (gll_list n) n der x p p'.
Proof.
  intros [Ld Rw] Hder Hp. destruct (f_call p data der x Ld Hder Hp) as (p' & E & Sp & R0 & R1 & R2). exists p'. split; [auto|].
  assert (X : forall i, (i < n)%nat -> get data i = wt (gll_list n) n i) by (intros i Hi; apply (Rw i Hi)).
  apply regs_evaluates; auto using gll_distinct.
  - intros i Hi. rewrite (R0 i Hi), X; auto.
  - intros H i Hi. rewrite (R1 H i Hi), X; auto.
  - intros H i Hi. rewrite (R2 H i Hi), X; auto.
Qed.
Lemma evals_fix_ok calls data : ready_fix data -> Forall (valid_call n) calls ->
  exists outs, evals (gll_lag f) data n calls = Ok outs /\ Forall2 (fun '(p, der, x) p' => evaluates (gll_list n) n der x p p') calls outs.
Proof.
  intros Hr. induction calls as [|[[p der] x] calls IH]; intros HF.
  - exists []. split; [reflexivity|constructor].
  - apply Forall_cons_iff in HF. destruct HF as [Hv HF']. destruct (eval_fix_ok data p der x Hr) as (p' & E & Ev); try apply Hv.
    destruct (IH HF') as (outs & E' & FF). cbn [evals]. rewrite E. cbn [bind]. rewrite E'. cbn [bind]. eexists. split; [reflexivity|]. constructor; auto.
Qed.
End T.

(** n > 24: the nodes found by Newton's method. *)
Lemma setup_big_ok nn data n z : (24 < n)%nat -> (9 * n <= length data)%nat -> nn data n = Ok z -> length z = length data -> distinct z n ->
  (forall k, (n <= k)%nat -> get z k = get data k) ->
  exists data', gll_lag_setup nn data n = Ok (Some lagrange_eval, data') /\ same_out data data' 0 (9 * n) /\ ready z data' n.
Proof.
  intros Hn Hd Ez Lz D Oz. unfold gll_lag_setup, lobatto_nodes. rewrite table_24. destruct (Nat.ltb_spec n 2); [lia|]. destruct (Nat.leb_spec n 24); [lia|].
  destruct (Nat.ltb_spec 24 n); [|lia]. rewrite Ez. cbn [bind].
  destruct (setup_ok z z n) as (d' & E & L & O & Hr); [lia|lia|lia|auto|].
  unfold lagrange_setup, copy in E.
  assert (C : fill z 0 n (fun _ i => rd z i) = Ok z).
  { unfold fill. assert (G : forall l, Forall (fun i => i < n)%nat l -> foldM (fun a i => v <- rd z i ;; wr a (0 + i) v) l z = Ok z).
    { induction l as [|i l IH]; intros HF; [reflexivity|]. apply Forall_cons_iff in HF. destruct HF as [Hi HF]. cbn [foldM Nat.add]. rewrite rd_get by lia. cbn [bind].
      rewrite wr_get by lia. cbn [bind]. replace (upd z i (get z i)) with z by (symmetry; apply upd_same; apply nth_error_nth'; lia). apply IH. auto. }
    apply G. apply Forall_forall. intros i Hi. apply in_seq in Hi. lia. }
  rewrite C in E. cbn [bind] in E. rewrite E. cbn [bind]. exists d'. split; [auto|]. split; [|auto]. split; [lia|]. intros k Hk. rewrite O, Oz by lia. auto.
Qed.
