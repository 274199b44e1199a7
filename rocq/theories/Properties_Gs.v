(** C25-C33: gs_setup, gs, gs_vec, gs_many, gs_unique. *)
From Verif Require Import Base BaseLemmas Net NetProof Sort SortSpec Transfer TransferSpec OpsSpec ListLemmas
  GsTop GsSpec GsTopProof1 GsTopProof4 GsExec GsCr Gs GsPwProof3 GsRunProof GsSetupProof GsSetupProof2 GsUniqueProof2 GsUniqueProof4 GsUserSpec GsUserProof GsUserProof2.
From Coq Require Import Permutation.

(** In all theorems: uint and ulong of usize and lsize bytes, np processes, process p passes
    ids p, everything fits (setup_fits, GsSpec.v); op is a commutative monoid operation with identity e on a type T
    (C11 shows which operations and domains these are); the buffers may contain anything. *)

(** gs_setup returns a handle on every process, for every method. *)
Theorem C25_setup_returns usize lsize INT_MAX np ids m : setup_fits usize lsize INT_MAX np ids ->
  exists hs, setup_gives usize lsize INT_MAX np ids false m hs.
Proof.
  intros F. destruct (gs_setup_goes usize lsize INT_MAX np ids m F) as (g & _ & G). exists g. exact (goes_always_fun _ np g G).
Qed.
Print Assumptions C25_setup_returns.

Section Properties.
Context {T : Type}.
Variable op : T -> T -> T.
Variable e : T.
Variable usize lsize INT_MAX np : nat.
Variable ids : nat -> list Z.

(** C25: with non-negative ids, after gs with either value of transpose, an entry with id z <> 0 is the reduction of
    all the values with that id on all processes, and an entry with id 0 is unchanged. *)
Theorem C25_gs_reduces_groups m hs transpose (u : nat -> list T) :
  cmonoid op e -> setup_fits usize lsize INT_MAX np ids ->
  setup_gives usize lsize INT_MAX np ids false m hs ->
  (forall p, p < np -> length (u p) = length (ids p)) ->
  (forall p z, p < np -> In z (ids p) -> (0 <= z)%Z) ->
  gs_gives usize np op e transpose hs u (fun p =>
    map (fun x => if (fst x =? 0)%Z then snd x
                  else reduce op e (values_of (fun y => (y =? fst x)%Z) (entries np ids u)))
        (combine (ids p) (u p))).
Proof.
  intros M F G Hu Pos. pose proof (setup_handle _ _ _ _ _ _ _ F G) as ok.
  apply (gs_is_iff op e M usize np ids hs ok); auto. intros p Hp. unfold result. rewrite (map_combine_nth e) by auto.
  apply map_ext_in. intros i Hi. apply in_seq in Hi. cbn [fst snd].
  assert (Pi : (0 <= id_at (ids p) i)%Z) by (apply (Pos p); auto; apply nth_In; lia).
  unfold gs_result. destruct transpose; unfold gs_transpose, gs_forward, label_at, is_flagged;
    destruct (Nat.eqb_spec (Z.abs_nat (id_at (ids p) i)) 0), (Z.eqb_spec (id_at (ids p) i) 0); auto; try lia.
  - destruct (Z.ltb_spec (id_at (ids p) i) 0); [lia|]. cbn [negb].
    rewrite (total_values op e np ids u _ (fun y => (Z.abs y =? id_at (ids p) i)%Z)); auto.
    + f_equal. unfold values_of. f_equal. apply filter_ext_in. intros [z a] Hz. cbn [fst]. unfold entries in Hz.
      apply in_flat_map in Hz as (q & Hq & Hz). apply in_seq in Hq. apply in_combine_l in Hz. specialize (Pos q z ltac:(lia) Hz).
      rewrite Z.abs_eq; auto.
    + intros l. rewrite all_ids. apply filter_ext. intros j. f_equal. lia.
  - symmetry. apply total_values; auto. intros l. rewrite unflagged_ids by auto. apply filter_ext. intros j. f_equal. lia.
Qed.

(** C26: entries with id 0 are unchanged by gs, and the results at the other entries do not
    depend on the values at entries with id 0; any signs, either value of transpose. *)
Theorem C26_zero_ids_unchanged m hs transpose (u w : nat -> list T) p i :
  cmonoid op e -> setup_fits usize lsize INT_MAX np ids ->
  setup_gives usize lsize INT_MAX np ids false m hs ->
  (forall p, p < np -> length (u p) = length (ids p)) ->
  gs_gives usize np op e transpose hs u w ->
  p < np -> nth_error (ids p) i = Some 0%Z -> nth_error (w p) i = nth_error (u p) i.
Proof.
  intros M F G Hu Gw Hp Hi. pose proof (setup_handle _ _ _ _ _ _ _ F G) as ok.
  rewrite (proj1 (gs_is_iff op e M usize np ids hs ok transpose u w Hu) Gw p Hp). apply zero_kept; auto.
Qed.
Theorem C26_zero_ids_ignored m hs transpose (u1 u2 w1 w2 : nat -> list T) :
  cmonoid op e -> setup_fits usize lsize INT_MAX np ids ->
  setup_gives usize lsize INT_MAX np ids false m hs ->
  (forall p, p < np -> length (u1 p) = length (ids p) /\ length (u2 p) = length (ids p)) ->
  (forall p i z, p < np -> nth_error (ids p) i = Some z -> z <> 0%Z -> nth_error (u1 p) i = nth_error (u2 p) i) ->
  gs_gives usize np op e transpose hs u1 w1 -> gs_gives usize np op e transpose hs u2 w2 ->
  forall p i z, p < np -> nth_error (ids p) i = Some z -> z <> 0%Z -> nth_error (w1 p) i = nth_error (w2 p) i.
Proof.
  intros M F G Hu E G1 G2 p i z Hp Hi Hz. pose proof (setup_handle _ _ _ _ _ _ _ F G) as ok.
  assert (H1 : forall p, p < np -> length (u1 p) = length (ids p)) by (intros; apply Hu; auto).
  assert (H2 : forall p, p < np -> length (u2 p) = length (ids p)) by (intros; apply Hu; auto).
  rewrite (proj1 (gs_is_iff op e M usize np ids hs ok transpose u1 w1 H1) G1 p Hp).
  rewrite (proj1 (gs_is_iff op e M usize np ids hs ok transpose u2 w2 H2) G2 p Hp).
  destruct (id_nth _ _ _ Hi) as [Ei Li]. rewrite !result_at by auto. f_equal. apply zero_ignored; auto; [|congruence].
  intros q j Hq Hj. destruct (Nat.lt_ge_cases j (length (ids q))) as [L|L].
  - specialize (E q j _ Hq (id_nth' _ _ L) Hj). rewrite !(nth_error_nth' _ e) in E by (rewrite ?H1, ?H2; auto). congruence.
  - rewrite !nth_overflow; auto; rewrite ?H1, ?H2; auto.
Qed.

(** C27: ids of any sign, transpose = 0.  Every entry with id z <> 0, flagged (z < 0) or not,
    gets the reduction of the values with id exactly |z|, that is the unflagged ones of its
    group; this is e when the group has no unflagged entry. *)
Theorem C27_gs_flagged m hs (u : nat -> list T) :
  cmonoid op e -> setup_fits usize lsize INT_MAX np ids ->
  setup_gives usize lsize INT_MAX np ids false m hs ->
  (forall p, p < np -> length (u p) = length (ids p)) ->
  gs_gives usize np op e false hs u (fun p =>
    map (fun x => if (fst x =? 0)%Z then snd x
                  else reduce op e (values_of (fun y => (y =? Z.abs (fst x))%Z) (entries np ids u)))
        (combine (ids p) (u p))).
Proof.
  intros M F G Hu. pose proof (setup_handle _ _ _ _ _ _ _ F G) as ok.
  apply (gs_is_iff op e M usize np ids hs ok); auto. intros p Hp. symmetry. apply forward_result; auto.
Qed.

(** C28: ids of any sign, transpose = 1: exact result.  Unflagged entries get the reduction of
    all the values of their group, flagged or not.  Flagged entries keep their value, with one
    exception: the first flagged entry of a group that has only flagged entries on this process gets the reduction of
    these entries of this process. *)
Theorem C28_gs_transpose m hs (u : nat -> list T) :
  cmonoid op e -> setup_fits usize lsize INT_MAX np ids ->
  setup_gives usize lsize INT_MAX np ids false m hs ->
  (forall p, p < np -> length (u p) = length (ids p)) ->
  exists w, gs_gives usize np op e true hs u w /\
  forall p i z a, p < np -> nth_error (ids p) i = Some z -> nth_error (u p) i = Some a ->
  (z = 0%Z -> nth_error (w p) i = Some a) /\
  ((0 < z)%Z -> nth_error (w p) i = Some (reduce op e (values_of (fun y => (Z.abs y =? z)%Z) (entries np ids u)))) /\
  ((z < 0)%Z -> In (- z)%Z (ids p) -> nth_error (w p) i = Some a) /\
  ((z < 0)%Z -> (exists j, j < i /\ nth_error (ids p) j = Some z) -> nth_error (w p) i = Some a) /\
  ((z < 0)%Z -> ~ In (- z)%Z (ids p) -> (forall j, j < i -> nth_error (ids p) j <> Some z) ->
     nth_error (w p) i = Some (reduce op e (values_of (fun y => (y =? z)%Z) (combine (ids p) (u p))))).
Proof.
  intros M F G Hu. pose proof (setup_handle _ _ _ _ _ _ _ F G) as ok. exists (result op e np ids true u).
  split; [apply (gs_is_iff op e M usize np ids hs ok); auto|].
  intros p i z a Hp Hi Ha. exact (transpose_at op e np ids u Hu p i z a Hp Hi Ha).
Qed.

(** The part of the documented claim that holds: a flagged entry that is the only one of its
    group on its process, or whose group also has an unflagged entry there, is not set. *)
Theorem C28_flagged_not_set m hs (u w : nat -> list T) p i z :
  cmonoid op e -> setup_fits usize lsize INT_MAX np ids ->
  setup_gives usize lsize INT_MAX np ids false m hs ->
  (forall p, p < np -> length (u p) = length (ids p)) ->
  gs_gives usize np op e true hs u w ->
  p < np -> nth_error (ids p) i = Some z -> (z < 0)%Z ->
  In (- z)%Z (ids p) \/ count_occ Z.eq_dec (ids p) z = 1 ->
  nth_error (w p) i = nth_error (u p) i.
Proof.
  intros M F G Hu Gw Hp Hi Hz Hc. pose proof (setup_handle _ _ _ _ _ _ _ F G) as ok.
  rewrite (proj1 (gs_is_iff op e M usize np ids hs ok true u w Hu) Gw p Hp).
  destruct (id_nth _ _ _ Hi) as [Ei Li]. destruct (nth_error_lt_Some (u p) i) as [a Ha]; [rewrite Hu; auto|]. rewrite Ha.
  destruct (transpose_at op e np ids u Hu p i z a Hp Hi Ha) as (_ & _ & A & B & C).
  destruct (in_dec Z.eq_dec (- z)%Z (ids p)) as [Hin|N]; [auto|]. destruct Hc as [Hc|Hc]; [contradiction|].
  assert (One : filter (fun x => (fst x =? z)%Z) (combine (ids p) (u p)) = [(z, a)] /\ forall j, j < i -> nth_error (ids p) j <> Some z).
  { clear -Hc Hi Ha Hu Hp. specialize (Hu p Hp). revert Hc Hi Ha Hu. generalize (u p), (ids p). intros lu li. revert lu i.
    induction li as [|y li IH]; intros [|b lu] i Hc Hi Ha Hl; try (destruct i; discriminate).
    cbn [count_occ] in Hc. destruct i as [|i].
    - cbn in Hi, Ha. injection Hi as ->. injection Ha as ->. destruct (Z.eq_dec z z); [|congruence]. injection Hc as Hc.
      split; [|intros j Hj; lia]. cbn [combine filter fst]. rewrite Z.eqb_refl. f_equal.
      apply SortLemmas.filter_nil_all. intros [y c] Hy. apply in_combine_l in Hy. cbn. apply Z.eqb_neq. intros ->.
      apply (count_occ_In Z.eq_dec) in Hy. lia.
    - cbn in Hi, Ha. destruct (Z.eq_dec y z) as [->|Hne].
      + injection Hc as Hc. apply nth_error_In in Hi. apply (count_occ_In Z.eq_dec) in Hi. lia.
      + destruct (IH lu i Hc Hi Ha) as [E1 E2]; [cbn in Hl; lia|]. cbn [combine filter fst].
        destruct (Z.eqb_spec y z); [congruence|]. split; auto. intros [|j] Hj; cbn; [congruence|]. apply E2. lia. }
  destruct One as [One First]. rewrite (C Hz N First). unfold values_of. rewrite One. cbn. rewrite (cmon_id op e M). auto.
Qed.

(** C29: the methods agree: gs gives the same with handles set up by any two methods (and so
    do gs_vec and gs_many, by C30); gs_auto's choice is one of the others. *)
Theorem C29_methods_agree m1 m2 hs1 hs2 transpose (u w : nat -> list T) :
  cmonoid op e -> setup_fits usize lsize INT_MAX np ids ->
  setup_gives usize lsize INT_MAX np ids false m1 hs1 -> setup_gives usize lsize INT_MAX np ids false m2 hs2 ->
  (forall p, p < np -> length (u p) = length (ids p)) ->
  gs_gives usize np op e transpose hs1 u w <-> gs_gives usize np op e transpose hs2 u w.
Proof.
  intros M F G1 G2 Hu. rewrite (gs_is_iff op e M usize np ids hs1 (setup_handle _ _ _ _ _ _ _ F G1)) by auto.
  rewrite (gs_is_iff op e M usize np ids hs2 (setup_handle _ _ _ _ _ _ _ F G2)) by auto. reflexivity.
Qed.

(** C30: gs_vec and gs_many do to each component, to each array, what gs does to it alone. *)
Theorem C30_gs_vec m hs transpose vn (u w : nat -> list T) :
  cmonoid op e -> setup_fits usize lsize INT_MAX np ids ->
  setup_gives usize lsize INT_MAX np ids false m hs -> 1 <= vn ->
  (forall p, p < np -> length (u p) = length (ids p) * vn /\ length (w p) = length (ids p) * vn) ->
  (forall k, k < vn ->
     gs_gives usize np op e transpose hs (fun p => component e vn k (u p)) (fun p => component e vn k (w p))) ->
  gs_vec_gives usize np op e vn transpose hs u w.
Proof.
  intros M F G Hv Hl Hk. pose proof (setup_handle _ _ _ _ _ _ _ F G) as ok.
  assert (CL : forall l n k, length l = n * vn -> length (component e vn k l) = n).
  { intros l n k E. unfold component. rewrite map_length, seq_length, E, Nat.div_mul; lia. }
  assert (CN : forall l n k i, length l = n * vn -> i < n -> nth i (component e vn k l) e = nth (i * vn + k) l e).
  { intros l n k i E Hi. unfold component. rewrite E, Nat.div_mul by lia.
    rewrite (nth_indep _ e ((fun i => nth (i * vn + k) l e) 0)) by (rewrite map_length, seq_length; auto).
    rewrite (map_nth (fun i => nth (i * vn + k) l e)), seq_nth by auto. auto. }
  apply (gs_vec_is op e M usize np ids hs ok); [lia|intros; apply Hl; auto|]. intros p Hp. split; [apply Hl; auto|]. intros i k Hi Hkv.
  pose proof (proj1 (gs_is_iff op e M usize np ids hs ok transpose (fun p => component e vn k (u p)) (fun p => component e vn k (w p))
     (fun p Hp => CL _ _ k (proj1 (Hl p Hp)))) (Hk k Hkv) p Hp) as E. cbn beta in E.
  rewrite <- (CN (w p) (length (ids p))) by (auto; apply Hl; auto). rewrite E.
  rewrite (nth_error_nth _ _ e (result_at op e np ids _ transpose p i Hi)).
  assert (X : forall q j, q < np -> nth j (component e vn k (u q)) e = if j <? length (ids q) then nth (j * vn + k) (u q) e else e).
  { intros q j Hq. destruct (Nat.ltb_spec j (length (ids q))) as [L|L]; [apply (CN _ (length (ids q))); auto; apply Hl; auto|].
    rewrite nth_overflow; auto. rewrite (CL _ (length (ids q))); auto. apply Hl; auto. }
  assert (Y : forall sel, (forall l j, In j (sel l) -> j < length l) ->
     total_over op e np ids (fun q j => nth j (component e vn k (u q)) e) sel = total_over op e np ids (fun q j => nth (j * vn + k) (u q) e) sel).
  { intros sel Hs. unfold total_over. f_equal. apply flat_map_ext_in. intros q Hq. apply in_seq in Hq. apply map_ext_in. intros j Hj.
    apply Hs in Hj. rewrite X by lia. destruct (Nat.ltb_spec j (length (ids q))); auto; lia. }
  unfold gs_result. destruct transpose; unfold gs_transpose, gs_forward; cbn zeta.
  - rewrite Y by (intros l j Hj; apply in_all_at in Hj; tauto). rewrite X by auto. destruct (Nat.ltb_spec i (length (ids p))); [|lia].
    replace (local_over op e ids (fun q j => nth j (component e vn k (u q)) e) (fun l => all_at l (label_at (ids p) i)) p)
      with (local_over op e ids (fun q j => nth (j * vn + k) (u q) e) (fun l => all_at l (label_at (ids p) i)) p); auto.
    unfold local_over. f_equal. apply map_ext_in. intros j Hj. apply in_all_at in Hj. rewrite X by auto. destruct (Nat.ltb_spec j (length (ids p))); auto; lia.
  - rewrite Y by (intros l j Hj; apply in_unflagged_at in Hj; tauto). rewrite X by auto. destruct (Nat.ltb_spec i (length (ids p))); [|lia]. auto.
Qed.
Theorem C30_gs_many m hs transpose vn (u w : nat -> list (list T)) :
  cmonoid op e -> setup_fits usize lsize INT_MAX np ids ->
  setup_gives usize lsize INT_MAX np ids false m hs -> 1 <= vn ->
  (forall p, p < np -> length (u p) = vn /\ length (w p) = vn /\ forall l, In l (u p) -> length l = length (ids p)) ->
  (forall k, k < vn ->
     gs_gives usize np op e transpose hs (fun p => nth k (u p) []) (fun p => nth k (w p) [])) ->
  gs_many_gives usize np op e vn transpose hs u w.
Proof.
  intros M F G Hv Hl Hk. pose proof (setup_handle _ _ _ _ _ _ _ F G) as ok.
  assert (LU : forall k, k < vn -> forall p, p < np -> length (nth k (u p) []) = length (ids p)).
  { intros k Hkv p Hp. apply Hl; auto. apply nth_In. destruct (Hl p Hp). lia. }
  assert (R : forall p k, p < np -> k < vn -> nth k (w p) [] = result op e np ids transpose (fun p => nth k (u p) []) p).
  { intros p k Hp Hkv. apply (proj1 (gs_is_iff op e M usize np ids hs ok transpose _ (fun p => nth k (w p) []) (LU k Hkv)) (Hk k Hkv) p Hp). }
  apply (gs_many_is op e M usize np ids hs ok); [lia|intros p Hp; split; apply Hl; auto|].
  intros p Hp. destruct (Hl p Hp) as (L1 & L2 & L3). split; auto. split.
  - intros l Hin. apply (In_nth _ _ []) in Hin as (k & Hkv & <-). rewrite R by lia. unfold result. rewrite map_length, seq_length. auto.
  - intros i k Hi Hkv. rewrite R by auto. exact (nth_error_nth _ _ e (result_at op e np ids _ transpose p i Hi)).
Qed.
End Properties.
Print Assumptions C25_gs_reduces_groups.
Print Assumptions C26_zero_ids_unchanged.
Print Assumptions C26_zero_ids_ignored.
Print Assumptions C27_gs_flagged.
Print Assumptions C28_gs_transpose.
Print Assumptions C28_flagged_not_set.
Print Assumptions C29_methods_agree.
Print Assumptions C30_gs_vec.
Print Assumptions C30_gs_many.

(** C31: after gs_unique the absolute values are as before, and for every z > 0 that was an id somewhere
    exactly one entry in the whole machine has id z; no other positive ids appear. *)
Theorem C31_gs_unique usize lsize INT_MAX np ids : setup_fits usize lsize INT_MAX np ids ->
  exists ids', unique_gives usize lsize INT_MAX np ids ids' /\
  (forall p, p < np -> map Z.abs (ids' p) = map Z.abs (ids p)) /\
  (forall z, (0 < z)%Z -> (exists p, p < np /\ In z (ids p)) ->
     exists p i, p < np /\ nth_error (ids' p) i = Some z /\
       forall q j, q < np -> nth_error (ids' q) j = Some z -> q = p /\ j = i) /\
  (forall z q, (0 < z)%Z -> q < np -> In z (ids' q) -> exists p, p < np /\ In z (ids p)).
Proof.
  intros F. exists (unique_ids_of np ids). split; [|split; [|split]].
  - exact (goes_always_fun _ np _ (gs_unique_goes usize lsize INT_MAX np ids F)).
  - intros p Hp. apply nth_error_ext. intros i. rewrite !nth_error_map. exact (unique_abs np ids p i).
  - intros z Hz H. apply unique_pos; auto.
  - intros z q Hz Hq Hin. apply In_nth_error in Hin as [j Hj]. eapply unique_neg; eauto.
Qed.
Print Assumptions C31_gs_unique.

(** C32 as documented in gs.h: a handle set up with unique = 1 works like one set up, without
    unique, for the ids that gs_unique would leave. *)
Definition C32_claim (usize lsize INT_MAX np : nat) (ids : nat -> list Z) : Prop :=
  forall ids' m hs hs', unique_gives usize lsize INT_MAX np ids ids' ->
  setup_gives usize lsize INT_MAX np ids true m hs -> setup_gives usize lsize INT_MAX np ids' false m hs' ->
  forall (T : Type) (op : T -> T -> T) (e : T) transpose u w, cmonoid op e ->
  (forall p, p < np -> length (u p) = length (ids p)) ->
  gs_gives usize np op e transpose hs u w <-> gs_gives usize np op e transpose hs' u w.
Definition C32_as_documented : Prop :=
  forall usize lsize INT_MAX np ids, setup_fits usize lsize INT_MAX np ids -> C32_claim usize lsize INT_MAX np ids.

(** It holds when on every process no flagged entry stands before the first unflagged entry of its group (as with
    ids that are all unflagged). *)
Theorem C32_setup_unique usize lsize INT_MAX np ids : setup_fits usize lsize INT_MAX np ids ->
  (forall p, p < np -> flagged_after (ids p)) -> C32_claim usize lsize INT_MAX np ids.
Proof.
  intros F FA ids' m hs hs' GU GS' GS2 T op e t u w M Hu.
  pose proof (goes_always_fun _ np _ (gs_unique_goes usize lsize INT_MAX np ids F)) as GU'.
  pose proof (returns_fun_at np _ ids' (unique_ids_of np ids) GU GU') as E.
  pose proof (setup_unique_handle _ _ _ _ _ _ _ F FA GS') as ok1.
  assert (ok2 : handle_ok usize np (unique_ids_of np ids) hs').
  { apply (setup_handle usize lsize INT_MAX np (unique_ids_of np ids) m); [apply fits'; auto; intros p x i Hp Hx Hi; apply flagged_after_first; auto|]. unfold setup_gives in *.
    rewrite (map_ext_in _ (fun p => gs_setup usize lsize INT_MAX np p (ids' p) false m)); auto.
    intros p Hp. apply in_seq in Hp. rewrite E by lia. auto. }
  assert (Hu' : forall p, p < np -> length (u p) = length (unique_ids_of np ids p)) by (intros p Hp; rewrite ids'_length; auto).
  rewrite (gs_is_iff op e M usize np _ hs ok1) by auto. rewrite (gs_is_iff op e M usize np _ hs' ok2) by auto. reflexivity.
Qed.
Print Assumptions C32_setup_unique.
(** And the set-up does return. *)
Theorem C32_setup_unique_returns usize lsize INT_MAX np ids m : setup_fits usize lsize INT_MAX np ids ->
  (forall p, p < np -> flagged_after (ids p)) -> exists hs, setup_gives usize lsize INT_MAX np ids true m hs.
Proof.
  intros F FA. destruct (gs_setup_unique_goes usize lsize INT_MAX np ids F) with (m := m) as (g & H & G').
  { intros p x i Hp Hx Hi. apply flagged_after_first; auto. }
  exists g. exact (goes_always_fun _ np g G').
Qed.
Print Assumptions C32_setup_unique_returns.

(** C33: what get_topology finds.  For process p: one entry in sh for each label and other process with which it is exchanged,
    with the representing entries and flags of both sides; one entry in pr for each label exchanged
    with any process; ord numbers the exchanged labels 0 .. N-1, the same on all processes, without repetition. *)
Theorem C33_topology usize lsize INT_MAX np ids : setup_fits usize lsize INT_MAX np ids ->
  exists ord N top,
  always_returns (map (fun p => get_topology usize lsize INT_MAX np p (ids p)) (seq 0 np)) (map top (seq 0 np)) /\
  (forall p, p < np ->
    NoDup (t_sh (top p)) /\
    (forall s, In s (t_sh (top p)) <-> exists x q,
      s = SH x (prim (ids p) x) q (prim (ids q) x) 0 (only_flagged (ids p) x) (only_flagged (ids q) x) /\
      x <> 0 /\ q < np /\ q <> p /\ has (ids p) x = true /\ has (ids q) x = true /\
      ~ (only_flagged (ids p) x = true /\ only_flagged (ids q) x = true)) /\
    NoDup (t_pr (top p)) /\
    (forall r, In r (t_pr (top p)) <-> exists x,
      r = PR x (ord x) (prim (ids p) x) (only_flagged (ids p) x) /\
      x <> 0 /\ exists q, q < np /\ exchange ids x p q = true) /\
    t_total (top p) = N) /\
  (forall x p q, x <> 0 -> p < np -> q < np -> exchange ids x p q = true -> ord x < N) /\
  (forall x y p q p' q', x <> 0 -> y <> 0 -> p < np -> q < np -> p' < np -> q' < np ->
     exchange ids x p q = true -> exchange ids y p' q' = true -> ord x = ord y -> x = y) /\
  (forall i, i < N -> exists x p q, x <> 0 /\ p < np /\ q < np /\ exchange ids x p q = true /\ ord x = i).
Proof.
  intros F. destruct F as [us ls np1 npl mx fi lb pb].
  destruct (get_topology_goes usize lsize INT_MAX np ids us ls np1 npl mx fi lb pb) as (ord & N & top & num & tok & G).
  exists ord, N, top. split; [exact (goes_always_fun _ np top G)|].
  assert (SHARED : forall x, shared np ids x = true <-> exists p q, p < np /\ q < np /\ exchange ids x p q = true).
  { intros x. unfold shared. rewrite existsb_exists. split.
    - intros (p & Hp & H). apply existsb_exists in H as (q & Hq & H). apply in_seq in Hp, Hq. exists p, q. split; [lia|split; [lia|auto]].
    - intros (p & q & Hp & Hq & H). exists p. split; [apply in_seq; lia|]. apply existsb_exists. exists q. split; [apply in_seq; lia|auto]. }
  destruct num as (L & ND & LN & HL & HO).
  assert (IX : forall x, x <> 0 -> shared np ids x = true -> nth_error L (ord x) = Some x).
  { intros x Hx Hs. assert (Hin : In x L) by (apply HL; auto). apply In_nth_error in Hin as [i Hi]. rewrite (HO i x Hi). auto. }
  split; [|split; [|split]].
  - intros p Hp. destruct (tok p Hp) as [Tt Tz Ts Tp]. split; [|split; [|split; [|split]]]; auto.
    + eapply Permutation_NoDup; [apply Permutation_sym, Ts|]. unfold sh_spec. apply GsTopProof2.NoDup_flat_map; [apply labels_NoDup| |].
      * intros x _. apply NoDup_map_inj; [|apply NoDup_filter, seq_NoDup]. intros a b E. congruence.
      * intros x y s _ _ Hx Hy. apply in_map_iff in Hx as (a & <- & _), Hy as (b & E & _). congruence.
    + intros s. split.
      * intros Hs. apply (Permutation_in _ Ts) in Hs. unfold sh_spec in Hs. apply in_flat_map in Hs as (x & Hx & Hs).
        apply in_map_iff in Hs as (q & <- & Hq). apply in_labels in Hx as [Hx Hh]. apply in_partners in Hq as [Hq He]. apply exchange_iff in He as (A & B & C & D).
        exists x, q. repeat (split; auto). intros [O1 O2]. rewrite O1, O2 in D. discriminate.
      * intros (x & q & -> & Hx & Hq & Hne & A & B & D). apply (Permutation_in _ (Permutation_sym Ts)). unfold sh_spec. apply in_flat_map. exists x.
        split; [apply in_labels; auto|]. apply in_map_iff. exists q. split; auto. apply in_partners. split; auto. apply exchange_iff. repeat (split; auto).
        destruct (only_flagged (ids p) x), (only_flagged (ids q) x); auto. exfalso. auto.
    + eapply Permutation_NoDup; [apply Permutation_sym, Tp|]. unfold pr_spec. apply NoDup_map_inj; [|apply NoDup_filter, labels_NoDup]. intros a b E. congruence.
    + assert (SP : forall x, sharing np ids p x = true <-> exists q, q < np /\ exchange ids x p q = true).
      { intros x. unfold sharing. rewrite negb_true_iff, Nat.eqb_neq, length_zero_iff_nil. split.
        - intros NE. destruct (partners np ids x p) as [|q l] eqn:E; [congruence|]. exists q. apply in_partners. rewrite E. left; auto.
        - intros (q & Hq) E. apply in_partners in Hq. rewrite E in Hq. destruct Hq. }
      intros r. split.
      * intros Hr. apply (Permutation_in _ Tp) in Hr. unfold pr_spec in Hr. apply in_map_iff in Hr as (x & <- & Hx). apply filter_In in Hx as [Hx Hs].
        apply in_labels in Hx as [Hx _]. exists x. repeat (split; auto). apply SP; auto.
      * intros (x & -> & Hx & Hs). apply (Permutation_in _ (Permutation_sym Tp)). unfold pr_spec. apply in_map_iff. exists x. split; auto.
        apply filter_In. split; [|apply SP; auto]. apply in_labels. split; auto. destruct Hs as (q & _ & He). apply exchange_iff in He. tauto.
  - intros x p q Hx Hp Hq He. rewrite <- LN. eapply nth_error_Some_lt. apply IX; auto. apply SHARED. eauto.
  - intros x y p q p' q' Hx Hy Hp Hq Hp' Hq' He He' E. assert (A : nth_error L (ord x) = Some x) by (apply IX; auto; apply SHARED; eauto).
    assert (B : nth_error L (ord y) = Some y) by (apply IX; auto; apply SHARED; eauto). rewrite E in A. congruence.
  - intros i Hi. rewrite <- LN in Hi. destruct (nth_error_lt_Some L i Hi) as [x Hx]. pose proof (nth_error_In _ _ Hx) as Hin. apply HL in Hin as [Hx0 Hs].
    apply SHARED in Hs as (p & q & Hp & Hq & He). exists x, p, q. repeat (split; auto).
Qed.
Print Assumptions C33_topology.

(** ** Refutations and examples *)
Lemma nat_add_monoid : cmonoid Nat.add 0.
Proof. constructor; intros; lia. Qed.

Lemma one_returns {W A} (r : A) : always_returns (map (fun _ : nat => @Ret W A r) (seq 0 1)) [r].
Proof. apply (one_schedule_decides _ [] (start [Ret r])); reflexivity. Qed.

Definition ids28 (p : nat) : list Z := [(-1)%Z; (-1)%Z].
Lemma fits28 : setup_fits 1 1 255 1 ids28.
Proof.
  constructor; try (vm_compute; lia). intros p Hp. split; [vm_compute; lia|].
  intros [|[|i]] Hi; [vm_compute; lia..|]. cbn in Hi. lia.
Qed.

(** The documented claim (gs.h: with transpose == 1 the flagged pairs "do not get set on
    output") fails: two flagged entries of one group on one process. *)
Definition C28_as_documented : Prop :=
  forall usize lsize INT_MAX np ids m hs (u w : nat -> list nat) p i z,
  setup_fits usize lsize INT_MAX np ids -> setup_gives usize lsize INT_MAX np ids false m hs ->
  (forall p, p < np -> length (u p) = length (ids p)) -> gs_gives usize np Nat.add 0 true hs u w ->
  p < np -> nth_error (ids p) i = Some z -> (z < 0)%Z -> nth_error (w p) i = nth_error (u p) i.
Theorem C28_flagged_set_refuted : ~ C28_as_documented.
Proof.
  intros C. destruct (C25_setup_returns 1 1 255 1 ids28 gs_pairwise fits28) as [hs G].
  assert (Hu : forall p, p < 1 -> length ((fun _ => [10; 3]) p) = length (ids28 p)) by auto.
  destruct (C28_gs_transpose Nat.add 0 1 1 255 1 ids28 gs_pairwise hs (fun _ => [10; 3]) nat_add_monoid fits28 G Hu) as (w & Gw & H).
  specialize (C 1 1 255 1 ids28 gs_pairwise hs (fun _ => [10; 3]) w 0 0 (-1)%Z fits28 G Hu Gw ltac:(lia) eq_refl ltac:(lia)).
  destruct (H 0 0 (-1)%Z 10 ltac:(lia) eq_refl eq_refl) as (_ & _ & _ & _ & X). rewrite X in C; [discriminate|lia| |intros; lia].
  intros [E|[E|[]]]; discriminate.
Qed.
Print Assumptions C28_flagged_set_refuted.

(** The documented claim about unique fails: ids -1, 1 on one process. *)
Definition ids32 (p : nat) : list Z := [(-1)%Z; 1%Z].
Lemma fits32 : setup_fits 1 1 255 1 ids32.
Proof.
  constructor; try (vm_compute; lia). intros p Hp. split; [vm_compute; lia|].
  intros [|[|i]] Hi; [vm_compute; lia..|]. cbn in Hi. lia.
Qed.
Definition h32 : gs_data := GS [0; 1; 255; 255] [0; 1; 255; 255] [255] (RPw (PW (PC [] 0) (PC [] 0) [255] [255])).
Theorem C32_setup_unique_refuted : ~ C32_as_documented.
Proof.
  intros C.
  assert (GU : unique_gives 1 1 255 1 ids32 ids32).
  { unfold unique_gives, ids32. rewrite (map_ext_in _ (fun _ => Ret [(-1)%Z; 1%Z])); [apply one_returns|].
    intros p Hp. apply in_seq in Hp. replace p with 0 by lia. vm_compute. reflexivity. }
  assert (GS1 : setup_gives 1 1 255 1 ids32 true gs_pairwise (fun _ => h32)).
  { unfold setup_gives, ids32. rewrite (map_ext_in _ (fun _ => Ret h32)); [apply one_returns|].
    intros p Hp. apply in_seq in Hp. replace p with 0 by lia. vm_compute. reflexivity. }
  destruct (C25_setup_returns 1 1 255 1 ids32 gs_pairwise fits32) as [hs GS2].
  assert (Hu : forall p, p < 1 -> length ((fun _ => [10; 3]) p) = length (ids32 p)) by auto.
  assert (G1 : gs_gives 1 1 Nat.add 0 false (fun _ => h32) (fun _ => [10; 3]) (fun _ => [13; 13])).
  { intros buf Hb. apply (one_schedule_decides _ [0; 0] [PS (Ret (UFlat [13; 13])) [([], [])]]); [|reflexivity].
    assert (E : buf 0 = []) by (apply length_zero_iff_nil; rewrite Hb by lia; reflexivity). cbn [map seq]. rewrite E. vm_compute. reflexivity. }
  apply (C 1 1 255 1 ids32 fits32 ids32 gs_pairwise (fun _ => h32) hs GU GS1 GS2 nat Nat.add 0 false (fun _ => [10; 3]) (fun _ => [13; 13]) nat_add_monoid Hu) in G1.
  pose proof (C27_gs_flagged Nat.add 0 1 1 255 1 ids32 gs_pairwise hs (fun _ => [10; 3]) nat_add_monoid fits32 GS2 Hu) as G2.
  pose proof (returns_fun_at 1 _ _ _ (G1 _ (buffers_exist 0 1 hs 1)) (G2 _ (buffers_exist 0 1 hs 1)) 0 ltac:(lia)) as E. vm_compute in E. discriminate.
Qed.
Print Assumptions C32_setup_unique_refuted.

(** The hypotheses of the theorems are met by: two processes, ids 1 2 0 2 and -2 3 -1. *)
Definition ids_ex (p : nat) : list Z := match p with 0 => [1; 2; 0; 2]%Z | _ => [-2; 3; -1]%Z end.
Definition u_ex (p : nat) : list nat := match p with 0 => [5; 7; 8; 9] | _ => [1; 2; 3] end.
Example ex_fits : setup_fits 1 1 255 2 ids_ex /\ (forall p, p < 2 -> flagged_after (ids_ex p)) /\
  (forall p, p < 2 -> length (u_ex p) = length (ids_ex p)).
Proof.
  split; [|split].
  - constructor; try (vm_compute; lia). intros [|[|p]] Hp; [| |lia]; (split; [vm_compute; lia|]);
      intros [|[|[|[|i]]]] Hi; cbn in Hi; try lia; vm_compute; lia.
  - intros [|[|p]] Hp; [| |lia]; intros [|[|[|[|i]]]] z Hi Hz; cbn in Hi; try discriminate; try (injection Hi as <-); try lia;
      cbn; intros H; try lia; try (destruct i; discriminate).
  - intros [|[|p]] Hp; auto; lia.
Qed.
(** gs with +: the flagged entries of process 1 receive 5 and 16 but do not contribute. *)
Example ex_gs m hs : setup_gives 1 1 255 2 ids_ex false m hs ->
  gs_gives 1 2 Nat.add 0 false hs u_ex (fun p => match p with 0 => [5; 16; 8; 16] | _ => [16; 2; 5] end).
Proof.
  intros G. destruct ex_fits as (F & _ & Hu). pose proof (C27_gs_flagged Nat.add 0 1 1 255 2 ids_ex m hs u_ex nat_add_monoid F G Hu) as R.
  intros buf Hb. exact (R buf Hb).
Qed.
(** The crystal router and the pairwise method both set up. *)
Example ex_setup : exists h1 h2, setup_gives 1 1 255 2 ids_ex false gs_pairwise h1 /\ setup_gives 1 1 255 2 ids_ex false gs_crystal_router h2.
Proof.
  destruct ex_fits as (F & _). destruct (C25_setup_returns _ _ _ _ _ gs_pairwise F) as [h1 G1].
  destruct (C25_setup_returns _ _ _ _ _ gs_crystal_router F) as [h2 G2]. eauto.
Qed.
