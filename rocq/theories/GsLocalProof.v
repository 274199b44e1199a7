(** The local maps of a handle. *)
From Verif Require Import Base BaseLemmas SortSpec Transfer OpsSpec Kernels KernelSpec ListLemmas
  GsTop GsSpec GsTopProof1 GsTopProof2 GsTopProof3 GsPwProof3 GsArProof.

Lemma filter_true {A} (l : list A) : filter (fun _ => true) l = l.
Proof. induction l; cbn; congruence. Qed.

(** ** Groups given by a head and members for each label *)
Definition nonempty (g : nat * list nat) : bool := negb (length (snd g) =? 0).
Definition groups_of (xs : list nat) (h : nat -> nat) (m : nat -> list nat) : groups :=
  filter nonempty (map (fun x => (h x, m x)) xs).

Section Groups.
Variable xs : list nat.
Variable h : nat -> nat.
Variable m : nat -> list nat.
Variable n SENT : nat.
Hypothesis xs_nd : NoDup xs.
Hypothesis h_inj : forall x y, In x xs -> In y xs -> h x = h y -> x = y.
Hypothesis h_lt : forall x, In x xs -> h x < n.
Hypothesis m_lt : forall x j, In x xs -> In j (m x) -> j < n.
Hypothesis m_nd : forall x, In x xs -> NoDup (m x).
Hypothesis m_disj : forall x y j, In x xs -> In y xs -> In j (m x) -> In j (m y) -> x = y.
Hypothesis hm : forall x y, In x xs -> In y xs -> ~ In (h x) (m y).
Hypothesis n_lt : n <= SENT.

Lemma in_groups g : In g (groups_of xs h m) <-> exists x, In x xs /\ g = (h x, m x) /\ m x <> [].
Proof.
  unfold groups_of. rewrite filter_In, in_map_iff. unfold nonempty. split.
  - intros [(x & <- & Hx) E]. exists x. split; auto. split; auto. cbn in E. intros N. rewrite N in E. discriminate.
  - intros (x & Hx & -> & N). split; [eauto|]. cbn. destruct (m x); auto.
Qed.
Lemma groups_valid : valid_map SENT n n (groups_of xs h m).
Proof.
  split; auto. split; auto. intros i js Hin. apply in_groups in Hin as (x & Hx & E & N). injection E as -> ->.
  split; auto. split; eauto.
Qed.
Lemma groups_apart : apart (groups_of xs h m).
Proof.
  intros i j Hi Hj E. subst j. apply in_map_iff in Hi as (g & <- & Hg). apply in_groups in Hg as (x & Hx & -> & _). cbn in Hj.
  apply in_concat in Hj as (l & Hl & Hj). apply in_map_iff in Hl as (g & <- & Hg). apply in_groups in Hg as (y & Hy & -> & _). cbn in Hj.
  apply (hm x y); auto.
Qed.
Lemma groups_pairs : pairs (groups_of xs h m) = flat_map (fun x => map (fun j => (h x, j)) (m x)) xs.
Proof.
  unfold groups_of, pairs. clear. induction xs as [|x l IH]; cbn [map filter flat_map]; auto. unfold nonempty at 1. cbn [snd].
  destruct (m x) as [|j js] eqn:E; cbn [length Nat.eqb negb flat_map fst snd]; rewrite IH; auto; rewrite E; auto.
Qed.

Lemma gathered_head {T} (op : T -> T -> T) a x old : In x xs -> gathered op (groups_of xs h m) a (h x) old = fold_left op (map a (m x)) old.
Proof.
  intros Hx. unfold gathered. rewrite groups_pairs. f_equal.
  rewrite filter_flat_map, map_flat_map.
  rewrite (flat_map_ext_in _ (fun y => if y =? x then map a (m x) else [])).
  - clear -xs_nd Hx. induction xs as [|y l IH]; [destruct Hx|]. cbn [flat_map]. inversion xs_nd; subst. destruct Hx as [->|Hx].
    + rewrite Nat.eqb_refl. rewrite (flat_map_ext_in _ (fun _ => [])), flat_map_nil, app_nil_r; auto.
      intros z Hz. destruct (Nat.eqb_spec z x) as [->|]; auto. contradiction.
    + destruct (Nat.eqb_spec y x) as [->|]; [contradiction|]. apply IH; auto.
  - intros y Hy. rewrite filter_map, map_map. cbn [fst snd]. destruct (Nat.eqb_spec y x) as [->|N].
    + rewrite (filter_ext_in _ (fun _ => true)) by (intros; apply Nat.eqb_refl). rewrite filter_true. auto.
    + rewrite (filter_ext_in _ (fun _ => false)); [rewrite filter_false; auto|]. intros j _. apply Nat.eqb_neq. intros E. apply N. auto.
Qed.
Lemma gathered_other {T} (op : T -> T -> T) a i old : (forall x, In x xs -> i <> h x) -> gathered op (groups_of xs h m) a i old = old.
Proof.
  intros Hi. unfold gathered. rewrite groups_pairs, filter_none; auto. intros [i' j] Hin. apply in_flat_map in Hin as (x & Hx & Hin).
  apply in_map_iff in Hin as (j' & E & _). injection E as <- <-. apply Nat.eqb_neq. intros E. apply (Hi x Hx). auto.
Qed.
Lemma scattered_member {T} (a : nat -> T) x j old : In x xs -> In j (m x) -> scattered (groups_of xs h m) a j old = a (h x).
Proof.
  intros Hx Hj. unfold scattered.
  assert (E : filter (fun q => snd q =? j) (pairs (groups_of xs h m)) = [(h x, j)]); [|rewrite E; auto].
  apply Permutation_length_1_inv. apply NoDup_Permutation; [repeat constructor; auto| |].
  - apply NoDup_filter. rewrite groups_pairs. apply NoDup_flat_map; auto.
    + intros y Hy. apply NoDup_map_inj; auto. intros b c E. congruence.
    + intros y z b Hy Hz Hb Hc. apply in_map_iff in Hb as (j1 & <- & H1), Hc as (j2 & E & H2). injection E as E1 E2. subst j2. eapply m_disj; eauto.
  - intros [i j']. rewrite filter_In, groups_pairs, in_flat_map, Nat.eqb_eq. cbn [In snd]. split.
    + intros [E|[]]. injection E as <- <-. split; auto. exists x. split; auto. apply in_map_iff. eauto.
    + intros [(y & Hy & Hin) ->]. apply in_map_iff in Hin as (j2 & E & H2). injection E as <- ->. left. f_equal. f_equal. eapply m_disj; eauto.
Qed.
Lemma scattered_other {T} (a : nat -> T) j old : (forall x, In x xs -> ~ In j (m x)) -> scattered (groups_of xs h m) a j old = old.
Proof.
  intros Hj. unfold scattered. rewrite groups_pairs, filter_none; auto. intros [i j'] Hin. apply in_flat_map in Hin as (x & Hx & Hin).
  apply in_map_iff in Hin as (j2 & E & H2). injection E as <- <-. apply Nat.eqb_neq. cbn. intros ->. eapply Hj; eauto.
Qed.
End Groups.

(** ** The loop of local_map on blocks of equal labels *)
Section Loop.
Variable usize : nat.
Notation UMAX := (UINT_MAX usize).
Notation loop := (local_map_loop usize).

(** rows does not continue the row for label x. *)
Definition fresh (ign : bool) (x : nat) (rows : list nonzero_id) : Prop :=
  match rows with [] => True | r :: _ => (z_id r =? x) && (negb ign || negb (z_flag r)) = false end.
Lemma loop_fresh ign x i any rows : fresh ign x rows ->
  loop ign (Some (x, i, any)) rows = (if any : bool then [UMAX] else []) ++ loop ign None rows.
Proof. destruct rows as [|r rows]; cbn [fresh local_map_loop]; [intros _|intros ->]; destruct any; auto. Qed.
Lemma loop_members ign x i blk : (forall r, In r blk -> z_id r = x /\ (ign = false \/ z_flag r = false)) -> forall any rest,
  loop ign (Some (x, i, any)) (blk ++ rest) =
  (if any : bool then [] else if length blk =? 0 then [] else [i]) ++ map z_i blk ++ loop ign (Some (x, i, any || negb (length blk =? 0))) rest.
Proof.
  induction blk as [|r blk IH]; intros Hb any rest; cbn [app map length Nat.eqb negb].
  - rewrite orb_false_r. destruct any; auto.
  - cbn [local_map_loop]. destruct (Hb r (or_introl eq_refl)) as [-> F]. rewrite Nat.eqb_refl.
    assert (E : negb ign || negb (z_flag r) = true) by (destruct F as [->| ->]; cbn; auto using orb_true_r). rewrite E. cbn [andb].
    rewrite IH by (intros; apply Hb; right; auto). cbn [app orb]. rewrite orb_true_r. destruct any; auto.
Qed.
Lemma loop_flagged x fl rest : (forall r, In r fl -> z_id r = x /\ z_flag r = true) -> fresh true x rest ->
  loop true None (fl ++ rest) = loop true None rest.
Proof.
  induction fl as [|r fl IH]; intros Hf Fr; auto. cbn [app local_map_loop]. destruct (Hf r (or_introl eq_refl)) as [Er _]. rewrite Er.
  rewrite loop_fresh; [apply IH; auto; intros; apply Hf; right; auto|]. destruct fl as [|r2 fl]; auto. cbn.
  destruct (Hf r2 (or_intror (or_introl eq_refl))) as [_ ->]. cbn. apply andb_false_r.
Qed.
(** A block: head, members, and rows that the loop skips. *)
Lemma loop_block ign x r blk fl rest : z_id r = x -> (forall r, In r blk -> z_id r = x /\ (ign = false \/ z_flag r = false)) ->
  (forall r, In r fl -> z_id r = x /\ z_flag r = true /\ ign = true) -> (match rest with [] => True | r :: _ => z_id r <> x end) ->
  loop ign None (r :: blk ++ fl ++ rest) =
  (if length blk =? 0 then [] else z_i r :: map z_i blk ++ [UMAX]) ++ loop ign None rest.
Proof.
  intros Er Hb Hf Hr. cbn [local_map_loop]. rewrite Er, loop_members by auto. cbn [orb].
  assert (Fr : forall i, fresh i x rest) by (intros i; destruct rest as [|r2 rest]; cbn; auto; apply Nat.eqb_neq in Hr; rewrite Hr; auto).
  assert (E : loop ign (Some (x, z_i r, negb (length blk =? 0))) (fl ++ rest) = (if negb (length blk =? 0) then [UMAX] else []) ++ loop ign None rest).
  { rewrite loop_fresh.
    - f_equal. destruct fl as [|r2 fl]; auto. destruct (Hf r2 (or_introl eq_refl)) as (_ & _ & Ei). rewrite Ei in *.
      apply (loop_flagged x); auto. intros r3 H3. destruct (Hf r3 H3) as (A & B & _). auto.
    - destruct fl as [|r2 fl]; [apply Fr|]. cbn. destruct (Hf r2 (or_introl eq_refl)) as (_ & -> & ->). cbn. apply andb_false_r. }
  rewrite E. destruct (Nat.eqb_spec (length blk) 0) as [E0|E0]; cbn [negb].
  - apply length_zero_iff_nil in E0 as ->. auto.
  - cbn [app]. rewrite <- !app_assoc. auto.
Qed.
(** The whole array. *)
Lemma local_map_blocks ign xs (hd : nat -> nonzero_id) (blk fl : nat -> list nonzero_id) : NoDup xs ->
  (forall x, In x xs -> z_id (hd x) = x) ->
  (forall x r, In x xs -> In r (blk x) -> z_id r = x /\ (ign = false \/ z_flag r = false)) ->
  (forall x r, In x xs -> In r (fl x) -> z_id r = x /\ z_flag r = true /\ ign = true) ->
  local_map usize (flat_map (fun x => hd x :: blk x ++ fl x) xs) ign =
  encode UMAX (groups_of xs (fun x => z_i (hd x)) (fun x => map z_i (blk x))).
Proof.
  unfold local_map. induction xs as [|x xs IH]; intros ND Hh Hb Hf; auto. inversion ND as [|? ? Nx ND']; subst.
  cbn [flat_map app]. rewrite <- app_assoc. rewrite (loop_block ign x).
  - rewrite IH.
    + unfold groups_of, encode. cbn [map filter]. unfold nonempty at 2. cbn [snd]. rewrite map_length.
      destruct (Nat.eqb_spec (length (blk x)) 0) as [E|E]; cbn [negb flat_map fst snd]; auto. rewrite <- app_assoc. auto.
    + auto.
    + intros; apply Hh; right; auto.
    + intros y r Hy Hr. apply (Hb y r); auto. right; auto.
    + intros y r Hy Hr. apply (Hf y r); auto. right; auto.
  - apply Hh. left; auto.
  - intros r Hr. apply (Hb x r); auto. left; auto.
  - intros r Hr. apply (Hf x r); auto. left; auto.
  - destruct xs as [|y xs]; [exact I|]. cbn. rewrite (Hh y) by (right; left; auto). intros ->. apply Nx. left; auto.
Qed.
End Loop.

(** ** The maps of the array nz *)
Definition members (ign : bool) (l : list Z) (x : nat) : list nat :=
  tl (unflagged_at l x ++ (if ign then [] else flagged_at l x)).
Definition local_groups (ign : bool) (l : list Z) : groups := groups_of (labels l) (prim l) (members ign l).

Lemma has_parts l x : has l x = true -> unflagged_at l x ++ flagged_at l x <> [].
Proof.
  intros Hh E. apply app_eq_nil in E as [E1 E2]. pose proof (prim_in l x Hh) as Hin. unfold prim in Hin. rewrite E1, E2 in Hin. cbn in Hin.
  apply in_all_at in Hin as [Hl Hx]. destruct (is_flagged l 0) eqn:F.
  - assert (In 0 (flagged_at l x)) by (apply in_flagged_at; auto). rewrite E2 in *. auto.
  - assert (In 0 (unflagged_at l x)) by (apply in_unflagged_at; auto). rewrite E1 in *. auto.
Qed.

Lemma local_map_ok usize ign l : local_map usize (nz_rows l) ign = encode (UINT_MAX usize) (local_groups ign l).
Proof.
  set (mk := fun x f i => NZ x i f (prim l x)).
  set (hd := fun x => NZ x (prim l x) (only_flagged l x) (prim l x)).
  set (blk := fun x => map (mk x false) (tl (unflagged_at l x)) ++ (if ign then [] else map (mk x true) (if only_flagged l x then tl (flagged_at l x) else flagged_at l x))).
  set (fl := fun x => if ign then map (mk x true) (if only_flagged l x then tl (flagged_at l x) else flagged_at l x) else []).
  assert (E : nz_rows l = flat_map (fun x => hd x :: blk x ++ fl x) (labels l)).
  { unfold nz_rows. apply flat_map_ext_in. intros x Hx. apply in_labels in Hx as [_ Hx]. pose proof (has_parts l x Hx) as N.
    unfold grp, rows_of_label, hd, blk, fl, mk. unfold prim in *. unfold only_flagged.
    destruct (unflagged_at l x) as [|i us]; cbn [app tl length Nat.eqb map hd] in *.
    - destruct (flagged_at l x) as [|j fs]; [congruence|]. cbn. f_equal. destruct ign; cbn; rewrite ?app_nil_r; auto.
    - cbn. f_equal. destruct ign; cbn; rewrite ?app_nil_r; auto. }
  rewrite E, local_map_blocks.
  - unfold local_groups. f_equal. unfold groups_of. f_equal. apply map_ext_in. intros x Hx. apply in_labels in Hx as [_ Hx].
    pose proof (has_parts l x Hx) as N. cbn. f_equal. unfold blk, members, only_flagged.
    destruct (unflagged_at l x) as [|i us]; cbn [app tl length Nat.eqb map] in *.
    + destruct ign; cbn; auto. rewrite map_map. cbn. rewrite map_id. auto.
    + destruct ign; cbn; rewrite ?app_nil_r, ?map_app, !map_map; cbn; rewrite !map_id; auto.
  - apply labels_NoDup.
  - auto.
  - intros x r _ Hr. unfold blk in Hr. apply in_app_or in Hr as [Hr|Hr].
    + apply in_map_iff in Hr as (i & <- & _). auto.
    + destruct ign; [destruct Hr|]. apply in_map_iff in Hr as (i & <- & _). auto.
  - intros x r _ Hr. unfold fl in Hr. destruct ign; [|destruct Hr]. apply in_map_iff in Hr as (i & <- & _). auto.
Qed.

Lemma prim_inj l x y : In x (labels l) -> In y (labels l) -> prim l x = prim l y -> x = y.
Proof.
  intros Hx Hy E. apply in_labels in Hx as [_ Hx], Hy as [_ Hy]. rewrite <- (prim_label l x Hx), <- (prim_label l y Hy), E. auto.
Qed.
Lemma parts_NoDup l x : NoDup (unflagged_at l x ++ flagged_at l x).
Proof.
  apply NoDup_app_intro; [apply indices_NoDup|apply indices_NoDup|]. intros i H1 H2. apply in_unflagged_at in H1. apply in_flagged_at in H2.
  destruct H1 as (_ & _ & E1), H2 as (_ & _ & E2). congruence.
Qed.
Lemma NoDup_app_l {A} (a b : list A) : NoDup (a ++ b) -> NoDup a.
Proof. induction a as [|x a IH]; cbn; intros N; constructor; inversion N; subst; auto. intros Hx. apply H1. apply in_or_app. auto. Qed.
Lemma in_members ign l x j : has l x = true ->
  (In j (members ign l x) <-> In j (all_at l x) /\ j <> prim l x /\ (ign = true -> is_flagged l j = false)).
Proof.
  intros Hh. pose proof (has_parts l x Hh) as N. pose proof (parts_NoDup l x) as ND. unfold members, prim.
  assert (A : In j (all_at l x) <-> In j (unflagged_at l x ++ flagged_at l x)).
  { rewrite in_app_iff, in_all_at, in_unflagged_at, in_flagged_at. destruct (is_flagged l j); intuition congruence. }
  rewrite A. clear A.
  assert (F1 : forall i, In i (flagged_at l x) -> is_flagged l i = true) by (intros i Hi; apply in_flagged_at in Hi; tauto).
  assert (F2 : forall i, In i (unflagged_at l x) -> is_flagged l i = false) by (intros i Hi; apply in_unflagged_at in Hi; tauto).
  destruct (unflagged_at l x) as [|i us]; cbn [app hd tl] in *.
  - destruct (flagged_at l x) as [|k fs]; [congruence|]. cbn [hd In]. inversion ND; subst. destruct ign; cbn [tl].
    + split; [intros []|]. intros [[->|Hj] [Nj F]]; [congruence|]. specialize (F eq_refl). rewrite F1 in F; [discriminate|right; auto].
    + split; [intros Hj; split; auto; split; [intros ->; auto|discriminate]|]. intros [[->|Hj] [Nj _]]; congruence || auto.
  - inversion ND; subst. destruct ign.
    + rewrite app_nil_r. split.
      * intros Hj. split; [right; apply in_or_app; auto|]. split; [intros ->; apply H1; apply in_or_app; auto|]. intros _. apply F2. right; auto.
      * intros [[->|Hj] [Nj F]]; [congruence|]. apply in_app_or in Hj as [Hj|Hj]; auto. specialize (F eq_refl). rewrite F1 in F by auto. discriminate F.
    + split; [intros Hj; split; [right; auto|]; split; [intros ->; auto|discriminate]|]. intros [[->|Hj] [Nj _]]; congruence || auto.
Qed.
Lemma members_NoDup ign l x : NoDup (members ign l x).
Proof.
  unfold members. pose proof (parts_NoDup l x) as ND.
  assert (ND' : NoDup (unflagged_at l x ++ (if ign then [] else flagged_at l x))).
  { destruct ign; auto. rewrite app_nil_r. eapply NoDup_app_l; eauto. }
  destruct ND'; cbn; auto. constructor.
Qed.

Section LocalFacts.
Variable l : list Z.
Variable ign : bool.
Variable SENT : nat.
Hypothesis fit : length l <= SENT.
Notation xs := (labels l).
Fact lf_h_inj : forall x y, In x xs -> In y xs -> prim l x = prim l y -> x = y.
Proof. apply prim_inj. Qed.
Fact lf_h_lt : forall x, In x xs -> prim l x < length l.
Proof. intros x Hx. apply in_labels in Hx as [_ Hx]. apply prim_lt; auto. Qed.
Fact lf_m_lt : forall x j, In x xs -> In j (members ign l x) -> j < length l.
Proof. intros x j Hx Hj. apply in_labels in Hx as [_ Hx]. apply in_members in Hj as [Hj _]; auto. apply in_all_at in Hj. tauto. Qed.
Fact lf_disj : forall x y j, In x xs -> In y xs -> In j (members ign l x) -> In j (members ign l y) -> x = y.
Proof.
  intros x y j Hx Hy H1 H2. apply in_labels in Hx as [_ Hx], Hy as [_ Hy]. apply in_members in H1 as [H1 _], H2 as [H2 _]; auto.
  apply in_all_at in H1 as [_ <-], H2 as [_ <-]. auto.
Qed.
Fact lf_hm : forall x y, In x xs -> In y xs -> ~ In (prim l x) (members ign l y).
Proof.
  intros x y Hx Hy H1. pose proof Hx as Hx'. pose proof Hy as Hy'. apply in_labels in Hx as [_ Hx], Hy as [_ Hy].
  apply in_members in H1 as (H1 & N & _); auto. apply in_all_at in H1 as [_ E]. rewrite (prim_label l x Hx) in E. subst. auto.
Qed.
Lemma local_valid : valid_map SENT (length l) (length l) (local_groups ign l).
Proof. apply groups_valid; auto. apply lf_h_lt. apply lf_m_lt. Qed.
Lemma local_apart : apart (local_groups ign l).
Proof. apply groups_apart, lf_hm. Qed.
Lemma local_gathered {T} (op : T -> T -> T) a x old : x <> 0 -> has l x = true ->
  gathered op (local_groups ign l) a (prim l x) old = fold_left op (map a (members ign l x)) old.
Proof. intros Hx Hh. apply gathered_head; [apply labels_NoDup|apply lf_h_inj|apply in_labels; auto]. Qed.
Lemma local_gathered_other {T} (op : T -> T -> T) a i old : (forall x, x <> 0 -> has l x = true -> i <> prim l x) ->
  gathered op (local_groups ign l) a i old = old.
Proof. intros Hi. apply gathered_other. intros x Hx. apply in_labels in Hx as [H0 Hx]. auto. Qed.
Lemma local_scattered {T} (a : nat -> T) x j old : x <> 0 -> has l x = true -> In j (members ign l x) ->
  scattered (local_groups ign l) a j old = a (prim l x).
Proof.
  intros Hx Hh Hj. apply scattered_member; auto; [apply labels_NoDup|intros; apply members_NoDup|apply lf_disj|apply in_labels; auto].
Qed.
Lemma local_scattered_other {T} (a : nat -> T) j old : (forall x, x <> 0 -> has l x = true -> ~ In j (members ign l x)) ->
  scattered (local_groups ign l) a j old = old.
Proof. intros Hj. apply scattered_other. intros x Hx. apply in_labels in Hx as [H0 Hx]. auto. Qed.
End LocalFacts.

(** flagged_primaries_map. *)
Lemma flagged_map_ok usize l : flagged_primaries_map usize (nz_rows l) =
  map (prim l) (filter (only_flagged l) (labels l)) ++ [UINT_MAX usize].
Proof.
  unfold flagged_primaries_map. f_equal.
  rewrite <- (filter_andb z_flag (fun r => z_i r =? z_primary r)), primaries_eq, filter_map, map_map. auto.
Qed.
