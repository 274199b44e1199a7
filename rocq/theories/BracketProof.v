From Verif Require Import Base BaseLemmas Net NetProof Sort SortSpec SortLemmas Transfer TransferSpec OpsSpec Comm CommSpec CommProof
  KernelSpec ListLemmas GsTop GsSpec GsSortProof GsTopProof1 GsTopProof4 GsExec GsCr Gs GsKernProof GsRunProof GsSetupProof GsSetupProof2 GsUserSpec GsUserProof GsUserProof2 TransferProof2 Param ParamGs BracketSpec.
From Coq Require Import Permutation.

(** ** Data and relations *)
Section Data.
Context {A B : Type}.
Variable R : A -> B -> Prop.
Lemma f2_holds l l' n (f : nat -> A) (g : nat -> B) : holds l n f -> holds l' n g -> (forall i, i < n -> R (f i) (g i)) -> Forall2 R l l'.
Proof.
  revert l l' f g. induction n as [|n IH]; intros l l' f g [L H] [L' H'] HR.
  - destruct l, l'; try discriminate. constructor.
  - destruct l as [|a l], l' as [|b l']; try discriminate. pose proof (H 0 ltac:(lia)) as H0. pose proof (H' 0 ltac:(lia)) as H0'. cbn in H0, H0'. injection H0 as ->. injection H0' as ->.
    constructor; [apply HR; lia|]. apply (IH l l' (fun i => f (S i)) (fun i => g (S i))).
    + split; [cbn in L; lia|]. intros i Hi. exact (H (S i) ltac:(lia)).
    + split; [cbn in L'; lia|]. intros i Hi. exact (H' (S i) ltac:(lia)).
    + intros i Hi. apply HR. lia.
Qed.
Lemma f2_holds_inv (d : A) l l' n g : Forall2 R l l' -> holds l' n g -> holds l n (fun i => nth i l d) /\ forall i, i < n -> R (nth i l d) (g i).
Proof.
  intros F [L H]. pose proof (f2_len _ _ _ F) as E. split; [split; [lia|]; intros i Hi; apply nth_error_nth'; lia|]. intros i Hi. pose proof (f2_nth _ _ _ F i) as N. rewrite (H i Hi) in N.
  rewrite (nth_error_nth' l d) in N by lia. exact N.
Qed.
Lemma vec_holds {X} (l : list X) n vn (f : nat -> nat -> X) : vn <> 0 -> (holds_vec l n vn f <-> holds l (n * vn) (fun m => f (m / vn) (m mod vn))).
Proof.
  intros Hv. split; intros [L H]; split; auto.
  - intros m Hm. rewrite <- H; [|apply Nat.div_lt_upper_bound; lia|apply Nat.mod_upper_bound; auto]. f_equal. pose proof (Nat.div_mod m vn Hv). lia.
  - intros i k Hi Hk. rewrite H by nia. f_equal. replace (i * vn + k) with (k + i * vn) by lia. rewrite Nat.div_add, Nat.mod_add, Nat.div_small, Nat.mod_small by lia. auto.
Qed.
Lemma ru_data mode vn u u' n f g : data_ok mode vn u n f -> data_ok mode vn u' n g -> (forall i k, i < n -> k < vn -> R (f i k) (g i k)) -> ru R u u'.
Proof.
  intros [Hv D] [_ D'] HR. destruct mode, u as [l|ls], u' as [l'|ls']; try tauto; cbn [ru].
  - destruct D as [-> D], D' as [_ D']. apply (f2_holds _ _ n _ _ D D'). intros i Hi. apply HR; lia.
  - apply vec_holds in D; auto. apply vec_holds in D'; auto. apply (f2_holds _ _ _ _ _ D D'). intros m Hm. apply HR; [apply Nat.div_lt_upper_bound; lia|apply Nat.mod_upper_bound; auto].
  - destruct D as [L D], D' as [L' D']. clear Hv. revert ls ls' f g L D L' D' HR. induction vn as [|vn IH]; intros ls ls' f g L D L' D' HR.
    + destruct ls, ls'; try discriminate. constructor.
    + destruct ls as [|l ls], ls' as [|l' ls']; try discriminate. constructor.
      * destruct (D 0 ltac:(lia)) as (x & E & Hx). destruct (D' 0 ltac:(lia)) as (x' & E' & Hx'). cbn in E, E'. injection E as ->. injection E' as ->. apply (f2_holds _ _ n _ _ Hx Hx'). intros i Hi. apply HR; lia.
      * apply (IH ls ls' (fun i k => f i (S k)) (fun i k => g i (S k))); [cbn in L; lia| |cbn in L'; lia| |intros i k Hi Hk; apply HR; lia].
        -- intros k Hk. exact (D (S k) ltac:(lia)).
        -- intros k Hk. exact (D' (S k) ltac:(lia)).
Qed.
Definition at_u (d : A) (mode : gs_mode) (vn : nat) (u : udata A) (i k : nat) : A :=
  match mode, u with
  | mode_plain, UFlat l => nth i l d
  | mode_vec, UFlat l => nth (i * vn + k) l d
  | mode_many, UMany ls => nth i (nth k ls []) d
  | _, _ => d
  end.
Lemma data_ru (d : A) mode vn u u' n g : ru R u u' -> data_ok mode vn u' n g -> data_ok mode vn u n (at_u d mode vn u) /\ forall i k, i < n -> k < vn -> R (at_u d mode vn u i k) (g i k).
Proof.
  intros H [Hv D]. destruct mode, u as [l|ls], u' as [l'|ls']; cbn [ru] in H; try tauto; cbn [at_u].
  - destruct D as [-> D]. destruct (f2_holds_inv d _ _ _ _ H D) as [D1 D2]. split; [split; auto|]. intros i k Hi Hk. replace k with 0 by lia. auto.
  - destruct D as [L D]. pose proof (f2_len _ _ _ H) as E. split; [split; auto; split; [lia|]; intros i k Hi Hk; apply nth_error_nth'; rewrite E, L; nia|].
    intros i k Hi Hk. pose proof (f2_nth _ _ _ H (i * vn + k)) as N. rewrite (D i k Hi Hk) in N. rewrite (nth_error_nth' l d) in N by (rewrite E, L; nia). exact N.
  - destruct D as [L D]. pose proof (f2_len _ _ _ H) as E.
    assert (G : forall k, k < vn -> nth_error ls k = Some (nth k ls []) /\ exists l', Forall2 R (nth k ls []) l' /\ holds l' n (fun i => g i k)).
    { intros k Hk. destruct (D k Hk) as (l' & E' & Hl'). pose proof (f2_nth _ _ _ H k) as N. rewrite E' in N. rewrite (nth_error_nth' ls []) in * by lia. split; auto. exists l'. auto. }
    split; [split; auto; split; [lia|]|].
    + intros k Hk. destruct (G k Hk) as (G1 & l' & G2 & G3). exists (nth k ls []). split; auto. apply (f2_holds_inv d _ _ _ _ G2 G3).
    + intros i k Hi Hk. destruct (G k Hk) as (_ & l' & G2 & G3). apply (f2_holds_inv d _ _ _ _ G2 G3); auto.
Qed.
End Data.
(** Data with given values. *)
Lemma data_exists {X} mode vn n (f : nat -> nat -> X) : vn <> 0 -> (mode = mode_plain -> vn = 1) -> exists u, data_ok mode vn u n f.
Proof.
  intros Hv Hm. destruct mode.
  - exists (UFlat (map (fun i => f i 0) (seq 0 n))). split; auto. split; auto. split; [rewrite map_length, seq_length; auto|]. intros i Hi. rewrite nth_error_map, seq_nth_error by auto. auto.
  - exists (UFlat (map (fun m => f (m / vn) (m mod vn)) (seq 0 (n * vn)))). split; auto. apply vec_holds; auto. split; [rewrite map_length, seq_length; auto|]. intros i Hi. rewrite nth_error_map, seq_nth_error by auto. auto.
  - exists (UMany (map (fun k => map (fun i => f i k) (seq 0 n)) (seq 0 vn))). split; auto. split; [rewrite map_length, seq_length; auto|]. intros k Hk. eexists. rewrite nth_error_map, seq_nth_error by auto. split; [reflexivity|].
    split; [rewrite map_length, seq_length; auto|]. intros i Hi. rewrite nth_error_map, seq_nth_error by auto. auto.
Qed.

(** ** Expressions with junk, from the buffers *)
Inductive jexpr := JVal (q j k : nat) | JId | Junk | JOp (a b : jexpr).
Fixpoint jl (x : jexpr) : list (option (nat * nat * nat)) :=
  match x with JVal q j k => [Some (q, j, k)] | JId => [] | Junk => [None] | JOp a b => jl a ++ jl b end.
Fixpoint strip (x : jexpr) : expr := match x with JVal q j k => Value q j k | JId | Junk => Identity | JOp a b => Combine (strip a) (strip b) end.
Inductive jev {T} (op : T -> T -> T) (e : T) (v : nat -> nat -> nat -> T) : T -> jexpr -> Prop :=
| j_val q j k : jev op e v (v q j k) (JVal q j k)
| j_id : jev op e v e JId
| j_junk x : jev op e v x Junk
| j_op x y a b : jev op e v x a -> jev op e v y b -> jev op e v (op x y) (JOp a b).
Lemma jev_eval {T} (op : T -> T -> T) e v x t : jev op e v x t -> ~ In None (jl t) -> x = eval op e v (strip t).
Proof.
  induction 1 as [q j k| |x|x y a b Ha IHa Hb IHb]; cbn [jl strip eval]; intros N; auto; [destruct N; left; auto|].
  rewrite in_app_iff in N. rewrite <- IHa, <- IHb by tauto. auto.
Qed.
Definition somes {X} (l : list (option X)) : list X := flat_map (fun o => match o with Some x => [x] | None => [] end) l.
Lemma somes_map {X} (l : list X) : somes (map Some l) = l.
Proof. induction l as [|a l IH]; auto. unfold somes in *. cbn [map flat_map app]. rewrite IH. auto. Qed.
Lemma strip_leaves t : leaves (strip t) = somes (jl t).
Proof. induction t; cbn [jl strip leaves]; auto. rewrite IHt1, IHt2. unfold somes. symmetry. apply flat_map_app. Qed.
Lemma leaf_dec : forall x y : option (nat * nat * nat), {x = y} + {x <> y}.
Proof. repeat decide equality. Defined.

(** The contributors as the result of C25-C28 for lists and concatenation, each entry having the list of itself. *)
Definition contrib0 (np : nat) (ids : nat -> list Z) (transpose : bool) (p i : nat) : list (nat * nat) :=
  gs_result (@app (nat * nat)) [] np ids (fun q j => [(q, j)]) transpose p i.
Lemma fold_hom {X} (h : list X -> nat) (Ha : forall a b, h (a ++ b) = h a + h b) L : forall a,
  h (fold_left (@app X) L a) = fold_left Nat.add (map h L) (h a).
Proof. induction L as [|x L IH]; intros a; cbn; auto. rewrite IH, Ha. auto. Qed.
Lemma result_hom {X} (h : list X -> nat) np ids (v : nat -> nat -> list X) t p i : (forall a b, h (a ++ b) = h a + h b) -> h [] = 0 ->
  h (gs_result (@app X) [] np ids v t p i) = gs_result Nat.add 0 np ids (fun q j => h (v q j)) t p i.
Proof.
  intros Ha H0. assert (F : forall L, h (fold_left (@app X) L []) = fold_left Nat.add (map h L) 0) by (intros L; rewrite (fold_hom h Ha), H0; auto).
  assert (F1 : forall sel, h (total_over (@app X) [] np ids v sel) = total_over Nat.add 0 np ids (fun q j => h (v q j)) sel).
  { intros sel. unfold total_over. rewrite F. f_equal. rewrite flat_map_concat_map, concat_map, map_map, flat_map_concat_map. f_equal. apply map_ext. intros q. apply map_map. }
  assert (F2 : forall sel, h (local_over (@app X) [] ids v sel p) = local_over Nat.add 0 ids (fun q j => h (v q j)) sel p).
  { intros sel. unfold local_over. rewrite F. f_equal. apply map_map. }
  unfold gs_result. destruct t; unfold gs_transpose, gs_forward.
  - destruct (_ =? 0); auto. destruct (negb _); auto. destruct (_ && _); auto.
  - destruct (_ =? 0); auto.
Qed.
Lemma nat_cmonoid : cmonoid Nat.add 0.
Proof. constructor; intros; lia. Qed.

Lemma f2_seq {X Y} (Q : X -> Y -> Prop) (f : nat -> X) (g : nat -> Y) n : (forall p, p < n -> Q (f p) (g p)) -> Forall2 Q (map f (seq 0 n)) (map g (seq 0 n)).
Proof.
  intros H. assert (G : forall l, (forall p, In p l -> Q (f p) (g p)) -> Forall2 Q (map f l) (map g l)) by (induction l as [|a l IH]; intros Hl; cbn; constructor; [apply Hl; left; auto|apply IH; intros; apply Hl; right; auto]).
  apply G. intros p Hp. apply in_seq in Hp. apply H. lia.
Qed.
Lemma f2_seq_inv {X Y} (Q : X -> Y -> Prop) (d : X) rs (g : nat -> Y) n : Forall2 Q rs (map g (seq 0 n)) -> rs = map (fun p => nth p rs d) (seq 0 n) /\ forall p, p < n -> Q (nth p rs d) (g p).
Proof.
  intros F. pose proof (f2_len _ _ _ F) as L. rewrite map_length, seq_length in L. split.
  - rewrite <- L. clear. induction rs as [|r rs IH]; auto. cbn [length seq map nth]. f_equal. rewrite <- seq_shift, map_map. exact IH.
  - intros p Hp. pose proof (f2_nth _ _ _ F p) as N. rewrite nth_error_map, seq_nth_error in N by auto. cbn in N. rewrite (nth_error_nth' rs d) in N by lia. auto.
Qed.
Lemma f2_repeat {X Y} (Q : X -> Y -> Prop) (b : list X) y n : length b = n -> (forall x, Q x y) -> Forall2 Q b (repeat y n).
Proof. intros <- H. induction b; cbn; constructor; auto. Qed.
Lemma f2_repeat2 {X Y} (Q : X -> Y -> Prop) x y n : Q x y -> Forall2 Q (repeat x n) (repeat y n).
Proof. intros H. induction n; cbn; constructor; auto. Qed.

(** ** The theorem *)
Section Bracket.
Variable usize np : nat.
Variable ids : nat -> list Z.
Variable hs : nat -> gs_data.
Hypothesis ok : handle_ok usize np ids hs.
Variable mode : gs_mode.
Variable vn : nat.
Hypothesis Hvn : vn <> 0.
Hypothesis Hmode : mode = mode_plain -> vn = 1.
Variable t : bool.
Notation UMAX := (UINT_MAX usize).
Notation prg op e u buf := (map (fun p => gs_aux op e UMAX mode vn np p t (hs p) (u p) (buf p)) (seq 0 np)).

Theorem bracketing : exists tr : nat -> nat -> nat -> expr,
  (forall p i k, p < np -> i < length (ids p) -> k < vn ->
     Permutation (leaves (tr p i k)) (map (fun c => (fst c, snd c, k)) (contrib0 np ids t p i))) /\
  forall (T : Type) (op : T -> T -> T) (e : T) v u buf,
    (forall p, p < np -> data_ok mode vn (u p) (length (ids p)) (v p)) ->
    (forall p, p < np -> length (buf p) = vn * buffer_size (g_r (hs p))) ->
    exists w, (forall p, p < np -> data_ok mode vn (w p) (length (ids p)) (fun i k => eval op e v (tr p i k))) /\
      always_returns (prg op e u buf) (map w (seq 0 np)).
Proof.
  destruct (finite_choice (fun p u => data_ok mode vn u (length (ids p)) (JVal p)) (UFlat []) np) as [uj Huj].
  { intros p Hp. apply data_exists; auto. }
  set (bj := fun p => repeat Junk (vn * buffer_size (g_r (hs p)))).
  assert (Lj : forall p, p < np -> length (bj p) = vn * buffer_size (g_r (hs p))) by (intros; apply repeat_length).
  (* for every leaf, the run over expressions and the run over numbers *)
  assert (Run : forall l, exists rs w, always_returns (prg JOp JId uj bj) rs /\ Forall2 (ru (fun x n => count_occ leaf_dec (jl x) l = n)) rs (map w (seq 0 np)) /\
     forall p, p < np -> data_ok mode vn (w p) (length (ids p)) (fun i k => gs_result Nat.add 0 np ids (fun q j => count_occ leaf_dec [Some (q, j, k)] l) t p i)).
  { intros l. set (v := fun q j k => count_occ leaf_dec [Some (q, j, k)] l).
    destruct (finite_choice (fun p u => data_ok mode vn u (length (ids p)) (v p)) (UFlat []) np) as [un Hun]; [intros p Hp; apply data_exists; auto|].
    set (bn := fun p => repeat (count_occ leaf_dec [None] l) (vn * buffer_size (g_r (hs p)))).
    assert (Ln : forall p, p < np -> length (bn p) = vn * buffer_size (g_r (hs p))) by (intros; apply repeat_length).
    destruct (gs_aux_goes Nat.add 0 nat_cmonoid usize np ids hs ok mode vn t v un Hun bn Ln) as (w & Dw & G). apply goes_always_fun in G.
    destruct (r_always (fun x n => count_occ leaf_dec (jl x) l = n) _ _ (ru (fun x n => count_occ leaf_dec (jl x) l = n)) (prg JOp JId uj bj) (prg Nat.add 0 un bn) (map w (seq 0 np))) as (rs & F & V); auto.
    - apply f2_seq. intros p Hp. apply r_gs_aux.
      + intros a b c d <- <-. cbn [jl]. apply count_occ_app.
      + reflexivity.
      + apply (ru_data _ mode vn _ _ (length (ids p)) (JVal p) (v p)); auto.
      + unfold bj, bn. apply f2_repeat2. reflexivity.
    - exists rs, w. auto. }
  destruct (Run None) as (rs & w0 & V & F0 & D0).
  set (d := UFlat [] : udata jexpr). set (jt := fun p => at_u Junk mode vn (nth p rs d)).
  assert (Cnt : forall l p i k, p < np -> i < length (ids p) -> k < vn -> data_ok mode vn (nth p rs d) (length (ids p)) (jt p) /\
     count_occ leaf_dec (jl (jt p i k)) l = count_occ leaf_dec (map (fun c => Some (fst c, snd c, k)) (contrib0 np ids t p i)) l).
  { intros l p i k Hp Hi Hk. destruct (Run l) as (rs' & w & V' & F & D). rewrite (returns_fun _ _ _ V' V) in F. destruct (f2_seq_inv _ d _ _ _ F) as [_ F1].
    destruct (data_ru _ Junk mode vn _ _ _ _ (F1 p Hp) (D p Hp)) as [D1 D2]. split; [exact D1|]. unfold jt. rewrite (D2 i k Hi Hk). unfold contrib0.
    symmetry. rewrite (result_hom (fun L => count_occ leaf_dec (map (fun c => Some (fst c, snd c, k)) L) l)); auto. intros a b. rewrite map_app. apply count_occ_app. }
  assert (Shape : forall p, p < np -> data_ok mode vn (nth p rs d) (length (ids p)) (jt p)).
  { intros p Hp. destruct (f2_seq_inv _ d _ _ _ F0) as [_ F1]. apply (data_ru _ Junk mode vn _ _ _ _ (F1 p Hp) (D0 p Hp)). }
  assert (Perm : forall p i k, p < np -> i < length (ids p) -> k < vn -> Permutation (jl (jt p i k)) (map Some (map (fun c => (fst c, snd c, k)) (contrib0 np ids t p i)))).
  { intros p i k Hp Hi Hk. apply (Permutation_count_occ leaf_dec). intros l. rewrite map_map. apply (Cnt l p i k Hp Hi Hk). }
  exists (fun p i k => strip (jt p i k)). split.
  - intros p i k Hp Hi Hk. rewrite strip_leaves. rewrite <- (somes_map (map (fun c => (fst c, snd c, k)) (contrib0 np ids t p i))). unfold somes. apply Permutation_flat_map. apply Perm; auto.
  - intros T op e v u buf Hu Hb.
    destruct (r_always (jev op e v) _ _ (ru (jev op e v)) (prg op e u buf) (prg JOp JId uj bj) rs) as (rt & F & Vt); auto.
    { apply f2_seq. intros p Hp. apply r_gs_aux.
      + intros; constructor; auto.
      + constructor.
      + apply (ru_data _ mode vn _ _ (length (ids p)) (v p) (JVal p)); auto. intros; constructor.
      + unfold bj. apply f2_repeat; auto. intros; constructor. }
    destruct (f2_seq_inv _ d _ _ _ F0) as [Ers _]. rewrite Ers in F. destruct (f2_seq_inv _ (UFlat []) _ _ _ F) as [Ert F1].
    exists (fun p => nth p rt (UFlat [])). split; [|rewrite <- Ert; auto]. intros p Hp. destruct (data_ru _ e mode vn _ _ _ _ (F1 p Hp) (Shape p Hp)) as [D1 D2].
    eapply data_ok_ext; [exact D1|]. intros i k Hi Hk. cbn beta. apply jev_eval; auto. intros N. apply (Permutation_in _ (Perm p i k Hp Hi Hk)) in N. apply in_map_iff in N as (x & E & _). discriminate.
Qed.
End Bracket.

Lemma fold_app {X} (L : list (list X)) : forall a, fold_left (@app X) L a = a ++ concat L.
Proof. induction L as [|x L IH]; intros a; cbn; [rewrite app_nil_r; auto|]. rewrite IH, app_assoc. auto. Qed.
Lemma fold_single {X} (l : list X) : fold_left (@app X) (map (fun x => [x]) l) [] = l.
Proof. rewrite fold_app. cbn. induction l; cbn; congruence. Qed.
Lemma total_app np ids sel c : (forall l, sel l = indices (length l) (fun j => c (id_at l j))) ->
  total_over (@app (nat * nat)) [] np ids (fun q j => [(q, j)]) sel = positions np ids c.
Proof.
  intros Hs. unfold total_over, positions. rewrite fold_app. cbn [app]. generalize (seq 0 np). induction l as [|q l IH]; auto. cbn [flat_map].
  rewrite concat_app, IH. f_equal. rewrite Hs. unfold indices, id_at. generalize (filter (fun j => c (nth j (ids q) 0%Z)) (seq 0 (length (ids q)))). intros l0. induction l0; cbn; congruence.
Qed.
Lemma firstn_at {X} (l : list X) : forall n j, j < n -> nth_error (firstn n l) j = nth_error l j.
Proof. induction l as [|a l IH]; intros [|n] [|j] H; cbn; auto; try lia. apply IH. lia. Qed.
Lemma existsb_in z l : existsb (Z.eqb z) l = true <-> In z l.
Proof. rewrite existsb_exists. split; [intros (x & H & E); apply Z.eqb_eq in E; subst; auto|intros H; exists z; split; auto; apply Z.eqb_refl]. Qed.

Lemma none_lt (ids : nat -> list Z) : forall p, p < 0 -> length ((fun _ => []) p : list nat) = length (ids p).
Proof. lia. Qed.
Lemma only_flagged_case (ids : nat -> list Z) p i z : i < length (ids p) -> id_at (ids p) i = z -> (z < 0)%Z ->
  only_flagged (ids p) (Z.abs_nat z) && (prim (ids p) (Z.abs_nat z) =? i) = negb (existsb (Z.eqb (- z)) (ids p) || existsb (Z.eqb z) (firstn i (ids p))).
Proof.
  intros Hi Hz Neg. apply Bool.eq_true_iff_eq. rewrite Bool.andb_true_iff, Bool.negb_true_iff, Bool.orb_false_iff, <- !Bool.not_true_iff_false, !existsb_in, (only_flagged_in Nat.add 0 0 ids _ (none_lt ids) p z Neg), Nat.eqb_eq.
  assert (Ne : nth_error (ids p) i = Some z) by (rewrite id_nth' by auto; congruence).
  assert (Q : ~ In (- z)%Z (ids p) -> (prim (ids p) (Z.abs_nat z) = i <-> ~ In z (firstn i (ids p)))).
  { intros N. rewrite (prim_first Nat.add 0 0 ids _ (none_lt ids) p i z Ne Neg N). split.
    - intros H Hin. apply In_nth_error in Hin as [j Hj]. assert (L : j < length (firstn i (ids p))) by (apply nth_error_Some; congruence).
      rewrite firstn_length in L. apply (H j); [lia|]. rewrite firstn_at in Hj by lia. auto.
    - intros H j Hj Ej. apply H. apply (nth_error_In _ j). rewrite firstn_at; auto. }
  tauto.
Qed.
Theorem contrib_eq np ids t p i : p < np -> i < length (ids p) -> contrib0 np ids t p i = contributors np ids t p i.
Proof.
  intros Hp Hi. unfold contrib0, contributors. set (z := nth i (ids p) 0%Z).
  set (u := fun q => map (fun j => [(q, j)]) (seq 0 (length (ids q)))).
  assert (Hu : forall q, q < np -> length (u q) = length (ids q)) by (intros; unfold u; rewrite map_length, seq_length; auto).
  assert (Hz : id_at (ids p) i = z) by reflexivity.
  unfold gs_result. destruct t; cbn [negb]; unfold gs_transpose, gs_forward, label_at, is_flagged; rewrite Hz.
  - destruct (Nat.eqb_spec (Z.abs_nat z) 0), (Z.eqb_spec z 0); auto; try lia. destruct (Z.ltb_spec z 0), (Z.ltb_spec 0 z); try lia; cbn [negb].
    + destruct (only_flagged (ids p) (Z.abs_nat z) && (prim (ids p) (Z.abs_nat z) =? i)) eqn:E; rewrite (only_flagged_case ids p i z Hi Hz) in E by auto; [|apply Bool.negb_false_iff in E; rewrite E; auto].
      apply Bool.negb_true_iff in E. rewrite E. rewrite <- Bool.negb_true_iff, <- (only_flagged_case ids p i z Hi Hz) in E by auto.
      apply andb_prop in E as [E _]. apply (only_flagged_in Nat.add 0 0 ids _ (none_lt ids) p z) in E; auto.
      unfold local_over. rewrite <- (map_map (fun j => (p, j)) (fun x => [x])), fold_single. f_equal. rewrite all_ids. unfold indices, id_at. apply filter_ext_in. intros j Hj. apply in_seq in Hj.
      destruct (Z.eqb_spec (Z.abs (nth j (ids p) 0%Z)) (Z.of_nat (Z.abs_nat z))) as [A|A], (Z.eqb_spec (nth j (ids p) 0%Z) z) as [B|B]; auto; try lia.
      exfalso. apply E. replace (- z)%Z with (nth j (ids p) 0%Z) by lia. apply nth_In. lia.
    + apply total_app. intros l. rewrite all_ids. apply filter_ext. intros j. f_equal. lia.
  - destruct (Nat.eqb_spec (Z.abs_nat z) 0), (Z.eqb_spec z 0); auto; try lia.
    apply total_app. intros l. rewrite unflagged_ids by auto. apply filter_ext. intros j. f_equal. lia.
Qed.
