(** Proofs about GsMem.v. *)
From Verif Require Import Base GsMem GsMemSpec.
Local Open Scope nat_scope.

(** What a setup does: a value and the new blocks. *)
Definition gains (h h' : heap) (bs : list nat) : Prop := heap_ok h' /\ Permutation (live h') (bs ++ live h).
Definition loses (h h' : heap) (bs : list nat) : Prop := heap_ok h' /\ Permutation (live h) (bs ++ live h').

Ltac count x := do 3 (repeat rewrite ?count_occ_app in *; simpl in * );
  repeat match goal with |- context [if ?b then _ else _] => destruct b | H : context [if ?b then _ else _] |- _ => destruct b end;
  repeat rewrite ?count_occ_app in *; simpl in *; lia.
Ltac tocount x :=
  repeat match goal with P : Permutation _ _ |- _ => let Q := fresh "Q" in
    pose proof (proj1 (Permutation_count_occ Nat.eq_dec _ _) P x) as Q; clear P end.
Ltac permc := apply (Permutation_count_occ Nat.eq_dec); let x := fresh "x" in intros x; tocount x; count x.

Lemma malloc_gains h : heap_ok h -> gains h (snd (tmalloc h)) [fst (tmalloc h)].
Proof.
  intros [N B]. unfold gains, heap_ok. simpl. repeat split; auto.
  - constructor; auto. intros I. specialize (B _ I). lia.
  - intros b [<-|I]; [lia|]. specialize (B _ I). lia.
Qed.
Lemma gains_trans h1 h2 h3 a b : gains h1 h2 a -> gains h2 h3 b -> gains h1 h3 (a ++ b).
Proof. intros [_ P] [O Q]. split; auto. permc. Qed.
Lemma free_ok h b rest : heap_ok h -> Permutation (live h) (b :: rest) -> exists h', free h b = Ok h' /\ heap_ok h' /\ Permutation (live h') rest.
Proof.
  intros [N B] P. unfold free.
  assert (I : In b (live h)) by (apply (Permutation_in _ (Permutation_sym P)); left; auto).
  assert (E : existsb (Nat.eqb b) (live h) = true) by (apply existsb_exists; exists b; split; auto; apply Nat.eqb_refl). rewrite E.
  eexists. split; [reflexivity|].
  assert (Q : Permutation (live h) (b :: filter (fun x => negb (x =? b)) (live h))).
  { clear - N I. induction (live h) as [|y l IH]; simpl in *; [tauto|]. inversion N; subst. destruct (y =? b) eqn:Q; simpl.
    - apply Nat.eqb_eq in Q. subst. apply perm_skip. clear - H1. induction l as [|z l IH]; simpl in *; [constructor|].
      destruct (z =? b) eqn:Q; simpl; [apply Nat.eqb_eq in Q; tauto|]. apply perm_skip. tauto.
    - destruct I as [->|I]; [rewrite Nat.eqb_refl in Q; discriminate|]. rewrite (IH H2 I) at 1. constructor. }
  split; [split|]; simpl.
  - apply (Permutation_NoDup Q) in N. now inversion N.
  - intros x Ix. apply filter_In in Ix. apply B. tauto.
  - apply (Permutation_cons_inv (a := b)). now rewrite <- Q, P.
Qed.
Lemma use_ok h s bs rest : Permutation (live h) (bs ++ s :: rest) -> use h s = Ok h.
Proof.
  intros P. unfold use. assert (E : existsb (Nat.eqb s) (live h) = true); [|now rewrite E].
  apply existsb_exists. exists s. split; [|apply Nat.eqb_refl]. apply (Permutation_in _ (Permutation_sym P)). apply in_or_app. simpl. auto.
Qed.
Lemma frees_ok s bs : forall h rest, heap_ok h -> Permutation (live h) (bs ++ s :: rest) ->
  exists h', frees_of s h bs = Ok h' /\ heap_ok h' /\ Permutation (live h') (s :: rest).
Proof.
  induction bs as [|b bs IH]; cbn [frees_of]; intros h rest O P; [simpl in P; eauto|].
  rewrite (use_ok h s (b :: bs) rest P). cbn [bind].
  destruct (free_ok h b (bs ++ s :: rest) O P) as (h1 & E & O1 & P1). rewrite E. simpl. apply IH; auto.
Qed.
(** The pointers stored in a block and then the block. *)
Lemma frees_all s bs h rest : heap_ok h -> Permutation (live h) (bs ++ s :: rest) ->
  exists h', (h <- frees_of s h bs ;; free h s) = Ok h' /\ heap_ok h' /\ Permutation (live h') rest.
Proof. intros O P. destruct (frees_ok s bs h rest O P) as (h1 & E & O1 & P1). rewrite E. cbn [bind]. apply free_ok; auto. Qed.

Lemma six h : heap_ok h -> let '(a, h1) := tmalloc h in let '(b, h2) := tmalloc h1 in let '(c, h3) := tmalloc h2 in
  let '(d, h4) := tmalloc h3 in let '(e, h5) := tmalloc h4 in let '(f, h6) := tmalloc h5 in gains h h6 [a; b; c; d; e; f].
Proof.
  intros O. cbv beta iota zeta delta [tmalloc].
  repeat match goal with |- gains _ (Heap (?x :: ?l) ?y) _ => idtac end.
  split.
  - destruct O as [N B]. split; simpl.
    + repeat constructor; simpl; auto; intros I; repeat (destruct I as [I|I]; [lia|]); specialize (B _ I); lia.
    + intros x I. repeat (destruct I as [<-|I]; [lia|]). specialize (B _ I). lia.
  - simpl. permc.
Qed.
Lemma pw_ok h : heap_ok h -> exists x h', pw_setup h = Ok (x, h') /\ gains h h' (kept x) /\ match x with PW _ _ _ _ _ _ => True | _ => False end.
Proof.
  intros O. pose proof (six h O) as G. unfold pw_setup. cbv beta iota zeta delta [tmalloc] in *.
  do 2 eexists. split; [reflexivity|]. split; [|exact Logic.I]. destruct G as [G P]. split; auto. simpl kept. clear G. permc.
Qed.
Lemma ar_ok h : heap_ok h -> exists x h', allreduce_setup h = Ok (x, h') /\ gains h h' (kept x) /\ match x with AR _ _ _ _ _ _ => True | _ => False end.
Proof.
  intros O. pose proof (six h O) as G. unfold allreduce_setup. cbv beta iota zeta delta [tmalloc] in *.
  do 2 eexists. split; [reflexivity|]. split; [|exact Logic.I]. destruct G as [G P]. split; auto. simpl kept. clear G. permc.
Qed.

Lemma half n : 1 < n -> (n + 1) / 2 < n /\ n - (n + 1) / 2 < n.
Proof. intros H. assert (0 < (n + 1) / 2 < n) by (split; [apply Nat.div_str_pos; lia|apply Nat.div_lt_upper_bound; lia]). lia. Qed.
Lemma count_ok fuel id : forall bl n, n < fuel -> exists k, count_stages fuel id bl n = Ok k.
Proof.
  induction fuel as [|f IH]; intros bl n L; [lia|]. cbn [count_stages]. destruct (1 <? n) eqn:E; [|eauto].
  apply Nat.ltb_lt in E. pose proof (half n E). destruct (id <? _).
  - destruct (IH bl ((n + 1) / 2)) as (k & Ek); [lia|]. cbv zeta. rewrite Ek. simpl. eauto.
  - destruct (IH (bl + (n + 1) / 2) (n - (n + 1) / 2)) as (k & Ek); [lia|]. cbv zeta. rewrite Ek. simpl. eauto.
Qed.
Lemma wr_at {A} (a t : list A) x v : wr (a ++ x :: t) (length a) v = Ok (a ++ v :: t).
Proof.
  unfold wr. rewrite app_length. simpl. replace (length a <? length a + S (length t)) with true by (symmetry; apply Nat.ltb_lt; lia).
  f_equal. induction a; simpl; auto. now f_equal.
Qed.
Lemma learn_ok fuel id : forall bl n h a t k, heap_ok h -> count_stages fuel id bl n = Ok k ->
  exists bs h', cr_learn fuel id bl n h (a ++ repeat None (S k) ++ t) (length a) = Ok (a ++ map Some bs ++ t, h') /\
    length bs = S k /\ gains h h' bs.
Proof.
  induction fuel as [|f IH]; intros bl n h a t k O C; [discriminate|]. cbn [count_stages] in C. cbn [cr_learn]. unfold crl_maps.
  pose proof (malloc_gains h O) as G. destruct (tmalloc h) as [b h1]. cbn [fst snd] in G. cbn [repeat app]. rewrite wr_at. cbn [bind].
  destruct (1 <? n).
  - cbv zeta in *. destruct (id <? bl + (n + 1) / 2).
    + destruct (count_stages f id bl ((n + 1) / 2)) as [k'| | |] eqn:E; try discriminate. cbn [bind] in C. inversion C; subst.
      destruct (IH bl _ h1 (a ++ [Some b]) t k' (proj1 G) E) as (bs & h2 & E2 & L & G2).
      rewrite <- app_assoc, app_length in E2. cbn [app repeat length] in E2. replace (length a + 1) with (S (length a)) in E2 by lia.
      exists (b :: bs), h2. cbn [repeat app]. rewrite E2.
      split; [now rewrite <- app_assoc|]. split; [simpl; lia|]. apply (gains_trans _ _ _ [b] bs G G2).
    + destruct (count_stages f id (bl + (n + 1) / 2) (n - (n + 1) / 2)) as [k'| | |] eqn:E; try discriminate. cbn [bind] in C. inversion C; subst.
      destruct (IH _ _ h1 (a ++ [Some b]) t k' (proj1 G) E) as (bs & h2 & E2 & L & G2).
      rewrite <- app_assoc, app_length in E2. cbn [app repeat length] in E2. replace (length a + 1) with (S (length a)) in E2 by lia.
      exists (b :: bs), h2. cbn [repeat app]. rewrite E2.
      split; [now rewrite <- app_assoc|]. split; [simpl; lia|]. apply (gains_trans _ _ _ [b] bs G G2).
  - inversion C; subst. exists [b], h1. simpl. auto.
Qed.
Lemma rd_at {A} (a t : list A) x : rd (a ++ x :: t) (length a) = Ok x.
Proof. unfold rd. rewrite nth_error_app2; auto. now rewrite Nat.sub_diag. Qed.
Lemma free_maps_ok st bs : forall k h a t rest, length bs = S k -> heap_ok h -> Permutation (live h) (bs ++ st :: rest) ->
  exists h', cr_free_stage_maps st h (a ++ map Some bs ++ t) (length a) k = Ok h' /\ heap_ok h' /\ Permutation (live h') (st :: rest).
Proof.
  induction bs as [|b bs IH]; intros k h a t rest L O P; [discriminate|]. simpl in L.
  assert (E0 : cr_free_stage_maps st h (a ++ map Some (b :: bs) ++ t) (length a) k =
     (h <- free h b ;; match k with 0 => Ok h | S k => cr_free_stage_maps st h (a ++ map Some (b :: bs) ++ t) (S (length a)) k end)).
  { destruct k; cbn [cr_free_stage_maps map app]; rewrite (use_ok h st (b :: bs) rest P); cbn [bind]; now rewrite rd_at. }
  rewrite E0. destruct (free_ok h b (bs ++ st :: rest) O P) as (h1 & E & O1 & P1). rewrite E. simpl bind.
  destruct k as [|k].
  - destruct bs; [|discriminate]. eauto.
  - destruct (IH k h1 (a ++ [Some b]) t rest) as (h2 & E2 & R); [lia|auto|auto|].
    rewrite <- app_assoc, app_length, Nat.add_1_r in E2. simpl in E2. exists h2. simpl. now rewrite E2.
Qed.

(** Well-formed method data: all maps of the crystal router's stages are set, k+1 for each direction. *)
Definition wf (x : remote) : Prop :=
  match x with CR k _ maps _ => exists b0 b1, maps = map Some b0 ++ map Some b1 /\ length b0 = S k /\ length b1 = S k | _ => True end.
Definition req_lost (x : remote) : list nat := match x with AR _ _ _ _ q _ => [q] | _ => [] end.
Lemma set_maps_app a b : set_maps (a ++ b) = set_maps a ++ set_maps b.
Proof. apply flat_map_app. Qed.
Lemma set_maps_some l : set_maps (map Some l) = l.
Proof. induction l; simpl; auto. now f_equal. Qed.
Lemma repeat_plus {A} (x : A) n m : repeat x (n + m) = repeat x n ++ repeat x m.
Proof. induction n; simpl; auto. now f_equal. Qed.

Lemma cr_ok id np h : heap_ok h -> exists x h', cr_setup id np h = Ok (x, h') /\ gains h h' (kept x) /\ wf x /\ req_lost x = [].
Proof.
  intros O. unfold cr_setup. pose proof (malloc_gains h O) as G1. destruct (tmalloc h) as [s h1]. cbn [fst snd] in G1.
  destruct (count_ok (S np) id 0 np) as (k & Ek); [lia|]. rewrite Ek. unfold bind at 1.
  pose proof (malloc_gains h1 (proj1 G1)) as G2. destruct (tmalloc h1) as [st h2]. cbn [fst snd] in G2.
  replace (2 * (k + 1)) with (S k + S k) by lia. rewrite repeat_plus.
  destruct (learn_ok (S np) id 0 np h2 [] (repeat None (S k)) k (proj1 G2) Ek) as (b0 & h3 & E3 & L3 & G3).
  unfold app at 1 3 in E3. change (length []) with 0 in E3. rewrite E3. unfold bind at 1.
  destruct (learn_ok (S np) id 0 np h3 (map Some b0) [] k (proj1 G3) Ek) as (b1 & h4 & E4 & L4 & G4).
  rewrite !app_nil_r, map_length, L3 in E4. replace (k + 1) with (S k) by lia. rewrite E4. simpl bind.
  do 2 eexists. split; [reflexivity|]. split; [|split; [simpl; eauto|reflexivity]].
  simpl kept. rewrite set_maps_app, !set_maps_some. split; [apply G4|].
  destruct G1 as [_ G1], G2 as [_ G2], G3 as [_ G3], G4 as [_ G4]. clear - G1 G2 G3 G4. permc.
Qed.

Lemma fin_ok x h rest : wf x -> heap_ok h -> Permutation (live h) (kept x ++ rest) ->
  exists h', fin x h = Ok h' /\ heap_ok h' /\ Permutation (live h') (req_lost x ++ rest).
Proof.
  intros W O P. destruct x; unfold fin.
  - apply frees_all; auto.
  - destruct W as (b0 & b1 & E & L0 & L1). subst maps. simpl kept in P. rewrite set_maps_app, !set_maps_some in P.
    rewrite (use_ok h self [stage0] ((b0 ++ b1) ++ rest)); [|clear - P; permc]. unfold bind at 1.
    destruct (free_maps_ok stage0 b0 nstages h [] (map Some b1) (b1 ++ self :: rest) L0 O) as (h1 & E1 & O1 & P1); [clear - P; permc|].
    simpl in E1. rewrite E1. unfold bind at 1.
    rewrite (use_ok h1 self (stage0 :: b1) rest); [|clear - P1; permc]. unfold bind at 1.
    destruct (free_maps_ok stage0 b1 nstages h1 (map Some b0) [] (self :: rest) L1 O1) as (h2 & E2 & O2 & P2); [clear - P1; permc|].
    rewrite app_nil_r, map_length, L0 in E2. replace (nstages + 1) with (S nstages) by lia. rewrite E2. unfold bind at 1.
    apply frees_all; auto.
  - apply frees_all; auto. simpl kept in P. simpl req_lost. clear - P. permc.
Qed.

Lemma auto_ok id np t x y h : heap_ok h -> exists g h' L, auto_setup id np t x y h = Ok (g, h') /\ wf g /\ gains h h' (kept g ++ L) /\
  length L + length (req_lost g) = (if (1 <? np) && (t <? 100000)%Z then 1 else 0).
Proof.
  intros O. unfold auto_setup. destruct (pw_ok h O) as (g0 & h1 & E1 & G1 & K). rewrite E1. unfold bind at 1.
  assert (W0 : wf g0 /\ req_lost g0 = []) by (destruct g0; simpl; tauto). clear K.
  destruct (1 <? np); [|exists g0, h1, []; rewrite app_nil_r; destruct W0 as [W0 ->]; auto].
  destruct (cr_ok id np h1 (proj1 G1)) as (g1 & h2 & E2 & G2 & W1 & R1). rewrite E2. unfold bind at 1.
  destruct W0 as [W0 R0].
  assert (S1 : exists g h3, (if x then h <- fin g0 h2 ;; Ok (g1, h) else h <- fin g1 h2 ;; Ok (g0, h)) = Ok (g, h3) /\
     wf g /\ req_lost g = [] /\ gains h h3 (kept g)).
  { destruct G1 as [O1 P1], G2 as [O2 P2]. destruct x.
    - destruct (fin_ok g0 h2 (kept g1 ++ live h) W0 O2) as (h3 & E3 & O3 & P3); [clear - P1 P2; permc|].
      rewrite E3. exists g1, h3. repeat split; auto; try apply O3. rewrite R0 in P3. exact P3.
    - destruct (fin_ok g1 h2 (kept g0 ++ live h) W1 O2) as (h3 & E3 & O3 & P3); [clear - P1 P2; permc|].
      rewrite E3. exists g0, h3. repeat split; auto; try apply O3. rewrite R1 in P3. exact P3. }
  destruct S1 as (g & h3 & E3 & W & R & G). rewrite E3. unfold bind at 1.
  destruct (t <? 100000)%Z; [|exists g, h3, []; rewrite app_nil_r, R; auto].
  destruct (ar_ok h3 (proj1 G)) as (g2 & h4 & E4 & G4 & K). rewrite E4. unfold bind at 1.
  assert (W2 : wf g2 /\ length (req_lost g2) = 1) by (destruct g2; simpl; tauto). destruct W2 as [W2 R2].
  destruct G as [O3 P3], G4 as [O4 P4]. destruct y.
  - destruct (fin_ok g h4 (kept g2 ++ live h) W O4) as (h5 & E5 & O5 & P5); [clear - P3 P4; permc|].
    rewrite E5. exists g2, h5, []. rewrite app_nil_r. rewrite R in P5. repeat split; auto; apply O5.
  - destruct (fin_ok g2 h4 (kept g ++ live h) W2 O4) as (h5 & E5 & O5 & P5); [clear - P3 P4; permc|].
    rewrite E5. exists g, h5, (req_lost g2). rewrite R, R2. repeat split; auto; try apply O5. clear - P5. permc.
Qed.

Lemma setup_ok m id np t x y h : heap_ok h -> exists g h' L, gs_setup m id np t x y h = Ok (g, h') /\ wf (r g) /\
  gains h h' (blocks g ++ L) /\ length L + length (req_lost (r g)) = (if tries_all_reduce (Setup m id np t x y) then 1 else 0).
Proof.
  intros O. unfold gs_setup.
  pose proof (malloc_gains h O) as G1. destruct (tmalloc h) as [s h1]. cbn [fst snd] in G1.
  pose proof (malloc_gains h1 (proj1 G1)) as G2. destruct (tmalloc h1) as [l0 h2]. cbn [fst snd] in G2.
  pose proof (malloc_gains h2 (proj1 G2)) as G3. destruct (tmalloc h2) as [l1 h3]. cbn [fst snd] in G3.
  pose proof (malloc_gains h3 (proj1 G3)) as G4. destruct (tmalloc h3) as [fp h4]. cbn [fst snd] in G4.
  assert (A : exists g h' L, match m with gs_auto => auto_setup id np t x y h4 | gs_pairwise => pw_setup h4
      | gs_crystal_router => cr_setup id np h4 | gs_all_reduce => allreduce_setup h4 end = Ok (g, h') /\ wf g /\ gains h4 h' (kept g ++ L) /\
      length L + length (req_lost g) = (if tries_all_reduce (Setup m id np t x y) then 1 else 0)).
  { destruct m.
    - apply auto_ok. apply G4.
    - destruct (pw_ok h4 (proj1 G4)) as (g & h' & E & G & K). exists g, h', []. rewrite app_nil_r. destruct g; simpl in *; tauto.
    - destruct (cr_ok id np h4 (proj1 G4)) as (g & h' & E & G & W & R). exists g, h', []. rewrite app_nil_r, R. auto.
    - destruct (ar_ok h4 (proj1 G4)) as (g & h' & E & G & K). exists g, h', []. rewrite app_nil_r. destruct g; simpl in *; tauto. }
  destruct A as (g & h' & L & E & W & [O5 P5] & N). rewrite E. unfold bind at 1. exists (Handle l0 l1 fp g s), h', L.
  repeat split; auto; try apply O5. unfold blocks. cbn [GsMem.self GsMem.r local0 local1 primaries].
  destruct G1 as [_ G1], G2 as [_ G2], G3 as [_ G3], G4 as [_ G4]. clear - G1 G2 G3 G4 P5. permc.
Qed.
Lemma gs_free_ok g h rest : wf (r g) -> heap_ok h -> Permutation (live h) (blocks g ++ rest) ->
  exists h', gs_free g h = Ok h' /\ heap_ok h' /\ Permutation (live h') (req_lost (r g) ++ rest).
Proof.
  intros W O P. unfold gs_free. unfold blocks in P.
  destruct (frees_ok (self g) [local0 g; local1 g; primaries g] h (kept (r g) ++ rest) O) as (h1 & E1 & O1 & P1); [clear - P; permc|].
  rewrite E1. unfold bind at 1. rewrite (use_ok h1 (self g) [] _ P1). unfold bind at 1.
  destruct (fin_ok (r g) h1 (self g :: rest) W O1) as (h2 & E2 & O2 & P2); [clear - P1; permc|]. rewrite E2. unfold bind at 1.
  apply free_ok; auto. clear - P2. permc.
Qed.

Definition inv (h0 : heap) (w : world) (L : list nat) : Prop :=
  heap_ok (hp w) /\ Permutation (live (hp w)) (all_blocks w ++ L ++ live h0) /\
  forall g, In (Some g) (handles w) -> wf (r g).
Definition tried (h : list call) : nat := length (filter tries_all_reduce h).

Lemma all_snoc h l g : all_blocks (World h (l ++ [Some g])) = all_blocks (World h l) ++ blocks g.
Proof. unfold all_blocks. simpl. rewrite flat_map_app. simpl. now rewrite app_nil_r. Qed.
Lemma all_upd h l k g : nth_error l k = Some (Some g) -> Permutation (all_blocks (World h l)) (blocks g ++ all_blocks (World h (upd l k None))).
Proof.
  unfold all_blocks. cbn [handles]. revert k. induction l as [|x l IH]; intros [|k] E; try discriminate.
  - inversion E; subst. reflexivity.
  - specialize (IH k E). cbn [flat_map upd]. revert IH. generalize (blocks g). intros B IH. rewrite IH. rewrite !app_assoc. apply Permutation_app_tail. apply Permutation_app_comm.
Qed.
Lemma ar_upd h l k g : nth_error l k = Some (Some g) ->
  ar_handles (World h l) = (if is_ar g then 1 else 0) + ar_handles (World h (upd l k None)).
Proof.
  unfold ar_handles. simpl. revert k. induction l as [|x l IH]; intros [|k] E; try discriminate.
  - inversion E; subst. simpl. destruct (is_ar g); reflexivity.
  - specialize (IH k E). cbn [filter upd]. destruct (match x with Some g0 => is_ar g0 | None => false end); cbn [length]; lia.
Qed.
Lemma req_ar g : length (req_lost (r g)) = (if is_ar g then 1 else 0).
Proof. unfold is_ar. destruct (r g); reflexivity. Qed.
Lemma in_upd_none {A} (l : list (option A)) k g : In (Some g) (upd l k None) -> In (Some g) l.
Proof. revert k. induction l as [|x l IH]; intros [|k]; simpl; auto. - intros [E|I]; [discriminate|auto]. - intros [E|I]; eauto. Qed.

Lemma step_ok h0 w L a : inv h0 w L -> respects w a -> exists w' L', step w a = Ok w' /\ inv h0 w' L' /\
  length L' + ar_handles w' = length L + ar_handles w + (if tries_all_reduce a then 1 else 0).
Proof.
  intros (O & P & W) R. destruct a as [m id np t x y|k].
  - cbn [step]. destruct (setup_ok m id np t x y (hp w) O) as (g & h' & L' & E & Wg & [O' P'] & N). rewrite E. cbn [bind].
    exists (World h' (handles w ++ [Some g])), (L' ++ L). split; [reflexivity|]. split; [split; [exact O'|split]|].
    + rewrite all_snoc. cbn [hp]. change (all_blocks (World h' (handles w))) with (all_blocks w). clear - P P'. permc.
    + cbn [handles]. intros g' I. apply in_app_iff in I as [I|[I|[]]]; [auto|]. now inversion I; subst.
    + rewrite <- N, req_ar, app_length. unfold ar_handles. cbn [handles]. rewrite filter_app, app_length. cbn [filter].
      destruct (is_ar g); cbn [length]; lia.
  - destruct R as (g & G). cbn [step]. rewrite G. pose proof (all_upd (hp w) _ _ _ G) as Q.
    change (all_blocks (World (hp w) (handles w))) with (all_blocks w) in Q.
    change (all_blocks (World (hp w) (upd (handles w) k None))) with (all_blocks (World (hp w) (upd (handles w) k None))) in Q.
    destruct (gs_free_ok g (hp w) (all_blocks (World (hp w) (upd (handles w) k None)) ++ L ++ live h0)) as (h' & E & O' & P'); auto.
    { apply W. eapply nth_error_In; eauto. }
    { clear - P Q. permc. }
    rewrite E. cbn [bind]. exists (World h' (upd (handles w) k None)), (req_lost (r g) ++ L). split; [reflexivity|]. split; [split; [exact O'|split]|].
    + cbn [hp]. change (all_blocks (World h' (upd (handles w) k None))) with (all_blocks (World (hp w) (upd (handles w) k None))). clear - P'. permc.
    + cbn [handles]. intros g' I. apply W. eapply in_upd_none; eauto.
    + rewrite app_length, req_ar. pose proof (ar_upd (hp w) _ _ _ G) as A. change (ar_handles (World (hp w) (handles w))) with (ar_handles w) in A.
      change (ar_handles (World h' (upd (handles w) k None))) with (ar_handles (World (hp w) (upd (handles w) k None))). cbn [tries_all_reduce]. lia.
Qed.
Lemma step_respects w a w' : step w a = Ok w' -> respects w a.
Proof. destruct a as [| k]; simpl; auto. destruct (nth_error (handles w) k) as [[g|]|]; try discriminate. eauto. Qed.
Lemma history_inv h0 h w : heap_ok h0 -> history h0 h w -> exists L, inv h0 w L /\ length L + ar_handles w = tried h.
Proof.
  intros O. induction 1 as [|h w a w' Hh IH S].
  - exists []. repeat split; auto; try apply O. intros g [].
  - destruct IH as (L & I & N). destruct (step_ok h0 w L a I (step_respects _ _ _ S)) as (w2 & L2 & S2 & I2 & N2).
    rewrite S in S2. inversion S2; subst. exists L2. split; auto. unfold tried in *. rewrite filter_app, app_length. cbn [filter].
    destruct (tries_all_reduce a); cbn [length]; lia.
Qed.
