(** findpts_eval. *)
From Verif Require Import Base BaseLemmas Sort SortSpec SortLemmas Net NetProof NetWords NetWordsProof
  Transfer TransferSpec TransferProof TransferProof2 TransferProof4 GsTop GsSpec GsSortProof GsTopProof3 GsSetupProof ListLemmas CrystalProof
  Findpts FindptsGlobal FindptsSpec
  FindptsProof1 FindptsProof2 FindptsProof3 FindptsProof5 FindptsGlobalProof1 FindptsGlobalProof2 FindptsGlobalProof4
  FindptsSearchProof1 FindptsSearchProof2.
From Coq Require Import QArith Sorting.Sorted.
Open Scope nat_scope.

Section Batch.
Variable F : doubles.
Lemma eval_batch_ok e : forall (q : list (nat * list (dbl F))) k xs rest, eval_batch F e k q = (xs, rest) ->
  q = map (fun x => (e, x)) xs ++ rest /\ length xs <= k.
Proof.
  induction q as [|[e' x] q IH]; intros k xs rest H; cbn [eval_batch] in H.
  - injection H as <- <-. cbn. split; auto. lia.
  - destruct (Nat.eqb_spec k 0) as [Ek|Ek]; [injection H as <- <-; cbn; split; auto; lia|].
    destruct (Nat.eqb_spec e' e) as [->|En]; [|injection H as <- <-; cbn; split; auto; lia].
    destruct (eval_batch F e (k - 1) q) as [xs' rest'] eqn:E. injection H as <- <-. apply IH in E. destruct E as [-> L].
    cbn [map app length]. split; auto. lia.
Qed.
Lemma local_eval_ok {V} (fd : local_data F) (eval : nat -> list (dbl F) -> V) : 1 <= npt_max F fd ->
  forall fuel q, length q <= fuel -> local_eval F fuel fd eval q = Ok (map (fun x => eval (fst x) (snd x)) q).
Proof.
  intros H1. induction fuel as [|fuel IH]; intros [|[e x] q] L; cbn [local_eval]; auto; [cbn in L; lia|].
  destruct (eval_batch F e (npt_max F fd) ((e, x) :: q)) as [xs rest] eqn:E.
  assert (Hx : xs <> []).
  { cbn [eval_batch] in E. destruct (Nat.eqb_spec (npt_max F fd) 0); [lia|]. rewrite Nat.eqb_refl in E.
    destruct (eval_batch F e (npt_max F fd - 1) q). injection E as <- _. discriminate. }
  apply eval_batch_ok in E. destruct E as [E _]. rewrite E in L |- *. rewrite app_length, map_length in L.
  destruct xs as [|x0 xs]; [congruence|]. cbn [length] in L. rewrite IH by lia. cbn [bind]. rewrite map_app, map_map. reflexivity.
Qed.
End Batch.

Lemma write_all {X V} (idx : X -> nat) (vl : X -> V) (v : nat -> V) (l : list X) : forall out,
  (forall x, In x l -> idx x < length out /\ vl x = v (idx x)) ->
  exists out', foldM (fun out x => wr out (idx x) (vl x)) l out = Ok out' /\ length out' = length out /\
  forall i, nth_error out' i = if existsb (fun x => idx x =? i) l then Some (v i) else nth_error out i.
Proof.
  induction l as [|x l IH]; intros out H; cbn [foldM existsb].
  - exists out. auto.
  - destruct (H x (or_introl eq_refl)) as [Hi Hv]. rewrite wr_ok by auto. cbn [bind].
    destruct (IH (upd out (idx x) (vl x))) as (out' & E & L & N); [intros y Hy; rewrite upd_length; apply H; right; auto|].
    exists out'. split; auto. split; [rewrite L; apply upd_length|]. intros i. rewrite N. destruct (existsb (fun y => idx y =? i) l); [rewrite orb_true_r; auto|].
    rewrite orb_false_r. destruct (Nat.eqb_spec (idx x) i) as [<-|E']; [rewrite nth_error_upd_eq by auto; rewrite Hv; auto|].
    apply nth_error_upd_ne. auto.
Qed.

Section Eval.
Variable F : doubles.
Notation dbl := (dbl F).
Notation result := (result F).
Notation ds := (dsize F).
Variable usize lsize INT_MAX np : nat.
Hypothesis us1 : 1 <= usize.
Hypothesis np_lim : np < 256 ^ usize.
Hypothesis max_lim : INT_MAX <= 256 ^ usize.
Variable D : nat.
Hypothesis D1 : 1 <= D.
Variable st : nat -> list result.
Hypothesis Hst : forall p o, p < np -> In o (st p) -> code F o <> NOT_FOUND ->
  proc F o < np /\ el F o < 256 ^ usize /\ length (r F o) = D.
Hypothesis Htot : total np st * (words_for usize (D * ds + 2 * usize) + 3) * usize < INT_MAX.

Lemma st_len p : p < np -> length (st p) < 256 ^ usize.
Proof.
  intros Hp. pose proof (total_ge np st p Hp). assert (total np st < INT_MAX); [|lia].
  eapply Nat.le_lt_trans; [|exact Htot]. rewrite <- Nat.mul_assoc. rewrite <- (Nat.mul_1_r (total np st)) at 1. apply Nat.mul_le_mono_l. nia.
Qed.
Definition fev (p : nat) : list (eval_src_pt F) :=
  concat (map (fun '(index, o) =>
      if code F o =? NOT_FOUND then [] else [ES F (r F o) index (proc F o) (el F o)])
    (combine (seq 0 (length (st p))) (st p))).
Lemma in_fev p x : In x (fev p) <-> exists i o, nth_error (st p) i = Some o /\ code F o <> NOT_FOUND /\ x = ES F (r F o) i (proc F o) (el F o).
Proof.
  unfold fev. rewrite in_concat. split.
  - intros (l & Hl & Hx). apply in_map_iff in Hl. destruct Hl as ([i o] & <- & Hi). apply in_numbered in Hi.
    destruct (Nat.eqb_spec (code F o) NOT_FOUND); [destruct Hx|]. destruct Hx as [<-|[]]. exists i, o. auto.
  - intros (i & o & Hi & Hc & ->). eexists. split; [apply in_map_iff; exists (i, o); split; [reflexivity|apply in_numbered; auto]|].
    destruct (Nat.eqb_spec (code F o) NOT_FOUND); [congruence|]. left. auto.
Qed.
Lemma fev_length p : length (fev p) <= length (st p).
Proof.
  unfold fev. transitivity (length (combine (seq 0 (length (st p))) (st p))); [|rewrite combine_length; lia].
  generalize (combine (seq 0 (length (st p))) (st p)). induction l as [|[i o] l IH]; cbn [map concat length]; auto.
  rewrite app_length. destruct (code F o =? NOT_FOUND); cbn [length]; lia.
Qed.
Lemma fev_total : total np fev <= total np st.
Proof.
  rewrite !total_sum. unfold sum. generalize (seq 0 np). induction l as [|a l IH]; cbn [map fold_right]; auto.
  apply Nat.add_le_mono; [apply fev_length|auto].
Qed.

(** What process q keeps: the points found on it. *)
Definition kept (sav : nat -> list (eval_src_pt F)) : Prop :=
  total np sav <= total np st /\
  forall q, q < np -> forall x, In x (sav q) <-> exists p i o, p < np /\ nth_error (st p) i = Some o /\ code F o <> NOT_FOUND /\
    proc F o = q /\ x = ES F (r F o) i p (el F o).

Lemma setup_fev_goes : exists sav, kept sav /\
  goes np (fun p => setup_fev F usize lsize INT_MAX np p D (st p)) (fun q => Ret (sav q)).
Proof.
  destruct (transfer_ok usize INT_MAX np us1 np_lim max_lim (D * ds + 3 * usize) (D * ds + usize) true (es_bytes F usize) (es_of F usize D)
     (es_proc F) (fun s x => ES F (es_r F x) (es_index F x) s (es_el F x)) fev) as (out & Po & Go).
  - lia.
  - pose proof (dsize_pos F). lia.
  - intros s x Hs Hx. apply in_fev in Hx. destruct Hx as (i & o & Hi & Hc & ->). cbn [es_proc es_r es_index es_el].
    destruct (Hst s o Hs (nth_error_In _ _ Hi) Hc) as (H1 & H2 & H3). pose proof (nth_error_Some_lt _ _ _ Hi). pose proof (st_len s Hs).
    destruct (es_row F usize D (ES F (r F o) i (proc F o) (el F o)) s) as (B1 & B2 & B3 & B4); cbn [es_proc es_r es_index es_el]; auto; lia.
  - eapply Nat.le_lt_trans; [|exact Htot]. replace (D * ds + 3 * usize - usize) with (D * ds + 2 * usize) by lia.
    apply Nat.mul_le_mono_r, Nat.mul_le_mono_r, fev_total.
  - assert (Hin : forall q x, q < np -> (In x (out q) <-> exists p i o, p < np /\ nth_error (st p) i = Some o /\ code F o <> NOT_FOUND /\
      proc F o = q /\ x = ES F (r F o) i p (el F o))).
    { intros q x Hq. rewrite (Permutation_in' eq_refl (Po q Hq)), in_sent_to. split.
      - intros (p & y & Hp & Hy & E & ->). apply in_fev in Hy. destruct Hy as (i & o & H1 & H2 & ->). exists p, i, o. auto.
      - intros (p & i & o & Hp & H1 & H2 & H3 & ->). exists p, (ES F (r F o) i (proc F o) (el F o)). split; [auto|].
        split; [apply in_fev; exists i, o; auto|]. auto. }
    assert (Hs : exists sav : nat -> list (eval_src_pt F), forall q, q < np ->
       sort_by usize lsize [KU (es_el F)] (out q) = Ok (sav q) /\ Permutation (out q) (sav q)).
    { apply (finite_choice (fun q s => sort_by usize lsize [KU (es_el F)] (out q) = Ok s /\ Permutation (out q) s) [] np).
      intros q Hq. destruct (sort_by_1 usize lsize (KU (es_el F)) (out q)) as (B & EB & [PB _ _]); [|exists B; auto].
      intros x Hx. apply Hin in Hx; auto. destruct Hx as (p & i & o & Hp & Ho & Hc & _ & ->). cbn [es_el]. unfold ulim.
      apply (Hst p o Hp (nth_error_In _ _ Ho) Hc). }
    destruct Hs as (sav & Hs). exists sav. split; [split|].
    + rewrite (FindptsGlobalProof4.total_perm np sav out) by (intros q Hq; symmetry; apply Hs; auto).
      rewrite (FindptsGlobalProof4.total_perm np out _ Po), total_sent; [apply fev_total|].
      intros s x Hs' Hx. apply in_fev in Hx. destruct Hx as (i & o & Hi & Hc & ->). apply (Hst s o Hs' (nth_error_In _ _ Hi) Hc).
    + intros q Hq x. rewrite <- (Permutation_in' eq_refl (proj2 (Hs q Hq))). apply Hin. auto.
    + unfold setup_fev. eapply goes_trans; [apply (goes_bind np (fun _ src => plift (sort_by usize lsize [KU (es_el F)] src)) _ _ Go)|].
      apply goes_ext. intros q Hq. cbn [pbind]. rewrite (proj1 (Hs q Hq)). reflexivity.
Qed.

Variable fd : nat -> findpts_data F.
Hypothesis Hnpt : forall p, p < np -> 1 <= npt_max F (local F (fd p)).
Variable eval : nat -> nat -> list dbl -> dbl.
Variable out : nat -> list dbl.
Hypothesis Hlen : forall p, p < np -> length (out p) = length (st p).

Lemma back_goes sav : kept sav -> exists out' : nat -> list dbl,
  (forall p, p < np -> length (out' p) = length (out p) /\
     forall i o, nth_error (st p) i = Some o -> nth_error (out' p) i =
       if code F o =? NOT_FOUND then nth_error (out p) i else Some (eval (proc F o) (el F o) (r F o))) /\
  goes np (fun p =>
    pbind (plift (local_eval F (length (sav p)) (local F (fd p)) (eval p) (map (fun x => (es_el F x, es_r F x)) (sav p)))) (fun vals =>
    pbind (transfer usize INT_MAX np p (ds + 2 * usize) (ds + usize) true (eo_bytes F usize) (eo_of F usize)
           (map (fun '(x, v) => EO F v (es_index F x) (es_proc F x)) (combine (sav p) vals))) (fun res =>
    pbind (plift (foldM (fun out x => wr out (eo_index F x) (eo_out F x)) res (out p))) (fun out =>
    Ret (out, FD F (local F (fd p)) (hash F (fd p)) (Some (sav p)))))))
   (fun p => Ret (out' p, FD F (local F (fd p)) (hash F (fd p)) (Some (sav p)))).
Proof.
  intros [Ht Hk].
  set (ans := fun q => map (fun x => EO F (eval q (es_el F x) (es_r F x)) (es_index F x) (es_proc F x)) (sav q)).
  assert (Hans : forall q x, q < np -> (In x (ans q) <-> exists p i o, p < np /\ nth_error (st p) i = Some o /\ code F o <> NOT_FOUND /\
      proc F o = q /\ x = EO F (eval q (el F o) (r F o)) i p)).
  { intros q x Hq. unfold ans. rewrite in_map_iff. split.
    - intros (y & <- & Hy). apply Hk in Hy; auto. destruct Hy as (p & i & o & H1 & H2 & H3 & H4 & ->). exists p, i, o. auto.
    - intros (p & i & o & H1 & H2 & H3 & H4 & ->). exists (ES F (r F o) i p (el F o)). split; auto. apply Hk; auto. exists p, i, o. auto. }
  destruct (transfer_ok usize INT_MAX np us1 np_lim max_lim (ds + 2 * usize) (ds + usize) true (eo_bytes F usize) (eo_of F usize)
     (eo_proc F) (fun s x => EO F (eo_out F x) (eo_index F x) s) ans) as (arr & Pa & Ga).
  - lia.
  - pose proof (dsize_pos F). lia.
  - intros q x Hq Hx. apply Hans in Hx; auto. destruct Hx as (p & i & o & Hp & Hi & Hc & _ & ->). cbn [eo_proc eo_out eo_index].
    pose proof (nth_error_Some_lt _ _ _ Hi). pose proof (st_len p Hp).
    destruct (eo_row F usize (EO F (eval q (el F o) (r F o)) i p) q) as (B1 & B2 & B3 & B4); cbn [eo_proc eo_out eo_index]; auto; lia.
  - eapply Nat.le_lt_trans; [|exact Htot]. apply Nat.mul_le_mono_r. apply Nat.mul_le_mono.
    + replace (total np ans) with (total np sav); [auto|]. rewrite !total_sum. f_equal. apply map_ext. intros q. unfold ans. rewrite map_length. auto.
    + apply Nat.add_le_mono_r. unfold words_for. apply Nat.div_le_mono; nia.
  - assert (Hin : forall p x, p < np -> (In x (arr p) <-> exists i o, nth_error (st p) i = Some o /\ code F o <> NOT_FOUND /\
      x = EO F (eval (proc F o) (el F o) (r F o)) i (proc F o))).
    { intros p x Hp. rewrite (Permutation_in' eq_refl (Pa p Hp)), in_sent_to. split.
      - intros (q & y & Hq & Hy & E & ->). apply Hans in Hy; auto. destruct Hy as (p' & i & o & H1 & H2 & H3 & <- & ->).
        cbn [eo_proc] in E. subst p'. exists i, o. auto.
      - intros (i & o & H1 & H2 & ->). exists (proc F o), (EO F (eval (proc F o) (el F o) (r F o)) i p).
        assert (Hq : proc F o < np) by (apply (Hst p o Hp (nth_error_In _ _ H1) H2)).
        split; auto. split; [apply Hans; auto; exists p, i, o; auto|]. auto. }
    assert (Hw : exists out' : nat -> list dbl, forall p, p < np ->
      foldM (fun out x => wr out (eo_index F x) (eo_out F x)) (arr p) (out p) = Ok (out' p) /\ length (out' p) = length (out p) /\
      forall i o, nth_error (st p) i = Some o -> nth_error (out' p) i =
       if code F o =? NOT_FOUND then nth_error (out p) i else Some (eval (proc F o) (el F o) (r F o))).
    { apply (finite_choice (fun p s => foldM (fun out x => wr out (eo_index F x) (eo_out F x)) (arr p) (out p) = Ok s /\ length s = length (out p) /\
      forall i o, nth_error (st p) i = Some o -> nth_error s i =
       if code F o =? NOT_FOUND then nth_error (out p) i else Some (eval (proc F o) (el F o) (r F o))) [] np).
      intros p Hp.
      destruct (write_all (eo_index F) (eo_out F) (fun i => match nth_error (st p) i with Some o => eval (proc F o) (el F o) (r F o)
        | None => dbl_max F end) (arr p) (out p)) as (out' & E & L & N).
      - intros x Hx. apply Hin in Hx; auto. destruct Hx as (i & o & Hi & Hc & ->). cbn [eo_index eo_out]. rewrite Hi. split; auto.
        rewrite Hlen by auto. eapply nth_error_Some_lt; eauto.
      - exists out'. split; auto. split; auto. intros i o Hi. rewrite N, Hi.
        destruct (existsb (fun x => eo_index F x =? i) (arr p)) eqn:Ex.
        + apply existsb_exists in Ex. destruct Ex as (x & Hx & Ei). apply Nat.eqb_eq in Ei. apply Hin in Hx; auto.
          destruct Hx as (j & o' & Hj & Hc & ->). cbn [eo_index] in Ei. subst j. rewrite Hi in Hj. injection Hj as <-.
          destruct (Nat.eqb_spec (code F o) NOT_FOUND); [congruence|auto].
        + destruct (Nat.eqb_spec (code F o) NOT_FOUND); auto. exfalso.
          assert (Ht' : existsb (fun x => eo_index F x =? i) (arr p) = true); [|congruence].
          apply existsb_exists. exists (EO F (eval (proc F o) (el F o) (r F o)) i (proc F o)). split; [apply Hin; auto; exists i, o; auto|apply Nat.eqb_refl]. }
    destruct Hw as (out' & Hw). exists out'. split; [intros p Hp; apply Hw; auto|].
    eapply goes_trans.
    { apply (goes_ext np _ (fun p => pbind (transfer usize INT_MAX np p (ds + 2 * usize) (ds + usize) true (eo_bytes F usize) (eo_of F usize) (ans p)) (fun res =>
       pbind (plift (foldM (fun out x => wr out (eo_index F x) (eo_out F x)) res (out p))) (fun out =>
       Ret (out, FD F (local F (fd p)) (hash F (fd p)) (Some (sav p))))))).
      intros p Hp. rewrite local_eval_ok by (rewrite ?map_length; auto). cbn [plift pbind].
      assert (E : map (fun '(x, v) => EO F v (es_index F x) (es_proc F x))
                    (combine (sav p) (map (fun x => eval p (fst x) (snd x)) (map (fun x => (es_el F x, es_r F x)) (sav p)))) = ans p).
      { unfold ans. generalize (sav p). clear. induction l as [|x l IH]; auto.
        change (map (fun x => EO F (eval p (es_el F x) (es_r F x)) (es_index F x) (es_proc F x)) (x :: l)) with
          (EO F (eval p (es_el F x) (es_r F x)) (es_index F x) (es_proc F x) :: map (fun x => EO F (eval p (es_el F x) (es_r F x)) (es_index F x) (es_proc F x)) l).
        rewrite <- IH. reflexivity. }
      rewrite E. reflexivity. }
    eapply goes_trans.
    { apply (goes_bind np (fun p res => pbind (plift (foldM (fun out x => wr out (eo_index F x) (eo_out F x)) res (out p))) (fun out =>
       Ret (out, FD F (local F (fd p)) (hash F (fd p)) (Some (sav p))))) _ _ Ga). }
    apply goes_ext. intros p Hp. cbn [pbind]. rewrite (proj1 (Hw p Hp)). reflexivity.
Qed.

Theorem eval_goes : (forall p, p < np -> savpt F (fd p) = None) -> exists out' sav, kept sav /\
  (forall p, p < np -> length (out' p) = length (out p) /\
     forall i o, nth_error (st p) i = Some o -> nth_error (out' p) i =
       if code F o =? NOT_FOUND then nth_error (out p) i else Some (eval (proc F o) (el F o) (r F o))) /\
  goes np (fun p => findpts_eval F usize lsize INT_MAX np p D (fd p) (eval p) (st p) (out p))
   (fun p => Ret (out' p, FD F (local F (fd p)) (hash F (fd p)) (Some (sav p)))).
Proof.
  intros Hs. destruct setup_fev_goes as (sav & K & G). destruct (back_goes sav K) as (out' & H & G').
  exists out', sav. split; [auto|]. split; [auto|]. unfold findpts_eval.
  eapply goes_trans; [|exact G']. eapply goes_trans; [apply (goes_ext np _ (fun p => pbind (setup_fev F usize lsize INT_MAX np p D (st p)) (fun sav =>
    pbind (plift (local_eval F (length sav) (local F (fd p)) (eval p) (map (fun x => (es_el F x, es_r F x)) sav))) (fun vals =>
    pbind (transfer usize INT_MAX np p (ds + 2 * usize) (ds + usize) true (eo_bytes F usize) (eo_of F usize)
           (map (fun '(x, v) => EO F v (es_index F x) (es_proc F x)) (combine sav vals))) (fun res =>
    pbind (plift (foldM (fun out x => wr out (eo_index F x) (eo_out F x)) res (out p))) (fun out =>
    Ret (out, FD F (local F (fd p)) (hash F (fd p)) (Some sav))))))))|].
  - intros p Hp. rewrite (Hs p Hp). reflexivity.
  - apply (goes_bind np (fun p sav =>
    pbind (plift (local_eval F (length sav) (local F (fd p)) (eval p) (map (fun x => (es_el F x, es_r F x)) sav))) (fun vals =>
    pbind (transfer usize INT_MAX np p (ds + 2 * usize) (ds + usize) true (eo_bytes F usize) (eo_of F usize)
           (map (fun '(x, v) => EO F v (es_index F x) (es_proc F x)) (combine sav vals))) (fun res =>
    pbind (plift (foldM (fun out x => wr out (eo_index F x) (eo_out F x)) res (out p))) (fun out =>
    Ret (out, FD F (local F (fd p)) (hash F (fd p)) (Some sav)))))) _ _ G).
Qed.
Theorem eval_again sav : (forall p, p < np -> savpt F (fd p) = Some (sav p)) -> kept sav -> exists out',
  (forall p, p < np -> length (out' p) = length (out p) /\
     forall i o, nth_error (st p) i = Some o -> nth_error (out' p) i =
       if code F o =? NOT_FOUND then nth_error (out p) i else Some (eval (proc F o) (el F o) (r F o))) /\
  goes np (fun p => findpts_eval F usize lsize INT_MAX np p D (fd p) (eval p) (st p) (out p))
   (fun p => Ret (out' p, fd p)).
Proof.
  intros Hs K. destruct (back_goes sav K) as (out' & H & G'). exists out'. split; [auto|].
  eapply goes_trans; [|eapply goes_trans; [exact G'|]].
  - apply goes_ext. intros p Hp. unfold findpts_eval. rewrite (Hs p Hp). reflexivity.
  - apply goes_ext. intros p Hp. f_equal. f_equal. rewrite <- (Hs p Hp). destruct (fd p); reflexivity.
Qed.
End Eval.
