(** C42-C44: the search of points on all processes (findpts_setup, findpts, findpts_eval). *)
From Verif Require Import Base BaseLemmas Net NetProof Transfer TransferSpec GsTop GsUserProof Findpts FindptsGlobal FindptsSpec
  FindptsUserSpec FindptsProof1 FindptsProof2 FindptsProof3 FindptsProof5 FindptsGlobalProof1 FindptsGlobalProof2 FindptsGlobalProof3 FindptsGlobalProof4
  FindptsSearchProof2 FindptsSearchProof3 FindptsEvalProof FindptsUserProof Properties_Findpts.
From Coq Require Import QArith Qround Lqa.
Open Scope nat_scope.

(** C42: findpts_setup returns on all processes in every execution, and for every point x whose
    cell can be computed: all processes compute the same cell c, process c mod np keeps it, and
    the list there has exactly the processes with an element box that covers the cell, once each;
    in particular every process that has an element whose box contains x (below its upper faces,
    or these being at the end of the mesh). *)
Theorem C42_setup_returns : forall (F : doubles) rnd usize lsize INT_MAX np dzero D root (M : nat -> mesh F) lb gb hn,
  mesh_fits F rnd usize lsize INT_MAX np D root M lb gb hn ->
  exists fd, setup_gives F rnd usize lsize INT_MAX np dzero D root M fd.
Proof.
  intros F rnd usize lsize INT_MAX np dzero D root M lb gb hn Hf. destruct (setup_goes F rnd usize lsize INT_MAX np dzero D root M lb gb hn Hf false (fun _ => 0)) as (n & fd & _ & G).
  exists fd. exact (goes_always_fun _ np fd G).
Qed.
Print Assumptions C42_setup_returns.

Theorem C42_routing : forall (F : doubles) rnd usize lsize INT_MAX np dzero D root (M : nat -> mesh F) lb gb hn fd x,
  mesh_fits F rnd usize lsize INT_MAX np D root M lb gb hn ->
  setup_gives F rnd usize lsize INT_MAX np dzero D root M fd ->
  convertible F rnd lsize hn gb x ->
  exists c b e l, c < hn ^ D /\ cell_at F rnd hn gb x c /\
    (forall r, r < np -> table_index F rnd lsize (hash F (fd r)) x = Ok c) /\
    let offs := offset F (hash F (fd (c mod np))) in
    nth_error offs (c / np) = Some b /\ nth_error offs (c / np + 1) = Some e /\
    mapM (rd offs) (seq b (e - b)) = Ok l /\ NoDup l /\
    (forall q, In q l <-> q < np /\ exists bx, In bx (m_obb F (M q)) /\ cell_in_box F rnd hn gb bx c) /\
    (forall q bx, q < np -> In bx (m_obb F (M q)) -> in_box F x bx -> below_top F rnd hn gb bx x -> In q l).
Proof.
  intros F rnd usize lsize INT_MAX np dzero D root M lb gb hn fd x Hf Hs Hc.
  destruct (data_ready F rnd usize lsize INT_MAX np dzero D root M lb gb hn Hf fd) as (n & H1 & _); [exists fd; auto|].
  assert (Lg : length gb = D) by (eapply (gb_length F rnd usize lsize INT_MAX np dzero D); eauto).
  destruct Hf as [R [us1 usls] [np1 npl] ml D2 Hnpt Hr Hob Hlb Hgb Hlc Hgc Hsz Hsum Hhn [Hh1 Hh2] _].
  assert (Hp : 256 ^ usize <= 256 ^ lsize) by (apply Nat.pow_le_mono_r; lia).
  assert (Hl : hn ^ length gb <= 256 ^ lsize) by (rewrite Lg; lia).
  destruct (index_ok F rnd lsize ltac:(lia) hn gb x Hh1 Hl Hc) as (I1 & _ & _).
  destruct (digits_cell_at F rnd lsize hn gb x ltac:(lia) Hh1 Hl Hc) as [C1 C2].
  set (c := cindex hn (digits F rnd hn gb x)) in *.
  assert (Hr' : c mod np < np) by (apply Nat.mod_upper_bound; lia).
  destruct (H1 _ Hr') as (_ & _ & _ & Hlp). destruct (Hlp c (proj1 C1) eq_refl) as (b & e & l & E1 & E2 & E3 & E4 & E5).
  exists c, b, e, l. split; [rewrite <- Lg; apply C1|]. split; [auto|]. split.
  { intros r Hr0. destruct (H1 r Hr0) as (T1 & T2 & T3 & _). unfold table_index. rewrite T1, T2, T3. auto. }
  cbv zeta. split; [auto|]. split; [auto|]. split; [auto|]. split; [auto|]. split; [auto|].
  intros q bx Hq Hb Hin Hbt. apply E5. split; auto. exists bx. split; auto.
  assert (Lb : length bx = D) by (apply (Hob q Hq); auto).
  apply digits_cell; auto; [congruence|apply C1|]. rewrite C2. apply digits_in_ranges; auto.
  - apply Hgb. unfold all_boxes. apply in_concat. exists (m_obb F (M q)). split; auto. apply (in_map (fun p => m_obb F (M p))), in_seq. lia.
  - destruct (Hgc q bx Hq Hb) as [Hcl _]. exact (Hcl hn Hh1).
Qed.
Print Assumptions C42_routing.

(** C43: findpts returns in every execution, for each point of each process the best of the
    candidates of all processes (definition [answer]), where every element of any process whose
    box contains the point and whose box test is passed is considered; a point that is not found
    leaves r, dist2 and el as they were. *)
Theorem C43_findpts : forall (F : doubles) rnd usize lsize INT_MAX np dzero D root (M : nat -> mesh F) lb gb hn fd pts st,
  mesh_fits F rnd usize lsize INT_MAX np D root M lb gb hn ->
  data_of F rnd usize lsize INT_MAX np dzero D root M fd ->
  (forall p, p < np -> length (st p) = length (pts p)) ->
  points_fit F rnd usize lsize INT_MAX np D M lb gb hn pts ->
  exists st', findpts_gives F rnd usize lsize INT_MAX np dzero D fd pts st st' /\
    data_of F rnd usize lsize INT_MAX np dzero D root M (fun p => forget F (fd p)) /\
    forall p, p < np -> length (st' p) = length (pts p) /\
      forall i x o, nth_error (pts p) i = Some x -> nth_error (st p) i = Some o ->
        exists o', nth_error (st' p) i = Some o' /\
          answer F (near F np M x) (inside F rnd np M lb gb x) (solution F M x) (names F) (unfound F p o) o'.
Proof.
  intros F rnd usize lsize INT_MAX np dzero D root M lb gb hn fd pts st Hf Hd Hl Hp.
  destruct (search_goes F rnd usize lsize INT_MAX np dzero D root M lb gb hn Hf fd pts st Hd Hl Hp) as (st' & H & G).
  exists st'. split; [exact (goes_always_fun _ np (fun p => (st' p, forget F (fd p))) G)|]. split; [|exact H].
  destruct Hd as (fd0 & H0 & E). exists fd0. split; [exact H0|]. exact E.
Qed.
Print Assumptions C43_findpts.

(** The same with exact arithmetic, where "inside" is: in the box, not on an upper face except at
    the end of the bounds of the process and of all. *)
Theorem C43_exact_inside : forall (F : doubles) np (M : nat -> mesh F) lb gb q e b x,
  q < np -> m_test F (M q) e x = true -> nth_error (m_obb F (M q)) e = Some b -> thick F b ->
  sub_box F b (lb q) -> sub_box F b gb -> in_box F x b -> below_face F (lb q) b x -> below_face F gb b x ->
  inside F (fun q => q) np M lb gb x (q, e).
Proof.
  intros F np M lb gb q e b x Hq Ht He Hth H1 H2 Hx F1 F2. split; [auto|]. split; [auto|]. exists b. split; [auto|]. split; [auto|].
  intros n Hn. split; apply exact_below; auto.
Qed.

(** C44: findpts_eval returns, in every execution, at each point found the field of the process at
    (el,r), and leaves the other entries of the array; it may be called again with other fields
    for the same points. *)
Theorem C44_eval : forall (F : doubles) usize lsize INT_MAX np D fd eval st out,
  results_fit F usize INT_MAX np D st ->
  (forall p, p < np -> 1 <= npt_max F (local F (fd p))) ->
  (forall p, p < np -> length (out p) = length (st p)) ->
  (forall p, p < np -> savpt F (fd p) = None) ->
  exists out' fd', eval_gives F usize lsize INT_MAX np D fd eval st out out' fd' /\ values F np eval st out out' /\
    (forall p, p < np -> forget F (fd' p) = forget F (fd p)) /\
    forall eval2 out2, (forall p, p < np -> length (out2 p) = length (st p)) ->
      exists out2', eval_gives F usize lsize INT_MAX np D fd' eval2 st out2 out2' fd' /\ values F np eval2 st out2 out2'.
Proof.
  intros F usize lsize INT_MAX np D fd eval st out [r1 r2 r3 r4 r5 r6] Hn Ho Hs.
  destruct (eval_goes F usize lsize INT_MAX np r1 r2 r3 D r4 st r5 r6 fd Hn eval out Ho Hs) as (out' & sav & K & V & G).
  exists out', (fun p => FD F (local F (fd p)) (hash F (fd p)) (Some (sav p))). split; [exact (goes_always_fun _ np (fun p => (out' p, FD F (local F (fd p)) (hash F (fd p)) (Some (sav p)))) G)|].
  split; [exact V|]. split; [reflexivity|]. intros eval2 out2 Ho2.
  destruct (eval_again F usize lsize INT_MAX np r1 r2 r3 D r4 st r5 r6 (fun p => FD F (local F (fd p)) (hash F (fd p)) (Some (sav p))) Hn eval2 out2 Ho2 sav) as (out2' & V2 & G2); auto.
  exists out2'. split; [exact (goes_always_fun _ np (fun p => (out2' p, FD F (local F (fd p)) (hash F (fd p)) (Some (sav p)))) G2)|exact V2].
Qed.
Print Assumptions C44_eval.

(** After findpts the results can be evaluated: the results that C43 describes are as C44 needs. *)
Theorem C44_after_findpts : forall (F : doubles) rnd usize lsize INT_MAX np D root (M : nat -> mesh F) lb gb hn pts st st',
  mesh_fits F rnd usize lsize INT_MAX np D root M lb gb hn ->
  (forall p, p < np -> length (st p) = length (pts p)) ->
  points_fit F rnd usize lsize INT_MAX np D M lb gb hn pts ->
  (forall p, p < np -> length (st' p) = length (pts p) /\
     forall i x o, nth_error (pts p) i = Some x -> nth_error (st p) i = Some o ->
       exists o', nth_error (st' p) i = Some o' /\
         answer F (near F np M x) (inside F rnd np M lb gb x) (solution F M x) (names F) (unfound F p o) o') ->
  results_fit F usize INT_MAX np D st'.
Proof.
  intros F rnd usize lsize INT_MAX np D root M lb gb hn pts st st' Hf Hl Hp Ha.
  assert (Hel : forall q, q < np -> length (m_obb F (M q)) < 256 ^ usize).
  { pose proof (hash_lb F rnd usize lsize INT_MAX np (dbl_max F) D root M lb gb hn Hf) as El.
    destruct Hf as [R [us1 usls] [np1 npl] ml D2 Hnpt Hr Hob Hlb Hgb Hlc Hgc Hsz Hsum Hhn [Hh1 Hh2] _].
    intros q Hq. destruct (Hsz q Hq) as [_ Hs]. specialize (Hs 1 (le_n 1) (or_intror eq_refl)). rewrite <- (El q Hq) in Hs.
    rewrite (entries_one F rnd R usize us1 (dbl_max F) D D2 (m_obb F (M q)) (Hob q Hq)) with (nu := m_nu F (M q)) in Hs; [lia| |]; rewrite ?El by auto; auto. }
  destruct Hf as [R [us1 usls] [np1 npl] ml D2 Hnpt Hr Hob Hlb Hgb Hlc Hgc Hsz Hsum Hhn [Hh1 Hh2] _]. destruct Hp as [_ _ Pt _].
  split; auto; [lia| |].
  - intros p o Hp Ho Hc. destruct (Ha p Hp) as [Ln Hn]. apply In_nth_error in Ho. destruct Ho as [i Hi].
    assert (Hi' : i < length (pts p)) by (rewrite <- Ln; apply nth_error_Some; congruence).
    destruct (nth_error (pts p) i) as [x|] eqn:Ex; [|apply nth_error_None in Ex; lia].
    destruct (nth_error (st p) i) as [o0|] eqn:Eo; [|apply nth_error_None in Eo; rewrite Hl in Eo by auto; lia].
    destruct (Hn i x o0 Ex Eo) as (o' & N & A). rewrite Hi in N. injection N as <-.
    destruct A as [(_ & E & _)|(c & (M1 & M2 & _) & [W1 W2] & E & _)]; [congruence|]. specialize (Hel (fst c) M1).
    rewrite W1, W2, E. split; [auto|]. split; [lia|]. apply Hr. auto.
  - replace (total np st') with (total np pts); auto. rewrite !total_sum. f_equal. apply map_ext_in. intros p Hp. apply in_seq in Hp. symmetry. apply Ha. lia.
Qed.

(** *** A case that meets all hypotheses *)
(** Two processes with three elements; the point (1.5,0.25) of process 0 is in the boxes of element
    1 of process 0 (a solution on the border) and of element 0 of process 1 (internal). *)
Definition two (p : nat) : mesh fixed :=
  if p =? 0 then Mesh fixed [rect 0 4 0 4; rect 3 7 0 2] (fun e x => true) (fun e x => Found fixed false [q4 1; q4 2] (q4 1) (q4 0)) 20 4 4 2
  else Mesh fixed [rect 6 10 0 4] (fun e x => true) (fun e x => Found fixed true [q4 3; q4 4] (q4 0) (q4 0)) 20 4 4 2.
Definition two_lb (p : nat) : box fixed := hash_bb fixed (q4 0) 2 (m_obb fixed (two p)).
Definition two_gb : box fixed := hash_bb fixed (q4 0) 2 (all_boxes fixed 2 two).
Definition two_pts (p : nat) : list (list (dbl fixed)) := if p =? 0 then [[q4 6; q4 1]] else [].

Lemma two_box p b : p < 2 -> In b (m_obb fixed (two p)) -> length b = 2 /\ ordered fixed b /\ thick fixed b.
Proof.
  intros Hp Hb. destruct p as [|[|p]]; [| |lia]; cbn [two Nat.eqb m_obb] in Hb.
  - destruct Hb as [<-|[<-|[]]]; (split; [reflexivity|]); split; repeat constructor; vm_compute; discriminate.
  - destruct Hb as [<-|[]]; (split; [reflexivity|]); split; repeat constructor; vm_compute; discriminate.
Qed.
Lemma two_boxes p : p < 2 -> boxes fixed 2 (m_obb fixed (two p)).
Proof.
  intros Hp. split; [destruct p as [|[|p]]; [discriminate|discriminate|lia]|]. intros b Hb. destruct (two_box p b Hp Hb) as (H1 & H2 & _). auto.
Qed.
Lemma two_all b : In b (all_boxes fixed 2 two) <-> exists p, p < 2 /\ In b (m_obb fixed (two p)).
Proof.
  unfold all_boxes. rewrite in_concat. split.
  - intros (l & Hl & Hb). apply in_map_iff in Hl. destruct Hl as (p & <- & Hp). apply in_seq in Hp. exists p. split; [lia|auto].
  - intros (p & Hp & Hb). exists (m_obb fixed (two p)). split; auto. apply (in_map (fun p => m_obb fixed (two p))), in_seq. lia.
Qed.
Lemma two_all_boxes : boxes fixed 2 (all_boxes fixed 2 two).
Proof. split; [discriminate|]. intros b Hb. apply two_all in Hb. destruct Hb as (p & Hp & Hb). apply (two_boxes p Hp). auto. Qed.
Lemma two_sub p b : p < 2 -> In b (m_obb fixed (two p)) -> sub_box fixed b (two_lb p) /\ sub_box fixed b two_gb.
Proof.
  intros Hp Hb. split.
  - apply (hash_bb_spec fixed (q4 0) 2 _ (two_boxes p Hp)). auto.
  - apply (hash_bb_spec fixed (q4 0) 2 _ two_all_boxes). apply two_all. eauto.
Qed.

(** The cells of a list of boxes exist. *)
Lemma cells_exist (F : doubles) rnd n bd (obb : list (box F)) : exists l, cells_of F rnd n bd obb l /\ length l <= n ^ length bd.
Proof.
  set (t := fun b c => forallb (fun x => let ir := cell_range F rnd n (snd (snd x)) (fst (snd x)) in
     (fst ir <=? (c / n ^ fst x) mod n) && ((c / n ^ fst x) mod n <? snd ir)) (combine (seq 0 (length (combine b bd))) (combine b bd))).
  assert (Ht : forall b c, t b c = true <-> cell_in_box F rnd n bd b c).
  { intros b c. unfold t. rewrite forallb_forall. split.
    - intros H k rb rc Hb Hc. specialize (H (k, (rb, rc))). cbn [fst snd] in H. rewrite andb_true_iff, Nat.leb_le, Nat.ltb_lt in H. apply H.
      apply in_numbered, in_combine_nth. auto.
    - intros H [k [rb rc]] Hk. apply in_numbered, in_combine_nth in Hk. destruct Hk as [H1 H2]. cbn [fst snd].
      rewrite andb_true_iff, Nat.leb_le, Nat.ltb_lt. apply (H k rb rc); auto. }
  exists (filter (fun c => existsb (fun b => t b c) obb) (seq 0 (n ^ length bd))). split; [split|].
  - apply NoDup_filter, seq_NoDup.
  - intros c. rewrite filter_In, in_seq, existsb_exists. split.
    + intros [H (b & Hb & E)]. apply Ht in E. split; [lia|eauto].
    + intros [H (b & Hb & E)]. apply Ht in E. split; [lia|eauto].
  - eapply Nat.le_trans; [apply flen_le|]. rewrite seq_length. auto.
Qed.

Example two_fits : mesh_fits fixed exact 1 1 255 2 2 (fun _ => 2) two two_lb two_gb 2.
Proof.
  constructor.
  - apply exact_rounding.
  - lia.
  - vm_compute. lia.
  - vm_compute. lia.
  - lia.
  - intros [|[|p]] Hp; [cbn; lia|cbn; lia|lia].
  - intros [|[|p]] e x Hp; [reflexivity|reflexivity|lia].
  - apply two_boxes.
  - intros p Hp. apply hash_bb_spec. apply two_boxes. auto.
  - apply hash_bb_spec. apply two_all_boxes.
  - intros p b Hp Hb. apply exact_clear; [apply (two_box p b); auto|apply two_sub; auto].
  - intros p b Hp Hb. destruct (two_sub p b Hp Hb) as [_ Hs]. destruct (two_box p b Hp Hb) as (_ & _ & Ht). split; [apply exact_clear; auto|].
    unfold thick_at. revert Ht. clear Hb. induction Hs as [|r c b bd [H1 H2] _ IH]; intros Ht; constructor.
    + inversion Ht; subst. apply exact_pos_lt; [|lia|auto]. lra.
    + apply IH. inversion Ht; auto.
  - intros p Hp. split; [destruct p as [|[|p]]; [vm_compute; lia|vm_compute; lia|lia]|].
    intros n H1 H2. assert (Hn : n = 1 \/ n = 2 \/ n = 3) by (destruct p as [|[|p]]; [cbn in H2; lia|cbn in H2; lia|lia]).
    destruct p as [|[|p]]; [| |lia]; destruct Hn as [->|[->| ->]]; apply Nat.ltb_lt; vm_compute; reflexivity.
  - vm_compute. lia.
  - reflexivity.
  - vm_compute. lia.
  - assert (H : forall p, exists l, cells_of fixed exact 2 two_gb (m_obb fixed (two p)) l /\ length l <= 4).
    { intros p. destruct (cells_exist fixed exact 2 two_gb (m_obb fixed (two p))) as (l & H1 & H2). exists l. split; [exact H1|exact H2]. }
    destruct (H 0) as (l0 & A0 & B0). destruct (H 1) as (l1 & A1 & B1). exists (fun p => if p =? 0 then l0 else l1). split.
    + intros [|[|p]] Hp; [exact A0|exact A1|lia].
    + unfold total. cbn [seq map concat Nat.eqb]. rewrite !app_length. cbn [length]. lia.
Qed.
Example two_points : points_fit fixed exact 1 1 255 2 2 two two_lb two_gb 2 two_pts.
Proof.
  constructor.
  - intros p q x n Hp Hq Hx Hn Hn2. destruct p as [|p]; [|destruct p; [destruct Hx|lia]]. destruct Hx as [<-|[]].
    assert (Hn' : n <= 15).
    { destruct (Nat.le_gt_cases n 15) as [|G]; auto. exfalso. change (256 ^ 1) with 256 in Hn2. cbn [Nat.pow] in Hn2. nia. }
    destruct q as [|[|q]]; [| |lia]; do 16 (destruct n as [|n]; [try lia; repeat constructor; vm_compute; try reflexivity; discriminate|]); lia.
  - intros p x Hp Hx. destruct p as [|p]; [|destruct p; [destruct Hx|lia]]. destruct Hx as [<-|[]].
    repeat constructor; vm_compute; try reflexivity; discriminate.
  - vm_compute. lia.
  - exists [(0, 0, 1); (1, 0, 0)]. split; [|vm_compute; lia]. intros p i q x b c Hp Hq Hne Hi _ _ _.
    destruct p as [|[|p]]; [| |lia]; (destruct q as [|[|q]]; [| |lia]); try lia.
    + destruct i as [|i]; [left; auto|destruct i; discriminate].
    + destruct i; discriminate.
Qed.
Example two_result : exists fd st', setup_gives fixed exact 1 1 255 2 (q4 0) 2 (fun _ => 2) two fd /\
  findpts_gives fixed exact 1 1 255 2 (q4 0) 2 fd two_pts (fun p => repeat (Res fixed 7 8 9 [] (q4 0) (q4 0) 0) (length (two_pts p))) st' /\
  exists o, nth_error (st' 0) 0 = Some o /\ code fixed o = INTERNAL /\ proc fixed o = 1 /\ el fixed o = 0 /\ r fixed o = [q4 3; q4 4].
Proof.
  destruct (C42_setup_returns _ _ _ _ _ _ (q4 0) _ _ _ _ _ _ two_fits) as (fd & Hs). exists fd.
  destruct (C43_findpts _ _ _ _ _ _ (q4 0) _ _ _ _ _ _ fd two_pts (fun p => repeat (Res fixed 7 8 9 [] (q4 0) (q4 0) 0) (length (two_pts p))) two_fits) as (st' & G & _ & H).
  - exists fd. auto.
  - intros p _. apply repeat_length.
  - apply two_points.
  - exists st'. split; [exact Hs|]. split; [exact G|]. destruct (H 0 ltac:(lia)) as [_ H0].
    destruct (H0 0 [q4 6; q4 1] _ eq_refl eq_refl) as (o & N & A). exists o. split; [auto|].
    assert (Hin : inside fixed exact 2 two two_lb two_gb [q4 6; q4 1] (1, 0)).
    { destruct (two_sub 1 (rect 6 10 0 4) ltac:(lia) (or_introl eq_refl)) as [S1 S2].
      eapply C43_exact_inside; [lia|reflexivity|reflexivity| |exact S1|exact S2| | |].
      - apply (two_box 1); [lia|left; auto].
      - repeat constructor; vm_compute; discriminate.
      - repeat constructor.
      - repeat constructor. }
    destruct A as [(_ & _ & E)|(c & (C1 & C2 & _) & [W1 W2] & Er & Ed & Ec & Hm)]; [destruct (E _ Hin)|].
    destruct (Hm _ Hin) as [Hi|[Hi _]]; [|discriminate Hi].
    destruct c as [q e]. cbn [fst snd] in *. destruct q as [|[|q]]; [| |lia].
    + rewrite Hi in Ec. discriminate Ec.
    + cbn in C2. destruct e; [|lia]. auto.
Qed.

(** *** Without the hypotheses *)
(** C42 for tables with more cells than a uint can count (here 17^2 cells with 8-bit uint and
    16-bit ulong; 2^32 cells in practice) and a number of processes that is not a power of two:
    cell 288 is kept by process 288 mod 3 = 0 (the entry that fill_hash makes), but the point in
    this cell is sent to process 2, since findpts converts 288 to uint first. *)
Definition wide_box : box fixed := rect 0 68 0 68.
Definition wide_data : findpts_data fixed :=
  FD fixed (LD fixed (HD fixed 1 wide_box [] [] 0) (fun _ _ => true) (fun _ _ => Found fixed true [] (q4 0) (q4 0)) 1 false 0)
    (HD fixed 17 wide_box (hash_setfac fixed exact wide_box 17) [] 0) None.
Theorem C42_big_table_refuted :
  table_index fixed exact 2 (hash fixed wide_data) [q4 65; q4 65] = Ok 288 /\
  fill_hash 1 2 3 1 [1] [(16, 1); (16, 1)] 17 = Ok [PI (288 mod 3) (288 / 3)] /\
  288 mod 3 = 0 /\
  to_hash fixed exact 1 2 3 wide_data [Pt fixed [q4 65; q4 65] 0] [Res fixed NOT_FOUND 0 0 [] (q4 0) (q4 0) 0]
    = Ok [SP fixed [q4 65; q4 65] 0 2 0].
Proof. repeat split; vm_compute; reflexivity. Qed.

(** C42 with a flat box at the upper end of the elements of a process, inside the mesh: the bit of
    its cell is outside the range of the process; three entries are allocated and sent, only two
    are filled (the third is whatever is in memory, 0 in the model), and the cell (2,0) of the
    flat box is not among them. *)
Definition flat_obb : list (box fixed) := [rect 0 8 0 4; rect 8 8 0 4].
Definition flat_gb : box fixed := rect 0 16 0 16.
Theorem C42_flat_element_refuted :
  cell_range fixed exact 4 (q4 0, q4 16) (q4 8, q4 8) = (2, 3) /\
  bind (set_local_mask fixed exact 1 1 4 flat_gb (hash_setfac fixed exact flat_gb 4) [(0, 2); (0, 1)] flat_obb [0]) (fun mask =>
  bind (fill_hash 1 1 1 (count_bits 1 mask) mask [(0, 2); (0, 1)] 4) (fun hash => Ok (count_bits 1 mask, hash)))
  = Ok (3, [PI 0 0; PI 0 1; PI 0 0]).
Proof. split; vm_compute; reflexivity. Qed.

(** C44 for other points without a findpts in between: the points of the first evaluation are used. *)
Definition reuse_claim : Prop := forall (F : doubles) usize lsize INT_MAX np D fd eval st st2 out out1 fd1 out2 fd2,
  results_fit F usize INT_MAX np D st -> results_fit F usize INT_MAX np D st2 ->
  (forall p, p < np -> 1 <= npt_max F (local F (fd p))) ->
  (forall p, p < np -> length (out p) = length (st p) /\ length (st2 p) = length (st p)) ->
  (forall p, p < np -> savpt F (fd p) = None) ->
  eval_gives F usize lsize INT_MAX np D fd eval st out out1 fd1 ->
  eval_gives F usize lsize INT_MAX np D fd1 eval st2 out out2 fd2 -> values F np eval st2 out out2.
Definition one_point (x : dbl fixed) (p : nat) : list (result fixed) := [Res fixed INTERNAL 0 0 [x] (q4 0) (q4 0) 0].
Definition first_coord (p e : nat) (x : list (dbl fixed)) : dbl fixed := nth 0 x (q4 0).
Definition no_data : findpts_data fixed :=
  FD fixed (LD fixed (HD fixed 0 [] [] [] 0) (fun _ _ => true) (fun _ _ => Found fixed true [] (q4 0) (q4 0)) 1 false 0) (HD fixed 0 [] [] [] 0) None.
Theorem C44_other_points_refuted : ~ reuse_claim.
Proof.
  intros H.
  set (fd1 := fun p : nat => FD fixed (local fixed no_data) (hash fixed no_data) (Some [ES fixed [q4 1] 0 0 0])).
  assert (Hr : forall x, results_fit fixed 1 255 1 1 (one_point x)).
  { intros x. constructor; [lia|cbn; lia|cbn; lia|lia| |apply Nat.ltb_lt; vm_compute; reflexivity]. intros p o Hp [<-|[]] _. cbn [proc el r length]. split; [lia|]. split; [cbn; lia|auto]. }
  specialize (H fixed 1 1 255 1 1 (fun _ => no_data) first_coord (one_point (q4 1)) (one_point (q4 2)) (fun _ => [q4 0]) (fun _ => [q4 1]) fd1 (fun _ => [q4 1]) fd1).
  assert (V : values fixed 1 first_coord (one_point (q4 2)) (fun _ => [q4 0]) (fun _ => [q4 1])).
  { apply H; auto.
    - apply (goes_always_fun _ 1 (fun p => ([q4 1], fd1 p))). apply goes_ext. intros p Hp. replace p with 0 by lia. match goal with |- ?a = ?b => exact (eq_refl b <: a = b) end.
    - apply (goes_always_fun _ 1 (fun p => ([q4 1], fd1 p))). apply goes_ext. intros p Hp. replace p with 0 by lia. match goal with |- ?a = ?b => exact (eq_refl b <: a = b) end. }
  destruct (V 0 ltac:(lia)) as [_ V0]. specialize (V0 0 _ eq_refl). vm_compute in V0. discriminate.
Qed.
