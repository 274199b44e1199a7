(** C40-C44: the search of points in elements (findpts). *)
From Verif Require Import Base BaseLemmas Net NetProof Transfer GsTop GsTopProof3 Findpts FindptsSpec FindptsProof1 FindptsProof3 FindptsProof5.
From Coq Require Import QArith Qround Lqa Sorting.Sorted Eqdep_dec.
Open Scope nat_scope.

(** C40: the search on one process does not miss elements.  For all element boxes (ordered, not
    degenerate as computed) and table sizes that fit, under every rounding that is monotone: the
    setup succeeds, and for all points whose cells can be computed (in particular all points in
    some box) the search returns, for each point, the best of the candidates, where every element
    whose box contains the point (below its upper faces, or these being at the end of the mesh)
    and whose box test is passed is considered. *)
Theorem C40_local_search : forall (F : doubles) (rnd : Q -> Q) usize (dzero : dbl F) D (obb : list (box F)) nu max_size,
  rounding rnd -> 1 <= usize -> 2 <= D -> boxes F D obb ->
  (forall b, In b obb -> clear F rnd (hash_bb F dzero D obb) b) ->
  sizes_fit F rnd usize nu D (hash_bb F dzero D obb) obb ->
  exists h, hash_build F rnd usize dzero D obb max_size nu = Ok h /\ bounds F obb (bnd F h) /\
  (forall b x, In b obb -> in_box F x b -> convertible F rnd usize (hash_n F h) (bnd F h) x) /\
  forall (fd : local_data F) pts st session_id_match,
    hd F fd = h -> 1 <= npt_max F fd -> length st = length pts ->
    (forall p, In p pts -> convertible F rnd usize (hash_n F h) (bnd F h) (px F p)) ->
    exists st', findptsms_local F rnd usize dzero fd session_id_match pts st = Ok st' /\ length st' = length st /\
    forall i p o o', nth_error pts i = Some p -> nth_error st i = Some o -> nth_error st' i = Some o' ->
      proc F o' = proc F o /\
      answer F
        (fun e => e < length obb /\ searched F fd session_id_match (psid F p) /\ box_test F fd e (px F p) = true)
        (fun e => searched F fd session_id_match (psid F p) /\ box_test F fd e (px F p) = true /\
           exists b, nth_error obb e = Some b /\ in_box F (px F p) b /\
             below_top F rnd (hash_n F h) (bnd F h) b (px F p))
        (fun e => solve F fd e (px F p)) (fun e o => el F o = e) (set_code F NOT_FOUND o) o'.
Proof.
  intros F rnd usize dzero D obb nu max_size R us1 D2 Hob Hcl Hfit.
  destruct (search_ok F rnd R usize us1 dzero D D2 obb Hob Hcl nu max_size Hfit) as (h & E & Eb & Hn & Hf & H).
  exists h. rewrite Eb. split; auto. split; [apply hash_bb_spec; auto|]. split.
  { intros b x Hb Hx. apply (in_box_convertible F rnd R usize us1 _ _ b); auto. apply bd_sub; auto. }
  intros fd pts st sm Hd Hnpt Hl Hcv. destruct (H fd pts st sm Hd Hnpt Hl Hcv) as (st' & E' & L & H').
  exists st'. split; auto. split; auto. intros i p o o' Hp Ho Ho'.
  destruct (H' i p o Hp Ho) as (o2 & C & E2 & Ep & B & Bn & B1 & B2). rewrite Ho' in E2. injection E2 as <-.
  split; auto. eapply best_answer; eauto. eapply best_mono; [|exact B]. intros e [He _]; exact He.
Qed.
Print Assumptions C40_local_search.

(** The same with exact arithmetic: boxes with a width, points that are not on an upper face of
    the box, except at the end of the mesh. *)
Theorem C40_exact : forall (F : doubles) usize (dzero : dbl F) D (obb : list (box F)) nu max_size,
  1 <= usize -> 2 <= D -> boxes F D obb -> (forall b, In b obb -> thick F b) ->
  sizes_fit F (fun q => q) usize nu D (hash_bb F dzero D obb) obb ->
  exists h, hash_build F (fun q => q) usize dzero D obb max_size nu = Ok h /\ bounds F obb (bnd F h) /\
  forall x e b, nth_error obb e = Some b -> in_box F x b -> below_face F (bnd F h) b x ->
    exists l, listed F (fun q => q) usize h x = Ok l /\ In e l /\
      StronglySorted lt l /\ forall e, In e l -> e < length obb.
Proof.
  intros F usize dzero D obb nu max_size us1 D2 Hob Ht Hfit.
  assert (Hcl : forall b, In b obb -> clear F (fun q => q) (hash_bb F dzero D obb) b).
  { intros b Hb. apply exact_clear; auto. apply bd_sub; auto. }
  destruct (table_ok F _ exact_rounding usize us1 dzero D D2 obb Hob Hcl nu max_size Hfit) as (h & E & G & Eb & Hl).
  exists h. rewrite Eb. split; auto. split; [apply hash_bb_spec; auto|]. intros x e b He Hx Hf.
  destruct G as (Htr & _). pose proof (nth_error_In _ _ He) as Hb.
  eexists. split; [apply Hl|].
  - apply (in_box_convertible F _ exact_rounding usize us1 _ _ b); auto; [|apply Htr|apply bd_sub; auto].
    eapply (tried_few F _ usize us1); eauto.
  - assert (Hn : 1 <= hash_n F h) by apply Htr.
    split; [apply (lst_in F _ exact_rounding usize us1 dzero D D2 obb Hob Hcl _ x e b); auto; apply exact_below; auto; apply bd_sub; auto|].
    split; [apply (lst_sorted F _ usize us1); auto|]. intros e'. apply (lst_lt F _ usize us1); auto.
Qed.
Print Assumptions C40_exact.

(** C41: the table of one process: the array has exactly the entries needed, at most max_size if
    this is at least nel+2, and the list of every cell contains exactly the elements whose boxes
    cover the cell, once each. *)
Theorem C41_local_table : forall (F : doubles) (rnd : Q -> Q) usize (dzero : dbl F) D (obb : list (box F)) nu max_size,
  rounding rnd -> 1 <= usize -> 2 <= D -> boxes F D obb ->
  (forall b, In b obb -> clear F rnd (hash_bb F dzero D obb) b) ->
  sizes_fit F rnd usize nu D (hash_bb F dzero D obb) obb ->
  exists h, hash_build F rnd usize dzero D obb max_size nu = Ok h /\ bounds F obb (bnd F h) /\
  let n := hash_n F h in
  1 <= n /\ length (offset F h) = n ^ D + 1 + entries F rnd n (bnd F h) obb /\
  (length obb + 2 <= max_size -> length (offset F h) <= max_size) /\
  forall c, c < n ^ D ->
    exists b e l, nth_error (offset F h) c = Some b /\ nth_error (offset F h) (c + 1) = Some e /\
      mapM (rd (offset F h)) (seq b (e - b)) = Ok l /\ StronglySorted lt l /\
      forall el, In el l <-> exists bx, nth_error obb el = Some bx /\ cell_in_box F rnd n (bnd F h) bx c.
Proof.
  intros F rnd usize dzero D obb nu max_size R us1 D2 Hob Hcl Hfit.
  destruct (cells_ok F rnd R usize us1 dzero D D2 obb Hob Hcl nu max_size Hfit) as (h & E & Eb & Hn & L & Lm & H).
  exists h. rewrite Eb. split; auto. split; [apply hash_bb_spec; auto|]. cbv zeta. repeat (split; auto).
  intros Hm. apply Lm. lia.
Qed.
Print Assumptions C41_local_table.

(** *** Numbers for examples: -32, -31.75, ..., 31.75 in one byte *)
Definition fx (n : nat) : ulong_t 1 := to_ulong 1 n.
Definition fx_val (a : ulong_t 1) : Q := (Z.of_nat (proj1_sig a) - 128) # 4.
Lemma fx_lt (a : ulong_t 1) : proj1_sig a < 256.
Proof. destruct a as [n H]. exact (proj1 (Nat.ltb_lt n 256) H). Qed.
Definition fixed : doubles.
Proof.
  refine (Doubles (ulong_t 1) fx_val 1 (fun a => [proj1_sig a]) (fun b => fx (nth 0 b 0)) (fx 255) (fx 0) _ _ _ _ _ _ _).
  - intros a b H. apply ulong_ext. unfold fx_val, Qeq in H. cbn [Qnum Qden] in H. lia.
  - auto.
  - auto.
  - intros a b [<-|[]]. apply fx_lt.
  - intros a. apply ulong_ext. cbn [nth]. apply to_ulong_val. apply fx_lt.
  - intros a. pose proof (fx_lt a). unfold fx_val, Qle. cbn [Qnum Qden]. change (proj1_sig (fx 255)) with 255. change (proj1_sig (fx 0)) with 0. lia.
  - intros a. pose proof (fx_lt a). unfold fx_val, Qle. cbn [Qnum Qden]. change (proj1_sig (fx 255)) with 255. change (proj1_sig (fx 0)) with 0. lia.
Defined.
(** The number z/4. *)
Definition q4 (z : Z) : dbl fixed := fx (Z.to_nat (z + 128)).
Notation exact := (fun q : Q => q).
Definition rect (x0 x1 y0 y1 : Z) : box fixed := [(q4 x0, q4 x1); (q4 y0, q4 y1)].

(** Three elements side by side with gaps and overlaps: the hypotheses hold, and the search finds
    element 1 (internal) for the point (1,0.25), nothing at (2.75,0) in the gap. *)
Definition three : list (box fixed) := [rect 0 4 0 4; rect 3 7 0 2; rect 12 16 0 4].
Example three_ok : boxes fixed 2 three /\ (forall b, In b three -> thick fixed b) /\
  sizes_fit fixed exact 1 4 2 (hash_bb fixed (q4 0) 2 three) three.
Proof.
  split; [split; [discriminate|]|split; [|split]].
  - intros b [<-|[<-|[<-|[]]]]; (split; [reflexivity|]); repeat constructor; vm_compute; discriminate.
  - intros b [<-|[<-|[<-|[]]]]; repeat constructor.
  - vm_compute. lia.
  - intros n H1 H2. assert (H : n = 1 \/ n = 2 \/ n = 3) by lia. destruct H as [->|[->| ->]]; apply Nat.ltb_lt; vm_compute; reflexivity.
Qed.
Definition three_ld (h : hash_data fixed) : local_data fixed :=
  LD fixed h (fun e x => negb (e =? 2)) (fun e x => Found fixed (e =? 1) [q4 (Z.of_nat e); q4 0] (q4 1) (q4 0)) 2 false 0.
Example three_search :
  bind (hash_build fixed exact 1 (q4 0) 2 three 20 4) (fun h =>
  bind (findptsms_local fixed exact 1 (q4 0) (three_ld h) 0
    [Pt fixed [q4 4; q4 1] 0; Pt fixed [q4 11; q4 0] 0; Pt fixed [q4 2; q4 3] 0]
    (repeat (Res fixed 7 8 9 [] (q4 0) (q4 0) 0) 3)) (fun st =>
  Ok (hash_n fixed h, length (offset fixed h), map (fun o => (code fixed o, el fixed o)) st))) =
  Ok (3, 20, [(INTERNAL, 1); (NOT_FOUND, 9); (BORDER, 0)]).
Proof. vm_compute. reflexivity. Qed.

(** Without the hypotheses of C40 the claim is false of the program.
    A point on the upper face of a box inside the mesh: the box contains it, but its cell does not
    list the element. *)
Definition closed_boxes_claim : Prop := forall (F : doubles) usize (dzero : dbl F) D (obb : list (box F)) nu max_size h,
  1 <= usize -> 2 <= D -> boxes F D obb -> (forall b, In b obb -> thick F b) ->
  sizes_fit F exact usize nu D (hash_bb F dzero D obb) obb ->
  hash_build F exact usize dzero D obb max_size nu = Ok h ->
  forall x e b, nth_error obb e = Some b -> in_box F x b ->
    exists l, listed F exact usize h x = Ok l /\ In e l.
Theorem C40_closed_boxes_refuted : ~ closed_boxes_claim.
Proof.
  intros H.
  assert (C : bind (hash_build fixed exact 1 (q4 0) 2 [rect 0 4 0 4; rect 5 8 0 4] 40 3)
                (fun h => listed fixed exact 1 h [q4 4; q4 1]) = Ok [1]) by (vm_compute; reflexivity).
  destruct (hash_build fixed exact 1 (q4 0) 2 [rect 0 4 0 4; rect 5 8 0 4] 40 3) as [h| | |] eqn:E; [|discriminate C..].
  cbn [bind] in C.
  specialize (H fixed 1 (q4 0) 2 [rect 0 4 0 4; rect 5 8 0 4] 3 40 h).
  destruct H with (x := [q4 4; q4 1]) (e := 0) (b := rect 0 4 0 4) as (l & El & Hi); [auto|auto| | | |exact E|reflexivity| |].
  - split; [discriminate|]. intros b [<-|[<-|[]]]; (split; [reflexivity|]); repeat constructor; vm_compute; discriminate.
  - intros b [<-|[<-|[]]]; repeat constructor.
  - split; [vm_compute; lia|]. intros n H1 H2. assert (Hn : n = 1 \/ n = 2) by lia. destruct Hn as [->| ->]; apply Nat.ltb_lt; vm_compute; reflexivity.
  - repeat constructor; vm_compute; discriminate.
  - rewrite C in El. injection El as <-. destruct Hi as [Hi|[]]. discriminate.
Qed.
(** A flat box at the upper end of the mesh: the setup writes outside the table. *)
Theorem C40_flat_box_refuted :
  hash_build fixed exact 1 (q4 0) 2 [rect 0 4 0 4; rect 4 4 0 4] 40 3 = UB.
Proof. vm_compute. reflexivity. Qed.
(** A process without elements: looking up any point is undefined (conversion of inf or NaN to an
    integer), for every kind of numbers, size and dimension. *)
Theorem C40_no_elements_refuted : forall (F : doubles) (rnd : Q -> Q) usize (dzero : dbl F) D max_size nu h x0 x,
  rounding rnd -> 1 <= D -> length x + 1 = D ->
  hash_build F rnd usize dzero D [] max_size nu = Ok h -> listed F rnd usize h (x0 :: x) = UB.
Proof.
  intros F rnd usize dzero D max_size nu h x0 x R HD Hx E.
  assert (Eb : bnd F h = repeat (dzero, dzero) D /\ fac F h = hash_setfac F rnd (repeat (dzero, dzero) D) (hash_n F h)).
  { unfold hash_build in E. cbn [hash_bb] in E.
    repeat match type of E with
    | bind ?a _ = _ => destruct a; cbn [bind] in E; try discriminate
    | (let '(_, _) := ?a in _) = _ => destruct a
    end; injection E as <-; split; reflexivity. }
  destruct Eb as [Eb Ef]. unfold listed, table_index. rewrite Eb, Ef. clear Eb Ef E.
  assert (N : hash_fac F rnd (hash_n F h) (dzero, dzero) = None).
  { unfold hash_fac. cbn [fst snd]. destruct (Qeq_bool (rnd (val F dzero - val F dzero)%Q) 0) eqn:E; auto.
    apply Qeq_bool_neq in E. exfalso. apply E.
    assert (H1 : (rnd (val F dzero - val F dzero) <= rnd 0)%Q) by (apply (rnd_mono _ R); lra).
    assert (H2 : (rnd 0 <= rnd (val F dzero - val F dzero))%Q) by (apply (rnd_mono _ R); lra).
    rewrite (rnd_zero _ R) in *. lra. }
  assert (G : forall k y0 y, length y = k -> hash_index F rnd usize (hash_n F h) (repeat (dzero, dzero) (S k))
            (hash_setfac F rnd (repeat (dzero, dzero) (S k)) (hash_n F h)) (y0 :: y) = UB).
  { induction k as [|k IH]; intros y0 [|y1 y] Hy; try discriminate.
    - cbn [repeat hash_setfac map hash_index bind fst]. unfold hash_index_aux. rewrite N. reflexivity.
    - cbn [length] in Hy. injection Hy as Hy. change (repeat (dzero, dzero) (S (S k))) with ((dzero, dzero) :: repeat (dzero, dzero) (S k)).
      unfold hash_setfac in *. cbn [map hash_index]. rewrite (IH y1 y Hy). reflexivity. }
  destruct D as [|D]; [lia|]. rewrite G by lia. reflexivity.
Qed.
Example no_elements_reachable : bind (hash_build fixed exact 1 (q4 0) 2 [] 40 7) (fun h => Ok (hash_n fixed h)) = Ok 6.
Proof. vm_compute. reflexivity. Qed.
(** A point far outside the mesh: its position is not an integer of the type used. *)
Theorem C40_far_point_refuted :
  bind (hash_build fixed exact 1 (q4 0) 2 [rect 0 1 0 1] 40 3) (fun h => listed fixed exact 1 h [q4 0; q4 1]) = Ok [0] /\
  bind (hash_build fixed exact 1 (q4 0) 2 [rect 0 1 0 1] 40 3) (fun h => listed fixed exact 1 h [q4 0; q4 100]) = UB.
Proof. split; vm_compute; reflexivity. Qed.

(** C41 without the hypotheses: when the number of entries of a table that is tried exceeds the
    range of uint (64 copies of one box with 8-bit integers; 2^30 with 32 bits), the size computed
    is too small and the setup writes outside the array; and so it may when max_size <= nel. *)
Theorem C41_overflow_refuted : hash_build fixed exact 1 (q4 0) 2 (repeat (rect 0 4 0 4) 64) 73 3 = UB.
Proof. vm_compute. reflexivity. Qed.
Theorem C41_small_limit_refuted : hash_build fixed exact 1 (q4 0) 2 [rect 0 4 0 4; rect 4 8 0 4] 2 0 = UB.
Proof. vm_compute. reflexivity. Qed.
