(** C55: the search of points with several sessions (findptsms_setup, findptsms). *)
From Verif Require Import Base BaseLemmas Net NetProof Transfer TransferSpec GsTop GsUserProof Findpts FindptsGlobal FindptsMs FindptsSpec
  FindptsUserSpec FindptsMsSpec FindptsProof1 FindptsProof2 FindptsProof3 FindptsProof5 FindptsUserProof FindptsMsProof4 Properties_Findpts Properties_FindptsGlobal.
From Coq Require Import QArith Qround Lqa.
Open Scope nat_scope.

(** C55: findptsms_setup returns on all processes in every execution. *)
Theorem C55_setup_returns : forall (F : doubles) rnd usize lsize INT_MAX np dzero D root (M : nat -> mesh F) lb gb hn sid,
  mesh_fits F rnd usize lsize INT_MAX np D root M lb gb hn ->
  exists fd, setup_gives_ms F rnd usize lsize INT_MAX np dzero D root M sid fd.
Proof.
  intros F rnd usize lsize INT_MAX np dzero D root M lb gb hn sid Hf.
  destruct (setup_goes F rnd usize lsize INT_MAX np dzero D root M lb gb hn Hf true sid) as (n & fd & _ & G).
  exists fd. exact (goes_always_fun _ np fd G).
Qed.
Print Assumptions C55_setup_returns.

(** findptsms returns in every execution, for each point of each process the winner (definition
    [answer_ms]): only elements of the sessions asked for are considered, and all of them whose
    box contains the point; per session the best; of these the one with the greatest interface
    distance.  A point that is not found leaves r, dist2 and el as they were. *)
Theorem C55_findptsms : forall (F : doubles) rnd usize lsize INT_MAX np dzero D root (M : nat -> mesh F) lb gb hn sid fd sessm pts st,
  mesh_fits F rnd usize lsize INT_MAX np D root M lb gb hn ->
  (forall p, p < np -> sid p < 256 ^ usize) ->
  data_of_ms F rnd usize lsize INT_MAX np dzero D root M sid fd ->
  (forall p, p < np -> length (st p) = length (pts p)) ->
  points_fit F rnd usize lsize INT_MAX np D M lb gb hn (fun p => map (px F) (pts p)) ->
  (forall p y, p < np -> In y (pts p) -> psid F y < 256 ^ usize) ->
  exists st', findptsms_gives F rnd usize lsize INT_MAX np dzero D fd sessm pts st st' /\
    data_of_ms F rnd usize lsize INT_MAX np dzero D root M sid (fun p => forget F (fd p)) /\
    forall p, p < np -> length (st' p) = length (pts p) /\
      forall i y o, nth_error (pts p) i = Some y -> nth_error (st p) i = Some o ->
        exists o', nth_error (st' p) i = Some o' /\
          answer_ms F sid (near_ms F np M sid sessm y) (inside_ms F rnd np M sid lb gb sessm y) (solution F M (px F y)) (unfound F p o) o'.
Proof.
  intros F rnd usize lsize INT_MAX np dzero D root M lb gb hn sid fd sessm pts st Hf Hs Hd Hl Hp Hq.
  destruct (search_ms_goes F rnd usize lsize INT_MAX np dzero D root M lb gb hn Hf sid Hs fd sessm pts st Hd Hl Hp Hq) as (st' & H & G).
  exists st'. split; [exact (goes_always_fun _ np (fun p => (st' p, forget F (fd p))) G)|]. split; [|exact H].
  destruct Hd as (fd0 & H0 & E). exists fd0. split; [exact H0|]. exact E.
Qed.
Print Assumptions C55_findptsms.

(** With session_id_match=1 there is only one session to win. *)
Theorem C55_own_session : forall (F : doubles) rnd np (M : nat -> mesh F) lb gb sid y none o,
  answer_ms F sid (near_ms F np M sid 1 y) (inside_ms F rnd np M sid lb gb 1 y) (solution F M (px F y)) none o ->
  answer F (near_ms F np M sid 1 y) (inside_ms F rnd np M sid lb gb 1 y) (solution F M (px F y)) (names F) none o.
Proof.
  intros F rnd np M lb gb sid y none o [A|(c & A1 & A2 & A3 & A4 & A5 & A6 & _)]; [left; exact A|right].
  exists c. split; [auto|]. split; [auto|]. split; [auto|]. split; [auto|]. split; [auto|]. intros c' Hc'.
  destruct (A6 c' Hc') as [B|B].
  - destruct A1 as [_ A1]. destruct Hc' as [_ Hc']. unfold allowed in *. cbn [Nat.eqb] in *. congruence.
  - left. rewrite A5, B. reflexivity.
  - right. rewrite A4. exact B.
Qed.
Print Assumptions C55_own_session.

(** Example: two processes, of sessions 5 and 6, a point of session 9 in an element of each.  The
    point is at the border of its element on process 0, inside that on process 1; the interface
    distance is greater on process 0, which therefore wins. *)
Definition two_ms (p : nat) : mesh fixed :=
  Mesh fixed (m_obb fixed (two p)) (m_test fixed (two p))
    (if p =? 0 then (fun e x => Found fixed false [q4 1; q4 2] (q4 1) (q4 2)) else (fun e x => Found fixed true [q4 3; q4 4] (q4 0) (q4 1)))
    (m_local_size fixed (two p)) (m_nu fixed (two p)) (m_global_size fixed (two p)) (m_npt fixed (two p)).
Definition two_sid (p : nat) : nat := 5 + p.
Definition ms_pts (p : nat) : list (point fixed) := map (fun x => Pt fixed x 9) (two_pts p).
Example two_ms_fits : mesh_fits fixed exact 1 1 255 2 2 (fun _ => 2) two_ms two_lb two_gb 2.
Proof.
  destruct two_fits as [a1 a2 a3 a4 a5 a6 a7 a8 a9 a10 a11 a12 a13 a14 a15 a16 a17].
  constructor; auto. intros [|[|p]] e x Hp; [reflexivity|reflexivity|lia].
Qed.
Example ms_points : points_fit fixed exact 1 1 255 2 2 two_ms two_lb two_gb 2 (fun p => map (px fixed) (ms_pts p)).
Proof.
  assert (E : forall p, map (px fixed) (ms_pts p) = two_pts p) by (intros p; unfold ms_pts; rewrite map_map; cbn; apply map_id).
  destruct two_points as [b1 b2 b3 b4]. constructor.
  - intros p q x n Hp Hq Hx. rewrite E in Hx. eauto.
  - intros p x Hp Hx. rewrite E in Hx. eauto.
  - vm_compute. lia.
  - destruct b4 as (V & H & H1 & H2). exists V. split; [|auto]. intros p i q x b c Hp Hq Hne Hi. rewrite E in Hi. eauto.
Qed.
Example ms_result : exists fd st', setup_gives_ms fixed exact 1 1 255 2 (q4 0) 2 (fun _ => 2) two_ms two_sid fd /\
  findptsms_gives fixed exact 1 1 255 2 (q4 0) 2 fd 0 ms_pts (fun p => repeat (Res fixed 7 8 9 [] (q4 0) (q4 0) 0) (length (ms_pts p))) st' /\
  exists o, nth_error (st' 0) 0 = Some o /\ code fixed o = BORDER /\ proc fixed o = 0 /\ r fixed o = [q4 1; q4 2].
Proof.
  destruct (C55_setup_returns _ _ _ _ _ _ (q4 0) _ _ _ _ _ _ two_sid two_ms_fits) as (fd & Hs). exists fd.
  destruct (C55_findptsms _ _ _ _ _ _ (q4 0) _ _ _ _ _ _ two_sid fd 0 ms_pts (fun p => repeat (Res fixed 7 8 9 [] (q4 0) (q4 0) 0) (length (ms_pts p))) two_ms_fits) as (st' & G & _ & H).
  - intros [|[|p]] Hp; [vm_compute; lia|vm_compute; lia|lia].
  - exists fd. auto.
  - intros p _. apply repeat_length.
  - apply ms_points.
  - intros p y Hp Hy. apply in_map_iff in Hy. destruct Hy as (x & <- & _). vm_compute. lia.
  - exists st'. split; [exact Hs|]. split; [exact G|]. destruct (H 0 ltac:(lia)) as [_ H0].
    destruct (H0 0 (Pt fixed [q4 6; q4 1] 9) _ eq_refl eq_refl) as (o & N & A). exists o. split; [auto|].
    assert (Hin : inside_ms fixed exact 2 two_ms two_sid two_lb two_gb 0 (Pt fixed [q4 6; q4 1] 9) (0, 1)).
    { split; [|vm_compute; discriminate]. destruct (two_sub 0 (rect 3 7 0 2) ltac:(lia) (or_intror (or_introl eq_refl))) as [S1 S2].
      eapply (C43_exact_inside fixed 2 two_ms); [lia|reflexivity|reflexivity| |exact S1|exact S2| | |].
      - apply (two_box 0); [lia|right; left; auto].
      - repeat constructor; vm_compute; discriminate.
      - repeat constructor; vm_compute; auto.
      - repeat constructor; vm_compute; auto. }
    destruct A as [(_ & _ & A)|([q e] & [(C1 & C2 & _) _] & [E1 E2] & A1 & A2 & A3 & _ & A5)]; [exfalso; exact (A (0, 1) Hin)|].
    destruct (A5 (0, 1) Hin) as ([q' e'] & [(C1' & _) _] & W2 & _ & W4). cbn [fst snd] in *.
    destruct q as [|[|q]]; [auto| |lia]. exfalso.
    destruct q' as [|[|q']]; [|discriminate|lia]. vm_compute in W4. apply W4. reflexivity.
Qed.
