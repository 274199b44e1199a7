From Verif Require Import Base BaseLemmas Tensor TensorSpec TensorProof Poly PolySpec LobBndSpec FindptsEl2 FindptsEl2Spec FindptsEl2Proof7 FindptsEl2Proof10 FindptsEl3 FindptsEl3Spec FindptsEl3Proof7 FindptsEl3Proof9 FindptsCalls FindptsCallsSpec.
From Coq Require Import Reals Lra NArith.

Definition nav : products R := naive R 0%R Rplus Rmult.
Lemma nav_good : good R 0%R Rplus Rmult nav.
Proof. apply (naive_good R 0%R 1%R Rplus Rmult Rminus Ropp RTheory). Qed.
Definition nothing : pt := Pt [] [] [] 0%R 0%R 0%R 0 0%N.
Lemma numbered_eq (out : list pt) (xs : list (list R)) (f : list R -> pt) : length out = length xs ->
  (forall i x, nth_error xs i = Some x -> nth_error out i = Some (in_slot i (f x))) ->
  out = map (fun '(i, q) => in_slot i (f q)) (combine (seq 0 (length xs)) xs).
Proof.
  intros L H. apply nth_error_ext. intros i. rewrite nth_error_map. destruct (nth_error xs i) as [x|] eqn:E.
  - rewrite (H i x E). assert (Hi : (i < length xs)%nat) by (apply nth_error_Some; congruence).
    assert (C : nth_error (combine (seq 0 (length xs)) xs) i = Some (i, x)); [|rewrite C; reflexivity].
    clear H L out f. assert (G : forall xs a i, nth_error xs i = Some x -> nth_error (combine (seq a (length xs)) xs) i = Some ((a + i)%nat, x)); [|exact (G xs O i E)].
    clear. induction xs as [|y xs IH]; intros a [|i] H; try discriminate; cbn [length seq combine nth_error] in *; [injection H as ->; rewrite Nat.add_0_r; auto|]. rewrite (IH (S a) i H). f_equal. f_equal. lia.
  - assert (C : nth_error (combine (seq 0 (length xs)) xs) i = None) by (apply nth_error_None; rewrite combine_length, seq_length; apply nth_error_None in E; lia). rewrite C. apply nth_error_None. apply nth_error_None in E. lia.
Qed.

Section C3.
Variable M : R.
Hypothesis HM : (0 < M)%R.
Variable nodes_n : arr -> nat -> res arr.
Variable nr ns nt : nat.
Variable zr zs zt : arr.
Hypothesis Hr : el_points nodes_n nr zr.
Hypothesis Hs : el_points nodes_n ns zs.
Hypothesis Ht : el_points nodes_n nt zt.
Variable tol : R.
Notation shp := (Shape3 nr ns nt zr zs zt).
Definition solve3 (x : list arr) (q : list R) : pt :=
  match findpts_el_setup_3 nodes_n nr ns nt 1 x with
  | Ok (fd, s) => match findpts_el_3 M nav fd s [q] tol with Ok (p :: _, _) => p | _ => nothing end
  | _ => nothing
  end.
Lemma solve3_ok x q : coords nr ns nt x -> regular3 (shp x) -> reachable3 M (shp x) q -> found3 (shp x) tol 0 q (solve3 x q).
Proof.
  intros Hc Rg Rc. destruct (setup_ok3 nodes_n nr ns nt zr zs zt 1 x Hr Hs Ht Hc) as (fd & s & _ & E & _).
  pose proof (h3_setup M nav nodes_n nr ns nt zr zs zt 1 x fd s Hc E) as H.
  destruct (search_ok3 M HM nav nav_good nodes_n nr ns nt zr zs zt Hr Hs Ht 1 _ fd s [q] tol H Rg) as (out & s' & F & _ & _ & V); [cbn; lia|intros y [<-|[]]; auto|].
  destruct (V O q eq_refl) as (p & V1 & V2). unfold solve3. rewrite E, F. destruct out as [|p0 out]; [discriminate|]. injection V1 as ->. auto.
Qed.
Lemma calls3_ok P npt : good R 0%R Rplus Rmult P -> forall l x fd s, coords nr ns nt x -> history3 M P nodes_n nr ns nt zr zs zt npt (shp x) fd s ->
  allowed (coords nr ns nt) (fun x => regular3 (shp x)) (fun x => reachable3 M (shp x)) npt (nr * ns * nt) x l ->
  calls_3 M P tol l fd s = Ok (answers solve3 (fun x => value3 (shp x)) x l).
Proof.
  intros G. induction l as [|c l IH]; intros x fd s Hc H A; [reflexivity|]. destruct c as [y|xs|rs u]; cbn [calls_3 answers allowed] in *; destruct A as [A1 A2].
  - pose proof (h3_start M P nodes_n nr ns nt zr zs zt npt _ fd s y H A1) as H'. destruct (findpts_el_start_3 fd s y) as [fd' s'] eqn:E. cbn [fst snd] in H'. rewrite (IH y fd' s' A1 H' A2). reflexivity.
  - destruct A1 as (Rg & Ln & Rc). destruct (search_ok3 M HM P G nodes_n nr ns nt zr zs zt Hr Hs Ht npt _ fd s xs tol H Rg Ln Rc) as (out & s' & E & H' & Lo & V). rewrite E. cbn [bind]. rewrite (IH x fd s' Hc H' A2). cbn [bind]. f_equal. f_equal. f_equal.
    apply numbered_eq; [auto|]. intros i q Hi. assert (Rq : reachable3 M (shp x) q) by (apply Rc; apply (nth_error_In _ _ Hi)).
    destruct (setup_ok3 nodes_n nr ns nt zr zs zt 1 x Hr Hs Ht Hc) as (fd0 & s0 & _ & E0 & _). pose proof (h3_setup M nav nodes_n nr ns nt zr zs zt 1 x fd0 s0 Hc E0) as H0.
    destruct (search_ok3 M HM nav nav_good nodes_n nr ns nt zr zs zt Hr Hs Ht 1 _ fd0 s0 [q] tol H0 Rg) as (out0 & s1 & E1 & _ & _ & V1); [cbn; lia|intros y [<-|[]]; auto|].
    destruct (independent3 M nav P nodes_n nodes_n nr ns nt zr zs zt 1 npt (shp x) fd0 fd s0 s [q] xs tol out0 out s1 s' O i q HM nav_good G Hr Hs Ht Hr Hs Ht H0 H Rg ltac:(cbn; lia) Ln ltac:(intros y [<-|[]]; auto) Rc E1 E eq_refl Hi) as (p & P1 & P2).
    rewrite P2. unfold solve3. rewrite E0, E1. destruct out0 as [|p0 out0]; [discriminate|]. injection P1 as ->. reflexivity.
  - destruct A1 as [Ln Lu]. destruct (eval_known3 M HM P G nodes_n nr ns nt zr zs zt Hr Hs Ht npt _ fd s rs u H Ln Lu) as (s' & E & H'). rewrite E. cbn [bind]. rewrite (IH x fd s' Hc H' A2). reflexivity.
Qed.
End C3.

Lemma coords2_eq nr ns x : coords2 nr ns x -> exists a b, x = [a; b] /\ (nr * ns <= length a)%nat /\ (nr * ns <= length b)%nat.
Proof. intros [L H]. destruct x as [|a [|b [|]]]; try discriminate. exists a, b. split; [auto|]. split; [apply (H 0%nat); lia|apply (H 1%nat); lia]. Qed.
Section C2.
Variable M : R.
Hypothesis HM : (0 < M)%R.
Variable nodes_n : arr -> nat -> res arr.
Variable nr ns : nat.
Variable zr zs : arr.
Hypothesis Hr : el_points nodes_n nr zr.
Hypothesis Hs : el_points nodes_n ns zs.
Variable tol : R.
Notation shp2 := (shape_of nr ns zr zs).
Definition solve2 (x : list arr) (q : list R) : pt :=
  match findpts_el_setup_2 nodes_n nr ns 1 x with
  | Ok (fd, s) => match findpts_el_2 M nav fd s [q] tol with Ok (p :: _, _) => p | _ => nothing end
  | _ => nothing
  end.
Lemma solve2_ok x q : coords2 nr ns x -> regular (shp2 x) -> reachable M (shp2 x) q -> found (shp2 x) tol 0 q (solve2 x q).
Proof.
  intros Hc Rg Rc. destruct (coords2_eq _ _ _ Hc) as (a & b & -> & La & Lb). destruct (setup_ok nodes_n nr ns zr zs 1 a b Hr Hs La Lb) as (fd & s & _ & E & _).
  pose proof (h_setup M nav nodes_n nr ns zr zs 1 a b fd s La Lb E) as H.
  destruct (search_ok M HM nav nav_good nodes_n nr ns zr zs Hr Hs 1 _ fd s [q] tol H Rg) as (out & s' & F & _ & _ & V); [cbn; lia|intros y [<-|[]]; auto|].
  destruct (V O q eq_refl) as (p & V1 & V2). unfold solve2. rewrite E, F. destruct out as [|p0 out]; [discriminate|]. injection V1 as ->. auto.
Qed.
Lemma calls2_ok P npt : good R 0%R Rplus Rmult P -> forall l x fd s, coords2 nr ns x -> history M P nodes_n nr ns zr zs npt (shp2 x) fd s ->
  allowed (coords2 nr ns) (fun x => regular (shp2 x)) (fun x => reachable M (shp2 x)) npt (nr * ns) x l ->
  calls_2 M P tol l fd s = Ok (answers solve2 (fun x u r => value (shp2 x) u (nth 0 r 0%R) (nth 1 r 0%R)) x l).
Proof.
  intros G. induction l as [|c l IH]; intros x fd s Hc H A; [reflexivity|]. destruct c as [y|xs|rs u]; cbn [calls_2 answers allowed] in *; destruct A as [A1 A2].
  - destruct (coords2_eq _ _ _ A1) as (a & b & -> & La & Lb). pose proof (h_start M P nodes_n nr ns zr zs npt _ fd s a b H La Lb) as H'. destruct (findpts_el_start_2 fd s [a; b]) as [fd' s'] eqn:E. cbn [fst snd] in H'. rewrite (IH [a; b] fd' s' A1 H' A2). reflexivity.
  - destruct A1 as (Rg & Ln & Rc). destruct (search_ok M HM P G nodes_n nr ns zr zs Hr Hs npt _ fd s xs tol H Rg Ln Rc) as (out & s' & E & H' & Lo & V). rewrite E. cbn [bind]. rewrite (IH x fd s' Hc H' A2). cbn [bind]. f_equal. f_equal. f_equal.
    apply numbered_eq; [auto|]. intros i q Hi. assert (Rq : reachable M (shp2 x) q) by (apply Rc; apply (nth_error_In _ _ Hi)).
    destruct (coords2_eq _ _ _ Hc) as (a & b & Ex & La & Lb). destruct (setup_ok nodes_n nr ns zr zs 1 a b Hr Hs La Lb) as (fd0 & s0 & _ & E0 & _). pose proof (h_setup M nav nodes_n nr ns zr zs 1 a b fd0 s0 La Lb E0) as H0.
    assert (Eh : Shape nr ns zr zs a b = shp2 x) by (rewrite Ex; reflexivity). rewrite Eh in H0. rewrite <- Ex in E0.
    destruct (search_ok M HM nav nav_good nodes_n nr ns zr zs Hr Hs 1 _ fd0 s0 [q] tol H0 Rg) as (out0 & s1 & E1 & _ & _ & V1); [cbn; lia|intros y [<-|[]]; auto|].
    destruct (independent M nav P nodes_n nodes_n nr ns zr zs 1 npt (shp2 x) fd0 fd s0 s [q] xs tol out0 out s1 s' O i q HM nav_good G Hr Hs Hr Hs H0 H Rg ltac:(cbn; lia) Ln ltac:(intros y [<-|[]]; auto) Rc E1 E eq_refl Hi) as (p & P1 & P2).
    rewrite P2. unfold solve2. rewrite E0, E1. destruct out0 as [|p0 out0]; [discriminate|]. injection P1 as ->. reflexivity.
  - destruct A1 as [Ln Lu]. destruct (eval_known M HM P G nodes_n nr ns zr zs Hr Hs npt _ fd s rs u H Ln Lu) as (s' & E & H'). rewrite E. cbn [bind]. rewrite (IH x fd s' Hc H' A2). reflexivity.
Qed.
End C2.
