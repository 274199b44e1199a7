(** Specification of findptsms_setup and findptsms: each process belongs to a session (sid), each
    point too (psid). *)
From Verif Require Import Base Net Transfer TransferSpec Findpts FindptsGlobal FindptsMs FindptsSpec FindptsUserSpec.
From Coq Require Import QArith Qround.
Open Scope nat_scope.

Section Ms.
Variable F : doubles.
Notation dbl := (dbl F).
Notation result := (result F).
Notation val := (val F).
Variable rnd : Q -> Q.
Variable usize lsize INT_MAX np : nat.
Variable dzero : dbl.
Variable D : nat.
Variable root : nat -> nat.
Variable M : nat -> mesh F.
Variable sid : nat -> nat.

(** The result of findptsms_setup, in every execution. *)
Definition setup_gives_ms (fd : nat -> findpts_data F) : Prop :=
  always_returns (map (fun p => findpts_setup F rnd usize lsize INT_MAX np p dzero D root (m_obb F (M p))
      (m_local_size F (M p)) (m_nu F (M p)) (m_global_size F (M p)) (m_test F (M p)) (m_solve F (M p)) (m_npt F (M p)) true (sid p))
    (seq 0 np)) (map fd (seq 0 np)).
(** The data of a process after setup and any calls of findptsms and findptsms_eval. *)
Definition data_of_ms (fd : nat -> findpts_data F) : Prop :=
  exists fd0, setup_gives_ms fd0 /\ forall p, p < np -> local F (fd p) = local F (fd0 p) /\ hash F (fd p) = hash F (fd0 p).
(** The result of findptsms, in every execution. *)
Definition findptsms_gives (fd : nat -> findpts_data F) (sessm : nat) (pts : nat -> list (point F)) (st st' : nat -> list result) : Prop :=
  always_returns (map (fun p => findptsms F rnd usize lsize INT_MAX np p dzero D (fd p) sessm (pts p) (st p)) (seq 0 np))
    (map (fun p => (st' p, forget F (fd p))) (seq 0 np)).

(** A point of session s is looked for on the processes of its own session if
    session_id_match=1, otherwise on those of all other sessions. *)
Definition allowed (sessm s : nat) (q : nat) : Prop := if sessm =? 1 then sid q = s else sid q <> s.
Definition near_ms (sessm : nat) (y : point F) (c : nat * nat) : Prop :=
  near F np M (px F y) c /\ allowed sessm (psid F y) (fst c).
Definition inside_ms (lb : nat -> box F) (gb : box F) (sessm : nat) (y : point F) (c : nat * nat) : Prop :=
  inside F rnd np M lb gb (px F y) c /\ allowed sessm (psid F y) (fst c).

(** Candidate c wins in its session: it is inside its element, or no candidate of the session that
    must be considered is, and none is closer. *)
Definition session_best (must : nat * nat -> Prop) (sol : nat * nat -> found F) (c : nat * nat) : Prop :=
  forall c', must c' -> sid (fst c') = sid (fst c) ->
    f_internal F (sol c) = true \/ (f_internal F (sol c') = false /\ (val (f_dist2 F (sol c)) <= val (f_dist2 F (sol c')))%Q).
(** The answer for one point: the candidate that wins in its session, and whose session has the
    greatest value of the interface distance of the winners. *)
Definition answer_ms (may must : nat * nat -> Prop) (sol : nat * nat -> found F) (none o : result) : Prop :=
  (o = none /\ code F o = NOT_FOUND /\ forall c, ~ must c) \/
  (exists c, may c /\ names F c o /\ r F o = f_r F (sol c) /\ dist2 F o = f_dist2 F (sol c) /\
     code F o = (if f_internal F (sol c) then INTERNAL else BORDER) /\ session_best must sol c /\
   forall c', must c' -> exists w, may w /\ sid (fst w) = sid (fst c') /\ session_best must sol w /\
     (val (f_disti F (sol w)) <= val (f_disti F (sol c)))%Q).
End Ms.
