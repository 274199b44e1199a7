(** Specification of findpts_setup, findpts, findpts_eval on all processes. *)
From Verif Require Import Base Net Transfer TransferSpec Findpts FindptsGlobal FindptsSpec.
From Coq Require Import QArith Qround.
Open Scope nat_scope.

Section User.
Variable F : doubles.
Notation dbl := (dbl F).
Notation result := (result F).
Notation ds := (dsize F).
Variable rnd : Q -> Q.
Variable usize lsize INT_MAX np : nat.
Variable dzero : dbl.
Variable D : nat.
Variable root : nat -> nat.

(** What process p gives to findpts_setup: its elements, with their boxes, the test for a point to
    be near an element and the solver; the sizes of the tables, where nu is an upper bound of
    the number of cells in each direction; the number of points to do at once. *)
Record mesh := Mesh {
  m_obb : list (box F); m_test : nat -> list dbl -> bool; m_solve : nat -> list dbl -> found F;
  m_local_size : nat; m_nu : nat; m_global_size : nat; m_npt : nat }.
Variable M : nat -> mesh.
Definition all_boxes : list (box F) := concat (map (fun p => m_obb (M p)) (seq 0 np)).

(** Everything fits; lb p and gb are the bounds of the boxes of process p and of all boxes, hn is
    the number of cells of the global table in each direction. *)
Record mesh_fits (lb : nat -> box F) (gb : box F) (hn : nat) : Prop := {
  mf_rounding : rounding rnd;
  mf_int : 1 <= usize <= lsize;
  mf_np : 1 <= np < 256 ^ usize;
  mf_max : INT_MAX <= 256 ^ usize;
  mf_dim : 2 <= D;
  mf_npt : forall p, p < np -> 1 <= m_npt (M p);
  mf_r : forall p e x, p < np -> length (f_r F (m_solve (M p) e x)) = D;
  mf_boxes : forall p, p < np -> boxes F D (m_obb (M p));
  mf_lb : forall p, p < np -> bounds F (m_obb (M p)) (lb p);
  mf_gb : bounds F all_boxes gb;
  mf_lclear : forall p b, p < np -> In b (m_obb (M p)) -> clear F rnd (lb p) b;
  mf_gclear : forall p b, p < np -> In b (m_obb (M p)) -> clear F rnd gb b /\ thick_at F rnd hn gb b;
  mf_sizes : forall p, p < np -> sizes_fit F rnd usize (m_nu (M p)) D (lb p) (m_obb (M p));
  mf_sum : fold_right Nat.add 0 (map (fun p => m_global_size (M p)) (seq 0 np)) < 256 ^ lsize;
  mf_hn : hn = root (fold_right Nat.add 0 (map (fun p => m_global_size (M p)) (seq 0 np)));
  mf_hn_range : 1 <= hn /\ 2 * hn ^ D + 8 <= 256 ^ usize;
  mf_cells : exists L, (forall p, p < np -> cells_of F rnd hn gb (m_obb (M p)) (L p)) /\
    total np L * 4 * usize < INT_MAX }.

(** The result of findpts_setup, in every execution. *)
Definition setup_gives (fd : nat -> findpts_data F) : Prop :=
  always_returns (map (fun p => findpts_setup F rnd usize lsize INT_MAX np p dzero D root (m_obb (M p))
      (m_local_size (M p)) (m_nu (M p)) (m_global_size (M p)) (m_test (M p)) (m_solve (M p)) (m_npt (M p)) false 0)
    (seq 0 np)) (map fd (seq 0 np)).
(** The data of a process after setup and any calls of findpts and findpts_eval: these change only
    the points saved for evaluation. *)
Definition data_of (fd : nat -> findpts_data F) : Prop :=
  exists fd0, setup_gives fd0 /\ forall p, p < np -> local F (fd p) = local F (fd0 p) /\ hash F (fd p) = hash F (fd0 p).
Definition forget (d : findpts_data F) : findpts_data F := FD F (local F d) (hash F d) None.

(** The result of findpts, in every execution. *)
Definition findpts_gives (fd : nat -> findpts_data F) (pts : nat -> list (list dbl)) (st st' : nat -> list result) : Prop :=
  always_returns (map (fun p => findpts F rnd usize lsize INT_MAX np p dzero D (fd p) (pts p) (st p)) (seq 0 np))
    (map (fun p => (st' p, forget (fd p))) (seq 0 np)).

(** The points are near enough for their cells to be computed in the tables of all processes, and
    the messages fit: V has all (p,i,q) such that point i of process p may be sent to q. *)
Record points_fit (lb : nat -> box F) (gb : box F) (hn : nat) (pts : nat -> list (list dbl)) : Prop := {
  pf_local : forall p q x n, p < np -> q < np -> In x (pts p) -> 1 <= n -> n ^ D < 256 ^ usize ->
    convertible F rnd usize n (lb q) x;
  pf_global : forall p x, p < np -> In x (pts p) -> convertible F rnd lsize hn gb x;
  pf_total : total np pts * (words_for usize (D * ds + 2 * usize) + 3) * usize < INT_MAX;
  pf_visits : exists V : list (nat * nat * nat),
    (forall p i q x b c, p < np -> q < np -> p <> q -> nth_error (pts p) i = Some x -> In b (m_obb (M q)) ->
       cell_at F rnd hn gb x c -> cell_in_box F rnd hn gb b c -> In (p, i, q) V) /\
    length V * (words_for usize (D * ds + 3 * usize) + 3) * usize < INT_MAX /\
    length V * (words_for usize ((D + 2) * ds + 4 * usize) + 3) * usize < INT_MAX }.

(** Candidates for x: element c2 of process c1, near x; those with x in their box, below the
    upper faces unless these are at the end of the bounds, must be considered. *)
Definition near (x : list dbl) (c : nat * nat) : Prop :=
  fst c < np /\ snd c < length (m_obb (M (fst c))) /\ m_test (M (fst c)) (snd c) x = true.
Definition inside (lb : nat -> box F) (gb : box F) (x : list dbl) (c : nat * nat) : Prop :=
  fst c < np /\ m_test (M (fst c)) (snd c) x = true /\
  exists b, nth_error (m_obb (M (fst c))) (snd c) = Some b /\ in_box F x b /\
    forall n, 1 <= n -> below_top F rnd n (lb (fst c)) b x /\ below_top F rnd n gb b x.
Definition solution (x : list dbl) (c : nat * nat) : found F := m_solve (M (fst c)) (snd c) x.
Definition names (c : nat * nat) (o : result) : Prop := proc F o = fst c /\ el F o = snd c.
(** The result for a point that is not found by process p: the arrays r, dist2 and el are as
    before the call. *)
Definition unfound (p : nat) (o : result) : result :=
  Res F NOT_FOUND p (el F o) (r F o) (dist2 F o) (disti F o) (elsid F o).

(** The result of findpts_eval, in every execution; eval p is the field on process p. *)
Definition eval_gives (fd : nat -> findpts_data F) (eval : nat -> nat -> list dbl -> dbl) (st : nat -> list result)
    (out out' : nat -> list dbl) (fd' : nat -> findpts_data F) : Prop :=
  always_returns (map (fun p => findpts_eval F usize lsize INT_MAX np p D (fd p) (eval p) (st p) (out p)) (seq 0 np))
    (map (fun p => (out' p, fd' p)) (seq 0 np)).
(** The results passed to findpts_eval name elements, and the messages fit. *)
Record results_fit (st : nat -> list result) : Prop := {
  rf_int : 1 <= usize;
  rf_np : np < 256 ^ usize;
  rf_max : INT_MAX <= 256 ^ usize;
  rf_dim : 1 <= D;
  rf_found : forall p o, p < np -> In o (st p) -> code F o <> NOT_FOUND ->
    proc F o < np /\ el F o < 256 ^ usize /\ length (r F o) = D;
  rf_total : total np st * (words_for usize (D * ds + 2 * usize) + 3) * usize < INT_MAX }.
(** The values that findpts_eval has to return: the field at the points found, elsewhere what was
    there. *)
Definition values (eval : nat -> nat -> list dbl -> dbl) (st : nat -> list result) (out out' : nat -> list dbl) : Prop :=
  forall p, p < np -> length (out' p) = length (out p) /\
    forall i o, nth_error (st p) i = Some o -> nth_error (out' p) i =
      if code F o =? NOT_FOUND then nth_error (out p) i else Some (eval (proc F o) (el F o) (r F o)).
End User.
