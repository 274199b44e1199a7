(** Property C48: bounds of polynomials (in exact arithmetic). *)
From Verif Require Import Base BaseLemmas Poly PolySpec PolyImpSyntax PolyImp PolyGll PolyGllSpec PolyGllProof LobBnd LobBndSpec LobBndProof1 LobBndProof6 LobBndSetupProof3 LobBndValid3 LobBndRefute.
From Coq Require Import Reals Lra.
Open Scope R_scope.

(** C48.  What lob_bnd_setup computes: the nodes, the functionals of the projection on linear
    functions, the Chebyshev points and the tangent bounds; nothing else is written. *)
Theorem C48_setup : forall nodes_n n m zs data, (2 <= n)%nat -> (2 <= m)%nat -> lobatto_points nodes_n n zs -> (lob_bnd_size n m <= length data)%nat ->
  exists data', lob_bnd_setup nodes_n data n m = Ok data' /\ length data' = length data /\
    (forall k, (lob_bnd_size n m <= k)%nat -> get data' k = get data k) /\ setup_data zs data' n m.
Proof.
  intros nn n m zs data Hn Hm LP HL. destruct (setup_runs nn n m zs data Hn Hm LP HL) as (d & E & [L O] & SD). exists d. split; [auto|]. split; [auto|]. split; [|auto].
  intros k Hk. apply O. unfold rng. lia.
Qed.
Print Assumptions C48_setup.

(** With 24 nodes at most, lobatto_nodes finds the nodes of the table. *)
Theorem C48_points : forall nodes_n n, (2 <= n <= 24)%nat -> lobatto_points nodes_n n (gll_list n).
Proof. exact gll_points. Qed.
Print Assumptions C48_points.

(** If the piecewise linear functions of lob_bnd_setup bound the basis functions, then lob_bnd_lin_1
    writes for each of the un polynomials piecewise linear bounds. *)
Theorem C48_lin_1 : forall d n m w b u uo un, bound_data d n m ->
  (b + 2 * m * un <= length w)%nat -> (uo + n * un <= length u)%nat ->
  exists w', lob_bnd_lin_1 w b d n m u uo un = Ok w' /\ length w' = length w /\
    (forall k, ~ (b <= k < b + 2 * m * un)%nat -> get w' k = get w k) /\
    forall e k r, (e < un)%nat -> in_cell (point d n) m k r ->
      lerp (point d n) k (grid_1 w' (b + 2 * m * e) 0) r <= poly_1 d n u (uo + n * e) r <= lerp (point d n) k (grid_1 w' (b + 2 * m * e) 1) r.
Proof.
  intros d n m w b u uo un B Hw Hu. destruct (lin_1_bound d n m B w b u uo un Hw Hu) as (w' & E & [L O] & F). exists w'. auto.
Qed.
Print Assumptions C48_lin_1.

(** ... lob_bnd_lin_2 piecewise bilinear ones, ... *)
Theorem C48_lin_2 : forall dr nr mr ds ns ms w b u uo un work, bound_data dr nr mr -> bound_data ds ns ms ->
  (b + 2 * (mr * ms) * un <= length w)%nat -> (work + 2 * mr + 2 * mr * ns <= length w)%nat ->
  (b + 2 * (mr * ms) * un <= work \/ work + 2 * mr + 2 * mr * ns <= b)%nat -> (uo + nr * ns * un <= length u)%nat ->
  exists w', lob_bnd_lin_2 w b dr nr mr ds ns ms u uo un work = Ok w' /\ length w' = length w /\
    (forall k, ~ (b <= k < b + 2 * (mr * ms) * un)%nat -> ~ (work <= k < work + 2 * mr + 2 * mr * ns)%nat -> get w' k = get w k) /\
    forall e k l r s, (e < un)%nat -> in_cell (point dr nr) mr k r -> in_cell (point ds ns) ms l s ->
      lerp (point dr nr) k (fun i => lerp (point ds ns) l (grid_2 w' (b + 2 * (mr * ms) * e) ms 0 i) s) r <=
      poly_2 dr nr ds ns u (uo + nr * ns * e) r s <=
      lerp (point dr nr) k (fun i => lerp (point ds ns) l (grid_2 w' (b + 2 * (mr * ms) * e) ms 1 i) s) r.
Proof.
  intros dr nr mr ds ns ms w b u uo un work BR BS Hw Hk D Hu. destruct (lin_2_bound dr ds nr mr ns ms BR BS w b u uo un work Hw Hk D Hu) as (w' & E & [L O] & F).
  exists w'. split; [auto|]. split; [auto|]. split; [|auto]. intros k H1 H2. apply O. unfold rng. lia.
Qed.
Print Assumptions C48_lin_2.

(** ... and lob_bnd_lin_3 piecewise trilinear ones, if ns*nt <= ms*mt. *)
Theorem C48_lin_3 : forall dr nr mr ds ns ms dt nt mt w b u uo un work, bound_data dr nr mr -> bound_data ds ns ms -> bound_data dt nt mt -> (ns * nt <= ms * mt)%nat ->
  (b + 2 * (mr * ms * mt) * un <= length w)%nat -> (work + 2 * (mr * ms) + 2 * (mr * ms) * nt <= length w)%nat ->
  (b + 2 * (mr * ms * mt) * un <= work \/ work + 2 * (mr * ms) + 2 * (mr * ms) * nt <= b)%nat -> (uo + nr * ns * nt * un <= length u)%nat ->
  exists w', lob_bnd_lin_3 w b dr nr mr ds ns ms dt nt mt u uo un work = Ok w' /\ length w' = length w /\
    (forall k, ~ (b <= k < b + 2 * (mr * ms * mt) * un)%nat -> ~ (work <= k < work + 2 * (mr * ms) + 2 * (mr * ms) * nt)%nat -> get w' k = get w k) /\
    forall e k l q r s t, (e < un)%nat -> in_cell (point dr nr) mr k r -> in_cell (point ds ns) ms l s -> in_cell (point dt nt) mt q t ->
      lerp (point dr nr) k (fun i => lerp (point ds ns) l (fun j => lerp (point dt nt) q (grid_3 w' (b + 2 * (mr * ms * mt) * e) ms mt 0 i j) t) s) r <=
      poly_3 dr nr ds ns dt nt u (uo + nr * ns * nt * e) r s t <=
      lerp (point dr nr) k (fun i => lerp (point ds ns) l (fun j => lerp (point dt nt) q (grid_3 w' (b + 2 * (mr * ms * mt) * e) ms mt 1 i j) t) s) r.
Proof.
  intros dr nr mr ds ns ms dt nt mt w b u uo un work BR BS BT HS Hw Hk D Hu. destruct (lin_3_bound dr ds dt nr mr ns ms nt mt BR BS BT w b u uo un work HS Hw Hk D Hu) as (w' & E & [L O] & F).
  exists w'. split; [auto|]. split; [auto|]. split; [|auto]. intros k H1 H2. apply O. unfold rng. lia.
Qed.
Print Assumptions C48_lin_3.

(** The intervals that lob_bnd_1, lob_bnd_2, lob_bnd_3 return, with the work space of lob_bnd.h,
    contain all values of the polynomial. *)
Theorem C48_interval_1 : forall d n m u uo work, bound_data d n m -> (2 * m <= length work)%nat -> (uo + n <= length u)%nat ->
  exists mn mx work', lob_bnd_1 d n m u uo work = Ok (mn, mx, work') /\ length work' = length work /\
    forall r, -1 <= r <= 1 -> mn <= poly_1 d n u uo r <= mx.
Proof. intros d n m u uo work B. exact (interval_1 d n m B u uo work). Qed.
Print Assumptions C48_interval_1.
Theorem C48_interval_2 : forall dr nr mr ds ns ms u uo work, bound_data dr nr mr -> bound_data ds ns ms ->
  (2 * mr * (ns + ms + 1) <= length work)%nat -> (uo + nr * ns <= length u)%nat ->
  exists mn mx work', lob_bnd_2 dr nr mr ds ns ms u uo work = Ok (mn, mx, work') /\ length work' = length work /\
    forall r s, -1 <= r <= 1 -> -1 <= s <= 1 -> mn <= poly_2 dr nr ds ns u uo r s <= mx.
Proof. intros dr nr mr ds ns ms u uo work BR BS. exact (interval_2 dr ds nr mr ns ms BR BS u uo work). Qed.
Print Assumptions C48_interval_2.
Theorem C48_interval_3 : forall dr nr mr ds ns ms dt nt mt u uo work, bound_data dr nr mr -> bound_data ds ns ms -> bound_data dt nt mt ->
  (ns * nt <= ms * mt)%nat -> (2 * mr * ms * (nt + mt + 1) <= length work)%nat -> (uo + nr * ns * nt <= length u)%nat ->
  exists mn mx work', lob_bnd_3 dr nr mr ds ns ms dt nt mt u uo work = Ok (mn, mx, work') /\ length work' = length work /\
    forall r s t, -1 <= r <= 1 -> -1 <= s <= 1 -> -1 <= t <= 1 -> mn <= poly_3 dr nr ds ns dt nt u uo r s t <= mx.
Proof. intros dr nr mr ds ns ms dt nt mt u uo work BR BS BT. exact (interval_3 dr ds dt nr mr ns ms nt mt BR BS BT u uo work). Qed.
Print Assumptions C48_interval_3.

(** The functions of lob_bnd_setup do bound the basis functions for n = 2 (every m >= 2), n = 3
    (m >= 4) and n = 4 (m >= 7), so all the above holds for them. *)
Theorem C48_small : forall nodes_n n m data, (n = 2 /\ 2 <= m \/ n = 3 /\ 4 <= m \/ n = 4 /\ 7 <= m)%nat -> (lob_bnd_size n m <= length data)%nat ->
  exists data', lob_bnd_setup nodes_n data n m = Ok data' /\ bound_data data' n m /\ forall i, (i < n)%nat -> node data' i = get (gll_list n) i.
Proof.
  intros nn n m data H HL. destruct (small_valid nn n m data H HL) as (d & E & B & SD). exists d. split; [auto|]. split; [auto|]. apply (sd_node _ _ _ _ SD).
Qed.
Print Assumptions C48_small.

(** m > n ("we expect m>n", lob_bnd.h:24) is not enough: with n = 4 and m = 5 the interval for the
    values -8, -20, 9, 19 ends below a value of the polynomial. *)
Theorem C48_more_points_refuted : forall nodes_n data work, (lob_bnd_size 4 5 <= length data)%nat -> (10 <= length work)%nat ->
  exists data' mn mx work', lob_bnd_setup nodes_n data 4 5 = Ok data' /\ lob_bnd_1 data' 4 5 [-8; -20; 9; 19] 0 work = Ok (mn, mx, work') /\
    mx < poly_1 data' 4 [-8; -20; 9; 19] 0 (19 / 20).
Proof. exact too_small. Qed.
Print Assumptions C48_more_points_refuted.

(** Non-vacuity: an interval for three nodes and eight points, all hypotheses met. *)
Example C48_case : exists data mn mx work, lob_bnd_setup (fun a _ => Ok a) (repeat 0 (lob_bnd_size 3 8)) 3 8 = Ok data /\
  lob_bnd_1 data 3 8 [1; 2; -5] 0 (repeat 0 16) = Ok (mn, mx, work) /\ forall r, -1 <= r <= 1 -> mn <= poly_1 data 3 [1; 2; -5] 0 r <= mx.
Proof.
  destruct (C48_small (fun a _ => Ok a) 3 8 (repeat 0 (lob_bnd_size 3 8))) as (d & E & B & _); [lia|rewrite repeat_length; lia|].
  destruct (C48_interval_1 d 3 8 [1; 2; -5] 0 (repeat 0 16) B) as (mn & mx & w & E1 & _ & F); [rewrite repeat_length; lia|cbn; lia|].
  exists d, mn, mx, w. auto.
Qed.
(** And in three dimensions with different sizes. *)
Example C48_case_3 : forall u, (24 <= length u)%nat -> exists dr ds dt mn mx work,
  lob_bnd_setup (fun a _ => Ok a) (repeat 0 (lob_bnd_size 4 16)) 4 16 = Ok dr /\
  lob_bnd_setup (fun a _ => Ok a) (repeat 0 (lob_bnd_size 3 12)) 3 12 = Ok ds /\
  lob_bnd_setup (fun a _ => Ok a) (repeat 0 (lob_bnd_size 2 8)) 2 8 = Ok dt /\
  lob_bnd_3 dr 4 16 ds 3 12 dt 2 8 u 0 (repeat 0 (2 * 16 * 12 * (2 + 8 + 1))) = Ok (mn, mx, work) /\
  forall r s t, -1 <= r <= 1 -> -1 <= s <= 1 -> -1 <= t <= 1 -> mn <= poly_3 dr 4 ds 3 dt 2 u 0 r s t <= mx.
Proof.
  intros u Hu.
  destruct (C48_small (fun a _ => Ok a) 4 16 (repeat 0 (lob_bnd_size 4 16))) as (dr & Er & BR & _); [lia|rewrite repeat_length; lia|].
  destruct (C48_small (fun a _ => Ok a) 3 12 (repeat 0 (lob_bnd_size 3 12))) as (ds & Es & BS & _); [lia|rewrite repeat_length; lia|].
  destruct (C48_small (fun a _ => Ok a) 2 8 (repeat 0 (lob_bnd_size 2 8))) as (dt & Et & BT & _); [lia|rewrite repeat_length; lia|].
  destruct (C48_interval_3 dr 4 16 ds 3 12 dt 2 8 u 0 (repeat 0 (2 * 16 * 12 * (2 + 8 + 1))) BR BS BT) as (mn & mx & w & E1 & _ & F); [lia|rewrite repeat_length; lia|lia|].
  exists dr, ds, dt, mn, mx, w. auto 10.
Qed.
