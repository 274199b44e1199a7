From Verif Require Import Base Tensor TensorSpec.
From Coq Require Import Ring.

Section P.
Variable A : Type.
Variable zero one : A.
Variable add mul sub : A -> A -> A.
Variable opp : A -> A.
Variable Rth : ring_theory zero one add mul sub opp (@eq A).
Add Ring Aring : Rth.
Notation arr := (list A).
Notation sum := (sum A zero add).
Notation get := (get A zero).
Infix "+!" := add (at level 50, left associativity).
Infix "*!" := mul (at level 40, left associativity).

Lemma sum_ext n f g : (forall i, i < n -> f i = g i) -> sum n f = sum n g.
Proof. induction n as [|n IH]; intros H; cbn [TensorSpec.sum]; auto. rewrite IH, H; auto. Qed.
Lemma sum_shift n f : sum (S n) f = f 0 +! sum n (fun i => f (S i)).
Proof. induction n as [|n IH]; [cbn; ring|]. cbn [TensorSpec.sum] in *. rewrite IH. ring. Qed.
Lemma sum_mul n c f : c *! sum n f = sum n (fun i => c *! f i).
Proof. induction n as [|n IH]; cbn [TensorSpec.sum]; [ring|]. rewrite <- IH. ring. Qed.
Lemma sum_add n f g : sum n f +! sum n g = sum n (fun i => f i +! g i).
Proof. induction n as [|n IH]; cbn [TensorSpec.sum]; [ring|]. rewrite <- IH. ring. Qed.
Lemma sum_zero n : sum n (fun _ => zero) = zero.
Proof. induction n as [|n IH]; cbn [TensorSpec.sum]; [auto|]. rewrite IH. ring. Qed.
Lemma sum_swap m n f : sum m (fun i => sum n (fun j => f i j)) = sum n (fun j => sum m (fun i => f i j)).
Proof.
  induction m as [|m IH]; cbn [TensorSpec.sum]; [rewrite sum_zero; auto|]. rewrite IH, sum_add. reflexivity.
Qed.

Lemma get_skipn a k i : get (skipn k a) i = get a (k + i).
Proof.
  unfold TensorSpec.get. revert a. induction k as [|k IH]; intros [|x a]; auto; cbn [skipn Nat.add nth]; [destruct i; auto|apply IH].
Qed.
Lemma get_firstn a k i : i < k -> get (firstn k a) i = get a i.
Proof.
  unfold TensorSpec.get. revert a i. induction k as [|k IH]; intros [|x a] [|i] H; auto; try lia. cbn. apply IH. lia.
Qed.
Lemma get_app a b i : get (a ++ b) i = if i <? length a then get a i else get b (i - length a).
Proof.
  unfold TensorSpec.get. destruct (Nat.ltb_spec i (length a)); [apply app_nth1; auto|apply app_nth2; auto].
Qed.

Lemma dot_ok n : forall a b s, n <= length a -> n <= length b ->
  dot_loop A add mul n a b s = Ok (s +! sum n (fun i => get a i *! get b i)).
Proof.
  induction n as [|n IH]; intros a b s Ha Hb; [cbn; f_equal; ring|].
  destruct a as [|x a]; [cbn in Ha; lia|]. destruct b as [|y b]; [cbn in Hb; lia|]. cbn [dot_loop length] in *.
  rewrite IH by lia. f_equal. rewrite sum_shift. cbn [TensorSpec.get nth]. unfold TensorSpec.get. cbn [nth]. ring.
Qed.
Lemma tensor_dot_ok a b n : n <= length a -> n <= length b ->
  tensor_dot A zero add mul a b n = Ok (sum n (fun i => get a i *! get b i)).
Proof. intros. unfold tensor_dot. rewrite dot_ok by auto. f_equal. ring. Qed.

Lemma clear_ok n : forall y, n <= length y -> exists y', clear A zero n y = Ok y' /\ written A zero y y' n (fun _ => zero).
Proof.
  induction n as [|n IH]; intros y H.
  - exists y. split; auto. split; auto. split; [lia|auto].
  - destruct y as [|x y]; [cbn in H; lia|]. cbn [clear length] in *. destruct (IH y ltac:(lia)) as (y' & E & L & H1 & H2). rewrite E.
    cbn [bind]. eexists. split; [reflexivity|]. split; [cbn; lia|]. unfold TensorSpec.get in *. split; intros [|i] Hi; cbn [nth]; auto; try lia.
    + apply H1. lia.
    + apply H2. lia.
Qed.
Lemma axpy_ok n : forall y M x, n <= length y -> n <= length M ->
  exists y', axpy A add mul n y M x = Ok (y', skipn n M) /\ written A zero y y' n (fun i => get y i +! get M i *! x).
Proof.
  induction n as [|n IH]; intros y M x Hy HM.
  - exists y. split; auto. split; auto. split; [lia|auto].
  - destruct y as [|y0 y]; [cbn in Hy; lia|]. destruct M as [|a M]; [cbn in HM; lia|]. cbn [axpy length] in *.
    destruct (IH y M x ltac:(lia) ltac:(lia)) as (y' & E & L & H1 & H2). rewrite E. cbn [bind skipn].
    eexists. split; [reflexivity|]. split; [cbn; lia|]. unfold TensorSpec.get in *. split; intros [|i] Hi; cbn [nth]; auto; try lia.
    + apply H1. lia.
    + apply H2. lia.
Qed.
Lemma axpys_ok nk n : forall y M X, n <= length y -> nk * n <= length M -> nk <= length X ->
  exists y', axpys A add mul nk n y M X = Ok (y', skipn nk X) /\
    written A zero y y' n (fun i => get y i +! sum nk (fun k => get M (i + k * n) *! get X k)).
Proof.
  induction nk as [|nk IH]; intros y M X Hy HM HX.
  - exists y. split; auto. split; auto. split; [|auto]. intros i Hi. cbn. ring.
  - destruct X as [|x X]; [cbn in HX; lia|]. cbn [axpys length] in *.
    destruct (axpy_ok n y M x Hy ltac:(lia)) as (y1 & E & L1 & H1 & H2). rewrite E. cbn [bind].
    destruct (IH y1 (skipn n M) X ltac:(lia)) as (y2 & E2 & L2 & H3 & H4); [rewrite skipn_length; lia|lia|].
    rewrite E2. exists y2. split; [auto|]. split; [lia|]. split; intros i Hi.
    + rewrite H3, H1, sum_shift by auto. change (get (x :: X) 0) with x. replace (i + 0 * n) with i by lia.
      rewrite (sum_ext nk (fun k => get (skipn n M) (i + k * n) *! get X k) (fun k => get M (i + S k * n) *! get (x :: X) (S k))); [ring|].
      intros k Hk. rewrite get_skipn. f_equal. f_equal. lia.
    + rewrite H4, H2 by auto. auto.
Qed.

Lemma naive_mxv_ok y ny M x nx : ny <= length y -> ny * nx <= length M -> nx <= length x ->
  exists y', naive_mxv A zero add mul y ny M x nx = Ok y' /\ written A zero y y' ny (fun i => MB A zero add mul ny M nx x i 0).
Proof.
  intros Hy HM Hx. unfold naive_mxv. destruct (clear_ok ny y Hy) as (y1 & E1 & L1 & H1 & H2). rewrite E1. cbn [bind].
  destruct (axpys_ok nx ny y1 M x ltac:(lia) ltac:(nia) Hx) as (y2 & E2 & L2 & H3 & H4). rewrite E2. cbn [bind].
  exists y2. split; auto. split; [lia|]. split; intros i Hi.
  - rewrite H3, H1 by auto. unfold MB. rewrite (sum_ext nx _ (fun k => get M (i + k * ny) *! get x (k + 0 * nx))); [ring|].
    intros k Hk. f_equal. f_equal. lia.
  - rewrite H4, H2 by auto. auto.
Qed.

Lemma naive_mtxv_ok ny : forall y M x nx, 1 <= nx -> ny <= length y -> ny * nx <= length M -> nx <= length x ->
  exists y', naive_mtxv A add mul y ny M x nx = Ok y' /\ written A zero y y' ny (fun i => MtB A zero add mul M nx x i 0).
Proof.
  induction ny as [|ny IH]; intros y M x nx Hn Hy HM Hx.
  - exists y. split; auto. split; auto. split; [lia|auto].
  - destruct nx as [|n]; [lia|]. destruct x as [|x0 x]; [cbn in Hx; lia|]. destruct y as [|y0 y]; [cbn in Hy; lia|].
    destruct M as [|a M]; [cbn in HM; lia|]. cbn [naive_mtxv length] in *. rewrite dot_ok by lia. cbn [bind].
    destruct (IH y (skipn n M) (x0 :: x) (S n) ltac:(lia) ltac:(lia)) as (y' & E & L & H1 & H2); [rewrite skipn_length; lia|cbn; lia|].
    rewrite E. cbn [bind]. eexists. split; [reflexivity|]. split; [cbn; lia|]. split; intros [|i] Hi; try lia.
    + unfold MtB. rewrite sum_shift. unfold TensorSpec.get. cbn [nth]. f_equal. apply sum_ext. intros k Hk.
      replace (S k + 0 * S n) with (S k) by lia. reflexivity.
    + change (get y' i = MtB A zero add mul (a :: M) (S n) (x0 :: x) (S i) 0). rewrite H1 by lia. unfold MtB. apply sum_ext. intros k Hk.
      f_equal. rewrite get_skipn. replace (k + S i * S n) with (S (n + (k + i * S n))) by lia. reflexivity.
    + change (get y' i = get y i). apply H2. lia.
Qed.

Lemma written_skip_firstn a a' n f : written A zero a a' n f -> n <= length a -> written A zero (firstn n a) (firstn n a') n f.
Proof.
  intros (L & H1 & H2) Hn. split; [rewrite !firstn_length; lia|]. split; intros i Hi.
  - rewrite get_firstn by auto. auto.
  - unfold TensorSpec.get. rewrite !nth_overflow; auto; rewrite firstn_length; lia.
Qed.

Lemma mxm_cols_ok nb nc na : forall C M B, nc * nb <= length C -> nc * na <= length M -> na * nb <= length B ->
  (forall i, i < nc * nb -> get C i = zero) ->
  exists C', mxm_cols A add mul nb nc na C M B = Ok C' /\ written_mat A zero C C' nc nb (MB A zero add mul nc M na B).
Proof.
  induction nb as [|nb IH]; intros C M B HC HM HB Hz.
  - exists C. split; auto. split; auto. split; [lia|auto].
  - cbn [mxm_cols]. destruct (axpys_ok na nc C M B ltac:(nia) ltac:(nia) ltac:(nia)) as (C1 & E1 & L1 & H1 & H2). rewrite E1. cbn [bind].
    destruct (IH (skipn nc C1) M (skipn na B)) as (C2 & E2 & L2 & H3 & H4); [rewrite skipn_length; nia|auto|rewrite skipn_length; nia| |].
    { intros i Hi. rewrite get_skipn, H2 by lia. apply Hz. nia. }
    rewrite E2. cbn [bind]. eexists. split; [reflexivity|].
    assert (Lf : length (firstn nc C1) = nc) by (rewrite firstn_length; nia). rewrite skipn_length in L2.
    split; [rewrite app_length; nia|]. split.
    + intros i j Hi Hj. rewrite get_app, Lf. destruct j as [|j].
      * rewrite (proj2 (Nat.ltb_lt _ _)) by lia. rewrite get_firstn by lia. replace (i + 0 * nc) with i by lia. rewrite H1, Hz by nia.
        unfold MB. rewrite (sum_ext na _ (fun k => get M (i + k * nc) *! get B (k + 0 * na))); [ring|]. intros k Hk. f_equal. f_equal. lia.
      * rewrite (proj2 (Nat.ltb_ge _ _)) by lia. replace (i + S j * nc - nc) with (i + j * nc) by lia. rewrite H3 by lia. unfold MB.
        apply sum_ext. intros k Hk. f_equal. rewrite get_skipn. f_equal. lia.
    + intros i Hi. rewrite get_app, Lf. rewrite (proj2 (Nat.ltb_ge _ _)) by nia. rewrite H4 by nia. rewrite get_skipn. rewrite H2 by lia. f_equal. nia.
Qed.
Lemma naive_mxm_ok C nc M na B nb : nc * nb <= length C -> nc * na <= length M -> na * nb <= length B ->
  exists C', naive_mxm A zero add mul C nc M na B nb = Ok C' /\ written_mat A zero C C' nc nb (MB A zero add mul nc M na B).
Proof.
  intros HC HM HB. unfold naive_mxm. destruct (clear_ok (nc * nb) C HC) as (C1 & E1 & L1 & H1 & H2). rewrite E1. cbn [bind].
  destruct (mxm_cols_ok nb nc na C1 M B ltac:(lia) HM HB H1) as (C2 & E2 & L2 & H3 & H4). rewrite E2. exists C2. split; auto.
  split; [lia|]. split; auto. intros i Hi. rewrite H4, H2; auto.
Qed.

Lemma naive_good : good A zero add mul (naive A zero add mul).
Proof.
  constructor; cbn [naive mxv mtxv mxm].
  - apply naive_mxv_ok.
  - intros y ny M x nx. apply naive_mtxv_ok.
  - apply naive_mxm_ok.
Qed.

(** A user's routine mxm (the default of tensor.h): C (na x nc) = M (na x nb) * B (nb x nc). *)
Definition right_mxm (f : arr -> nat -> arr -> nat -> arr -> nat -> res arr) : Prop :=
  forall M na B nb C nc, na * nc <= length C -> na * nb <= length M -> nb * nc <= length B ->
    exists C', f M na B nb C nc = Ok C' /\ written_mat A zero C C' na nc (MB A zero add mul na M nb B).
Lemma with_mxm_good f : right_mxm f -> good A zero add mul (with_mxm A f).
Proof.
  intros H. constructor; cbn [with_mxm mxv mtxv mxm].
  - intros y ny M x nx Hy HM Hx. destruct (H M ny x nx y 1) as (C' & E & L & H1 & H2); try lia. exists C'. split; auto. split; auto. split.
    + intros i Hi. rewrite <- (H1 i 0 Hi ltac:(lia)). f_equal. lia.
    + intros i Hi. apply H2. lia.
  - intros y ny M x nx Hn Hy HM Hx. destruct (H x 1 M nx y ny) as (C' & E & L & H1 & H2); try lia. exists C'. split; auto. split; auto. split.
    + intros i Hi. replace i with (0 + i * 1) at 1 by lia. rewrite (H1 0 i ltac:(lia) Hi). unfold MB, MtB. apply sum_ext. intros k Hk.
      replace (0 + k * 1) with (k + 0 * nx) by lia. ring.
    + intros i Hi. apply H2. lia.
  - intros C nc M na B nb HC HM HB. apply H; lia.
Qed.

Lemma mtxm_rows_ok nc na : forall M B, nc * na <= length M -> na <= length B ->
  exists l, mtxm_rows A zero add mul nc na M B = Ok l /\ length l = nc /\ forall i, i < nc -> get l i = MtB A zero add mul M na B i 0.
Proof.
  induction nc as [|nc IH]; intros M B HM HB.
  - exists []. cbn. repeat split; auto. lia.
  - cbn [mtxm_rows]. rewrite tensor_dot_ok by nia. cbn [bind]. destruct (IH (skipn na M) B) as (l & E & L & H1); [rewrite skipn_length; nia|auto|].
    rewrite E. cbn [bind]. eexists. split; [reflexivity|]. split; [cbn; lia|]. intros [|i] Hi; unfold TensorSpec.get at 1; cbn [nth].
    + unfold MtB. apply sum_ext. intros k Hk. f_equal; f_equal; lia.
    + change (get l i = MtB A zero add mul M na B (S i) 0). rewrite H1 by lia. unfold MtB. apply sum_ext. intros k Hk. rewrite get_skipn. f_equal. f_equal. lia.
Qed.
Lemma mtxm_cols_ok nb nc na : forall M B, nc * na <= length M -> nb * na <= length B ->
  exists l, mtxm_cols A zero add mul nb nc na M B = Ok l /\ length l = nc * nb /\
    forall i j, i < nc -> j < nb -> get l (i + j * nc) = MtB A zero add mul M na B i j.
Proof.
  induction nb as [|nb IH]; intros M B HM HB.
  - exists []. cbn. split; auto. split; [lia|]. intros; lia.
  - cbn [mtxm_cols]. destruct (mtxm_rows_ok nc na M B HM ltac:(nia)) as (l1 & E1 & L1 & H1). rewrite E1. cbn [bind].
    destruct (IH M (skipn na B) HM) as (l2 & E2 & L2 & H2); [rewrite skipn_length; nia|]. rewrite E2. cbn [bind].
    eexists. split; [reflexivity|]. split; [rewrite app_length; nia|]. intros i [|j] Hi Hj; rewrite get_app, L1.
    + rewrite (proj2 (Nat.ltb_lt _ _)) by lia. replace (i + 0 * nc) with i by lia. auto.
    + rewrite (proj2 (Nat.ltb_ge _ _)) by lia. replace (i + S j * nc - nc) with (i + j * nc) by lia. rewrite H2 by lia.
      unfold MtB. apply sum_ext. intros k Hk. rewrite get_skipn. f_equal. f_equal. lia.
Qed.
Lemma tensor_mtxm_ok C nc M na B nb : nc * nb <= length C -> nc * na <= length M -> na * nb <= length B ->
  exists C', tensor_mtxm A zero add mul C nc M na B nb = Ok C' /\ written_mat A zero C C' nc nb (MtB A zero add mul M na B).
Proof.
  intros HC HM HB. unfold tensor_mtxm. destruct (mtxm_cols_ok nb nc na M B HM ltac:(lia)) as (l & E & L & H). rewrite E. cbn [bind].
  rewrite (proj2 (Nat.leb_le _ _)) by lia. eexists. split; [reflexivity|]. split; [rewrite app_length, skipn_length; lia|]. split.
  - intros i j Hi Hj. rewrite get_app, (proj2 (Nat.ltb_lt _ _)) by nia. auto.
  - intros i Hi. rewrite get_app, (proj2 (Nat.ltb_ge _ _)) by nia. rewrite get_skipn. f_equal. lia.
Qed.

(** *** Contractions *)
Section With.
Variable P : products A.
Variable G : good A zero add mul P.
Notation apply1 := (apply1 A zero add mul).
Notation apply2 := (apply2 A zero add mul).
Notation apply3 := (apply3 A zero add mul).
Notation row := (row A zero).

Lemma i1_ok Jr nr u : nr <= length Jr -> nr <= length u -> tensor_i1 A zero add mul Jr nr u = Ok (apply1 (get Jr) nr u).
Proof. intros. unfold tensor_i1. rewrite tensor_dot_ok by auto. reflexivity. Qed.

Lemma i2_ok Jr nr Js ns u work : 1 <= nr -> nr <= length Jr -> ns <= length Js -> nr * ns <= length u -> ns <= length work ->
  tensor_i2 A zero add mul P Jr nr Js ns u work = Ok (apply2 (get Jr) nr (get Js) ns u).
Proof.
  intros Hn HJ HS Hu Hw. unfold tensor_i2. destruct (good_mtxv _ _ _ _ _ G work ns u Jr nr Hn Hw ltac:(nia) HJ) as (w & E & L & H1 & H2). rewrite E. cbn [bind].
  rewrite tensor_dot_ok by lia. f_equal. unfold TensorSpec.apply2. apply sum_ext. intros j Hj. rewrite H1 by auto. unfold MtB. rewrite sum_mul.
  apply sum_ext. intros i Hi. replace (i + 0 * nr) with i by lia. rewrite (Nat.mul_comm j nr). ring.
Qed.

Lemma i3_ok Jr nr Js ns Jt nt u work : 1 <= nr -> 1 <= ns -> nr <= length Jr -> ns <= length Js -> nt <= length Jt ->
  nr * ns * nt <= length u -> ns * nt + nt <= length work ->
  tensor_i3 A zero add mul P Jr nr Js ns Jt nt u work = Ok (apply3 (get Jr) nr (get Js) ns (get Jt) nt u).
Proof.
  intros Hn Hns HJ HS HT Hu Hw. unfold tensor_i3.
  destruct (good_mtxv _ _ _ _ _ G (skipn nt work) (ns * nt) u Jr nr Hn) as (w2 & E2 & L2 & H1 & _); [rewrite skipn_length; lia|nia|auto|]. rewrite E2. cbn [bind].
  rewrite skipn_length in L2.
  destruct (good_mtxv _ _ _ _ _ G (firstn nt work) nt w2 Js ns Hns) as (w & E & L & H3 & _); [rewrite firstn_length; lia|nia|auto|]. rewrite E. cbn [bind].
  rewrite firstn_length in L. rewrite tensor_dot_ok by lia. f_equal. unfold TensorSpec.apply3. apply sum_ext. intros k Hk. rewrite H3 by auto. unfold MtB. rewrite sum_mul.
  apply sum_ext. intros j Hj. rewrite H1 by nia. unfold MtB.
  transitivity ((get Jt k *! get Js j) *! sum nr (fun i => get u (i + (j + k * ns) * nr) *! get Jr (i + 0 * nr))).
  { replace (j + 0 * ns) with j by lia. ring. }
  rewrite sum_mul. apply sum_ext. intros i Hi. replace (i + 0 * nr) with i by lia. replace (i + (j + k * ns) * nr) with (i + nr * (j + ns * k)) by lia. ring.
Qed.

Lemma get_row w n l i : get (skipn (l * n) w) i = row w n l i.
Proof. rewrite get_skipn. reflexivity. Qed.

Lemma ig1_ok wtr nr u : 2 * nr <= length wtr -> nr <= length u ->
  tensor_ig1 A zero add mul wtr nr u = Ok (apply1 (row wtr nr 0) nr u, [apply1 (row wtr nr 1) nr u]).
Proof.
  intros Hw Hu. unfold tensor_ig1. rewrite (tensor_dot_ok (skipn nr wtr) u nr) by (auto; rewrite skipn_length; lia). cbn [bind].
  rewrite tensor_dot_ok by lia. cbn [bind]. f_equal. f_equal. f_equal. unfold TensorSpec.apply1. apply sum_ext. intros i Hi. rewrite get_skipn.
  unfold TensorSpec.row. do 2 f_equal. lia.
Qed.

(** Evaluating Y first: (Σ_j u(.,j) Y(j)) dotted with X. *)
Lemma fold2 X nr Y ns u : 
  sum nr (fun i => X i *! sum ns (fun j => get u (i + j * nr) *! Y j)) = apply2 X nr Y ns u.
Proof.
  unfold TensorSpec.apply2. rewrite <- sum_swap. apply sum_ext. intros i Hi. rewrite sum_mul. apply sum_ext. intros j Hj. rewrite (Nat.mul_comm nr j). ring.
Qed.

Lemma ig2_ok wtr nr wts ns u work : 2 * nr <= length wtr -> 2 * ns <= length wts -> nr * ns <= length u -> 2 * nr <= length work ->
  tensor_ig2 A zero add mul P wtr nr wts ns u work =
    Ok (apply2 (row wtr nr 0) nr (row wts ns 0) ns u,
        [apply2 (row wtr nr 1) nr (row wts ns 0) ns u; apply2 (row wtr nr 0) nr (row wts ns 1) ns u]).
Proof.
  intros Hr Hs Hu Hw. unfold tensor_ig2. destruct (good_mxm _ _ _ _ _ G work nr u ns wts 2 ltac:(lia) Hu ltac:(lia)) as (w & E & L & H1 & _). rewrite E. cbn [bind].
  rewrite (tensor_dot_ok (skipn nr wtr) w nr) by (rewrite ?skipn_length; lia). cbn [bind].
  rewrite (tensor_dot_ok wtr (skipn nr w) nr) by (rewrite ?skipn_length; lia). cbn [bind].
  rewrite (tensor_dot_ok wtr w nr) by lia. cbn [bind].
  assert (W : forall l i, l < 2 -> i < nr -> get w (l * nr + i) = sum ns (fun j => get u (i + j * nr) *! row wts ns l j)).
  { intros l i Hl Hi. rewrite (Nat.add_comm (l * nr)), H1 by auto. unfold MB. apply sum_ext. intros j Hj. unfold TensorSpec.row. do 2 f_equal. lia. }
  f_equal. f_equal; [|f_equal; [|f_equal]].
  - rewrite <- fold2. apply sum_ext. intros i Hi. rewrite <- (W 0) by lia. unfold TensorSpec.row. reflexivity.
  - rewrite <- fold2. apply sum_ext. intros i Hi. rewrite <- (W 0) by lia. rewrite get_skipn. unfold TensorSpec.row. rewrite Nat.mul_1_l. reflexivity.
  - rewrite <- fold2. apply sum_ext. intros i Hi. rewrite <- (W 1) by lia. rewrite get_skipn. unfold TensorSpec.row. rewrite Nat.mul_1_l. reflexivity.
Qed.

Lemma fold3 X nr Y ns Z nt u : 
  sum nr (fun i => X i *! sum ns (fun j => sum nt (fun k => get u ((i + j * nr) + k * (nr * ns)) *! Z k) *! Y j)) = apply3 X nr Y ns Z nt u.
Proof.
  unfold TensorSpec.apply3.
  rewrite (sum_ext nt _ (fun k => sum nr (fun i => sum ns (fun j => X i *! Y j *! Z k *! get u (i + nr * (j + ns * k)))))) by (intros k Hk; apply sum_swap).
  rewrite <- sum_swap. apply sum_ext. intros i Hi. rewrite <- sum_swap, sum_mul. apply sum_ext. intros j Hj.
  transitivity ((X i *! Y j) *! sum nt (fun k => get u ((i + j * nr) + k * (nr * ns)) *! Z k)); [ring|]. rewrite sum_mul.
  apply sum_ext. intros k Hk. replace (i + j * nr + k * (nr * ns)) with (i + nr * (j + ns * k)) by lia. ring.
Qed.

Lemma ig3_ok wtr nr wts ns wtt nt u work : 2 * nr <= length wtr -> 2 * ns <= length wts -> 2 * nt <= length wtt -> nr * ns * nt <= length u ->
  2 * nr * ns + 3 * nr <= length work ->
  tensor_ig3 A zero add mul P wtr nr wts ns wtt nt u work =
    Ok (apply3 (row wtr nr 0) nr (row wts ns 0) ns (row wtt nt 0) nt u,
        [apply3 (row wtr nr 1) nr (row wts ns 0) ns (row wtt nt 0) nt u;
         apply3 (row wtr nr 0) nr (row wts ns 1) ns (row wtt nt 0) nt u;
         apply3 (row wtr nr 0) nr (row wts ns 0) ns (row wtt nt 1) nt u]).
Proof.
  intros Hr Hs Ht Hu Hw. unfold tensor_ig3. cbv zeta. set (nrs := nr * ns) in *.
  destruct (good_mxm _ _ _ _ _ G (firstn (2 * nrs) work) nrs u nt wtt 2) as (a & Ea & La & A1 & _); [rewrite firstn_length; lia|auto|lia|]. rewrite Ea. cbn [bind].
  rewrite firstn_length in La.
  destruct (good_mxm _ _ _ _ _ G (firstn (2 * nr) (skipn (2 * nrs) work)) nr a ns wts 2) as (b & Eb & Lb & B1 & _); [rewrite firstn_length, skipn_length; lia|lia|lia|]. rewrite Eb. cbn [bind].
  rewrite firstn_length, skipn_length in Lb.
  destruct (good_mxv _ _ _ _ _ G (skipn (2 * nr) (skipn (2 * nrs) work)) nr (skipn nrs a) wts ns) as (c & Ec & Lc & C1 & _); [rewrite !skipn_length; lia|rewrite skipn_length; lia|lia|]. rewrite Ec. cbn [bind].
  rewrite !skipn_length in Lc.
  rewrite (tensor_dot_ok b (skipn nr wtr) nr) by (rewrite ?skipn_length; lia). cbn [bind].
  rewrite (tensor_dot_ok (skipn nr b) wtr nr) by (rewrite ?skipn_length; lia). cbn [bind].
  rewrite (tensor_dot_ok c wtr nr) by lia. cbn [bind]. rewrite (tensor_dot_ok b wtr nr) by lia. cbn [bind].
  assert (Wa : forall l i j, l < 2 -> i < nr -> j < ns -> get a (i + j * nr + l * nrs) = sum nt (fun k => get u ((i + j * nr) + k * nrs) *! row wtt nt l k)).
  { intros l i j Hl Hi Hj. rewrite A1 by (unfold nrs; nia). unfold MB. apply sum_ext. intros k Hk. unfold TensorSpec.row. do 2 f_equal. lia. }
  assert (Wb : forall l i, l < 2 -> i < nr -> get b (l * nr + i) = sum ns (fun j => sum nt (fun k => get u ((i + j * nr) + k * nrs) *! row wtt nt 0 k) *! row wts ns l j)).
  { intros l i Hl Hi. rewrite (Nat.add_comm (l * nr)), B1 by auto. unfold MB. apply sum_ext. intros j Hj. rewrite <- (Wa 0) by lia. unfold TensorSpec.row. f_equal; f_equal; lia. }
  assert (Wc : forall i, i < nr -> get c i = sum ns (fun j => sum nt (fun k => get u ((i + j * nr) + k * nrs) *! row wtt nt 1 k) *! row wts ns 0 j)).
  { intros i Hi. rewrite C1 by auto. unfold MB. apply sum_ext. intros j Hj. rewrite <- (Wa 1) by lia. rewrite get_skipn. unfold TensorSpec.row. f_equal; f_equal; lia. }
  f_equal. f_equal; [|f_equal; [|f_equal; [|f_equal]]]; rewrite <- fold3; apply sum_ext; intros i Hi; fold nrs.
  - rewrite <- (Wb 0) by lia. unfold TensorSpec.row. cbn [Nat.mul Nat.add]. ring.
  - rewrite <- (Wb 0) by lia. rewrite get_skipn. unfold TensorSpec.row. rewrite Nat.mul_1_l. cbn [Nat.mul Nat.add]. ring.
  - rewrite <- (Wb 1) by lia. rewrite get_skipn. unfold TensorSpec.row. rewrite Nat.mul_1_l. cbn [Nat.mul Nat.add]. ring.
  - rewrite <- Wc by lia. unfold TensorSpec.row. cbn [Nat.mul Nat.add]. ring.
Qed.

Lemma t2_ok out Jrt nr mr Jst ns ms u work :
  nr * ns <= length out -> nr * mr <= length Jrt -> ms * ns <= length Jst -> mr * ms <= length u -> nr * ms <= length work ->
  exists out', tensor_2t A zero add mul P out Jrt nr mr Jst ns ms u work = Ok out' /\
    written_mat A zero out out' nr ns (fun i j => apply2 (row Jrt mr i) mr (row Jst ms j) ms u).
Proof.
  intros Ho HJ HS Hu Hw. unfold tensor_2t. destruct (tensor_mtxm_ok work nr Jrt mr u ms Hw HJ Hu) as (w & E & L & H1 & _). rewrite E. cbn [bind].
  destruct (good_mxm _ _ _ _ _ G out nr w ms Jst ns Ho ltac:(lia) HS) as (o & Eo & Lo & H2 & H3). exists o. split; auto. split; auto. split; auto.
  intros i j Hi Hj. rewrite H2 by auto. unfold MB, TensorSpec.apply2. apply sum_ext. intros b Hb. rewrite H1 by auto. unfold MtB.
  transitivity (get Jst (b + j * ms) *! sum mr (fun a => get Jrt (a + i * mr) *! get u (a + b * mr))); [ring|]. rewrite sum_mul. apply sum_ext. intros a Ha.
  unfold TensorSpec.row. rewrite (Nat.add_comm (i * mr)), (Nat.add_comm (j * ms)), (Nat.mul_comm mr b). ring.
Qed.

Lemma planes_ok nr ns ms Jst k : forall p q, k * (nr * ns) <= length p -> k * (nr * ms) <= length q -> ms * ns <= length Jst ->
  exists p', planes A P k nr ns ms Jst p q = Ok p' /\ length p' = length p /\
    forall c i j, c < k -> i < nr -> j < ns -> get p' (i + j * nr + c * (nr * ns)) = sum ms (fun b => get q (i + b * nr + c * (nr * ms)) *! get Jst (b + j * ms)).
Proof.
  induction k as [|k IH]; intros p q Hp Hq HJ.
  - exists p. split; auto. split; auto. intros; lia.
  - cbn [planes]. destruct (good_mxm _ _ _ _ _ G p nr q ms Jst ns ltac:(lia) ltac:(lia) HJ) as (p1 & E1 & L1 & H1 & H2). rewrite E1. cbn [bind].
    destruct (IH (skipn (nr * ns) p1) (skipn (nr * ms) q)) as (p2 & E2 & L2 & H3); [rewrite skipn_length; lia|rewrite skipn_length; lia|auto|]. rewrite E2. cbn [bind].
    assert (Lf : length (firstn (nr * ns) p1) = nr * ns) by (rewrite firstn_length; lia). rewrite skipn_length in L2.
    eexists. split; [reflexivity|]. split; [rewrite app_length; lia|]. intros c i j Hc Hi Hj. rewrite get_app, Lf.
    assert (Hij : i + j * nr < nr * ns) by nia. destruct c as [|c].
    + rewrite (proj2 (Nat.ltb_lt _ _)) by lia. rewrite get_firstn by lia. replace (i + j * nr + 0 * (nr * ns)) with (i + j * nr) by lia. rewrite H1 by auto.
      unfold MB. apply sum_ext. intros b Hb. f_equal. f_equal. lia.
    + rewrite (proj2 (Nat.ltb_ge _ _)) by lia. replace (i + j * nr + S c * (nr * ns) - nr * ns) with (i + j * nr + c * (nr * ns)) by lia. rewrite H3 by lia.
      apply sum_ext. intros b Hb. rewrite get_skipn. f_equal. f_equal. lia.
Qed.

Lemma t3_ok out Jrt nr mr Jst ns ms Jtt nt mt u work :
  nr * ns * nt <= length out -> nr * mr <= length Jrt -> ms * ns <= length Jst -> mt * nt <= length Jtt -> mr * (ms * mt) <= length u ->
  nr * (ms + ns) * mt <= length work ->
  exists out', tensor_3t A zero add mul P out Jrt nr mr Jst ns ms Jtt nt mt u work = Ok out' /\ length out' = length out /\
    (forall i j k, i < nr -> j < ns -> k < nt -> get out' (i + nr * (j + ns * k)) = apply3 (row Jrt mr i) mr (row Jst ms j) ms (row Jtt mt k) mt u) /\
    forall i, nr * ns * nt <= i -> get out' i = get out i.
Proof.
  intros Ho HJ HS HT Hu Hw. unfold tensor_3t. cbv zeta.
  destruct (tensor_mtxm_ok (firstn (nr * (ms * mt)) work) nr Jrt mr u (ms * mt)) as (w1 & E1 & L1 & H1 & _); [rewrite firstn_length; nia|auto|auto|]. rewrite E1. cbn [bind].
  rewrite firstn_length in L1.
  destruct (planes_ok nr ns ms Jst mt (skipn (nr * (ms * mt)) work) w1) as (w2 & E2 & L2 & H2); [rewrite skipn_length; nia|nia|auto|]. rewrite E2. cbn [bind].
  rewrite skipn_length in L2.
  destruct (good_mxm _ _ _ _ _ G out (nr * ns) w2 mt Jtt nt) as (o & Eo & Lo & H3 & H4); [auto|nia|auto|]. exists o. split; auto. split; auto. split; auto.
  intros i j k Hi Hj Hk. replace (i + nr * (j + ns * k)) with ((i + j * nr) + k * (nr * ns)) by lia. rewrite H3 by nia. unfold MB, TensorSpec.apply3.
  apply sum_ext. intros c Hc. rewrite H2 by auto.
  transitivity (get Jtt (c + k * mt) *! sum ms (fun b => get w1 (i + b * nr + c * (nr * ms)) *! get Jst (b + j * ms))); [ring|]. rewrite sum_mul. apply sum_ext. intros b Hb.
  replace (i + b * nr + c * (nr * ms)) with (i + (b + c * ms) * nr) by lia. rewrite H1 by nia. unfold MtB.
  transitivity (get Jtt (c + k * mt) *! get Jst (b + j * ms) *! sum mr (fun a => get Jrt (a + i * mr) *! get u (a + (b + c * ms) * mr))); [ring|]. rewrite sum_mul. apply sum_ext. intros a Ha.
  unfold TensorSpec.row. replace (a + (b + c * ms) * mr) with (a + mr * (b + ms * c)) by lia. rewrite (Nat.add_comm (i * mr)), (Nat.add_comm (j * ms)), (Nat.add_comm (k * mt)). ring.
Qed.
End With.
End P.
