(** Interval arithmetic with fixed-point numbers, for numerical refutations. *)
From Verif Require Import Base.
From Coq Require Import Reals Lra ZArith Lia Psatz.
Open Scope R_scope.

Inductive ex : Set := EC (z : Z) | EV (i : nat) | EAdd (a b : ex) | ESub (a b : ex) | EMul (a b : ex) | EDiv (a b : ex) | EMax (a b : ex) | EMin (a b : ex).
Fixpoint ev (v : nat -> R) (e : ex) : R :=
  match e with
  | EC z => IZR z | EV i => v i
  | EAdd a b => ev v a + ev v b | ESub a b => ev v a - ev v b | EMul a b => ev v a * ev v b | EDiv a b => ev v a / ev v b
  | EMax a b => Rmax (ev v a) (ev v b) | EMin a b => Rmin (ev v a) (ev v b)
  end.

Section Scale.
Variable S : Z.
Hypothesis HS : (0 < S)%Z.
Definition inI (x : R) (i : Z * Z) : Prop := IZR (fst i) <= x * IZR S <= IZR (snd i).
Definition cdiv (a b : Z) : Z := (- ((- a) / b))%Z.
Definition min4 (a b c d : Z) : Z := Z.min (Z.min a b) (Z.min c d).
Definition max4 (a b c d : Z) : Z := Z.max (Z.max a b) (Z.max c d).
Fixpoint iv (v : nat -> Z * Z) (e : ex) : option (Z * Z) :=
  match e with
  | EC z => Some (z * S, z * S)%Z
  | EV i => Some (v i)
  | EAdd a b => match iv v a, iv v b with Some (al, ah), Some (bl, bh) => Some (al + bl, ah + bh)%Z | _, _ => None end
  | ESub a b => match iv v a, iv v b with Some (al, ah), Some (bl, bh) => Some (al - bh, ah - bl)%Z | _, _ => None end
  | EMul a b => match iv v a, iv v b with
      | Some (al, ah), Some (bl, bh) => Some (min4 (al * bl) (al * bh) (ah * bl) (ah * bh) / S, cdiv (max4 (al * bl) (al * bh) (ah * bl) (ah * bh)) S)%Z
      | _, _ => None end
  | EDiv a b => match iv v a, iv v b with
      | Some (al, ah), Some (bl, bh) =>
          if (0 <? bl)%Z then
            Some (min4 (al * S / bl) (al * S / bh) (ah * S / bl) (ah * S / bh), max4 (cdiv (al * S) bl) (cdiv (al * S) bh) (cdiv (ah * S) bl) (cdiv (ah * S) bh))%Z
          else None
      | _, _ => None end
  | EMax a b => match iv v a, iv v b with Some (al, ah), Some (bl, bh) => Some (Z.max al bl, Z.max ah bh)%Z | _, _ => None end
  | EMin a b => match iv v a, iv v b with Some (al, ah), Some (bl, bh) => Some (Z.min al bl, Z.min ah bh)%Z | _, _ => None end
  end.

Let SP : 0 < IZR S. Proof. apply IZR_lt. auto. Qed.
Lemma fdiv_le a b : (0 < b)%Z -> IZR (a / b) <= IZR a / IZR b.
Proof.
  intros H. assert (0 < IZR b) by (apply IZR_lt; auto). apply (Rmult_le_reg_r (IZR b)); [auto|]. unfold Rdiv. rewrite Rmult_assoc, Rinv_l, Rmult_1_r by lra.
  rewrite <- mult_IZR. apply IZR_le. rewrite Z.mul_comm. apply Z.mul_div_le. auto.
Qed.
Lemma cdiv_ge a b : (0 < b)%Z -> IZR a / IZR b <= IZR (cdiv a b).
Proof. intros H. unfold cdiv. rewrite opp_IZR. pose proof (fdiv_le (- a) b H) as G. rewrite opp_IZR in G. unfold Rdiv in *. lra. Qed.
Lemma IZR_min a b : IZR (Z.min a b) = Rmin (IZR a) (IZR b).
Proof. destruct (Z.le_ge_cases a b) as [H|H]; [rewrite Z.min_l, Rmin_left; auto; apply IZR_le; auto|rewrite Z.min_r, Rmin_right; auto; apply IZR_le; lia]. Qed.
Lemma IZR_max a b : IZR (Z.max a b) = Rmax (IZR a) (IZR b).
Proof. destruct (Z.le_ge_cases a b) as [H|H]; [rewrite Z.max_r, Rmax_right; auto; apply IZR_le; auto|rewrite Z.max_l, Rmax_left; auto; apply IZR_le; lia]. Qed.
Lemma min4_le a b c d z : z = a \/ z = b \/ z = c \/ z = d -> (min4 a b c d <= z)%Z.
Proof. unfold min4. lia. Qed.
Lemma max4_ge a b c d z : z = a \/ z = b \/ z = c \/ z = d -> (z <= max4 a b c d)%Z.
Proof. unfold max4. lia. Qed.
(** A product is between products of the ends. *)
Lemma prod4 a b c d x y : a <= x <= b -> c <= y <= d -> forall lo hi, lo <= a * c -> lo <= a * d -> lo <= b * c -> lo <= b * d -> a * c <= hi -> a * d <= hi -> b * c <= hi -> b * d <= hi -> lo <= x * y <= hi.
Proof.
  intros Hx Hy lo hi. intros.
  assert (A : lo <= a * y <= hi) by (destruct (Rle_dec 0 a); nra). assert (B : lo <= b * y <= hi) by (destruct (Rle_dec 0 b); nra).
  destruct (Rle_dec 0 y); nra.
Qed.
Lemma iv_ok v V : (forall i, inI (v i) (V i)) -> forall e i, iv V e = Some i -> inI (ev v e) i.
Proof.
  intros HV. induction e; cbn [iv ev]; intros i0 E.
  - injection E as <-. unfold inI. cbn [fst snd]. rewrite mult_IZR. lra.
  - injection E as <-. apply HV.
  - destruct (iv V e1) as [[al ah]|]; [|discriminate]. destruct (iv V e2) as [[bl bh]|]; [|discriminate]. injection E as <-.
    specialize (IHe1 _ eq_refl). specialize (IHe2 _ eq_refl). unfold inI in *. cbn [fst snd] in *. rewrite !plus_IZR. lra.
  - destruct (iv V e1) as [[al ah]|]; [|discriminate]. destruct (iv V e2) as [[bl bh]|]; [|discriminate]. injection E as <-.
    specialize (IHe1 _ eq_refl). specialize (IHe2 _ eq_refl). unfold inI in *. cbn [fst snd] in *. rewrite !minus_IZR. lra.
  - destruct (iv V e1) as [[al ah]|]; [|discriminate]. destruct (iv V e2) as [[bl bh]|]; [|discriminate]. injection E as <-.
    specialize (IHe1 _ eq_refl). specialize (IHe2 _ eq_refl). unfold inI in *. cbn [fst snd] in *.
    set (lo := min4 (al * bl) (al * bh) (ah * bl) (ah * bh)). set (hi := max4 (al * bl) (al * bh) (ah * bl) (ah * bh)).
    assert (P : IZR lo <= ev v e1 * IZR S * (ev v e2 * IZR S) <= IZR hi).
    { apply (prod4 (IZR al) (IZR ah) (IZR bl) (IZR bh)); auto; rewrite <- mult_IZR; apply IZR_le; try (apply min4_le; auto); apply max4_ge; auto. }
    pose proof (fdiv_le lo S HS). pose proof (cdiv_ge hi S HS).
    assert (Q : IZR lo / IZR S <= ev v e1 * ev v e2 * IZR S <= IZR hi / IZR S).
    { split; (apply (Rmult_le_reg_r (IZR S)); [auto|]); [replace (IZR lo / IZR S * IZR S) with (IZR lo) by (field; lra)|replace (IZR hi / IZR S * IZR S) with (IZR hi) by (field; lra)]; lra. }
    lra.
  - destruct (iv V e1) as [[al ah]|]; [|discriminate]. destruct (iv V e2) as [[bl bh]|]; [|discriminate]. destruct (Z.ltb_spec 0 bl) as [HB|]; [|discriminate]. injection E as <-.
    specialize (IHe1 _ eq_refl). specialize (IHe2 _ eq_refl). unfold inI in *. cbn [fst snd] in *. set (x := ev v e1) in *. set (y := ev v e2) in *.
    assert (B0 : 0 < IZR bl) by (apply IZR_lt; auto). assert (HB' : (0 < bh)%Z) by (apply lt_IZR; lra). assert (B1 : 0 < IZR bh) by (apply IZR_lt; auto).
    assert (Y : 0 < y) by (apply (Rmult_lt_reg_r (IZR S)); [auto|lra]).
    assert (Yi : / IZR bh <= / (y * IZR S) <= / IZR bl) by (split; apply Rinv_le_contravar; lra).
    replace (x / y * IZR S) with (x * IZR S * / (y * IZR S) * IZR S) by (field; lra).
    set (lo := min4 (al * S / bl) (al * S / bh) (ah * S / bl) (ah * S / bh)). set (hi := max4 (cdiv (al * S) bl) (cdiv (al * S) bh) (cdiv (ah * S) bl) (cdiv (ah * S) bh)).
    assert (L : forall a b, (0 < b)%Z -> (lo <= a * S / b)%Z -> IZR lo / IZR S <= IZR a * / IZR b).
    { intros a b Hb H. apply IZR_le in H. pose proof (fdiv_le (a * S) b Hb) as F. rewrite mult_IZR in F. apply (Rmult_le_reg_r (IZR S)); [auto|]. unfold Rdiv in *. rewrite Rmult_assoc, Rinv_l by lra. lra. }
    assert (U : forall a b, (0 < b)%Z -> (cdiv (a * S) b <= hi)%Z -> IZR a * / IZR b <= IZR hi / IZR S).
    { intros a b Hb H. apply IZR_le in H. pose proof (cdiv_ge (a * S) b Hb) as F. rewrite mult_IZR in F. apply (Rmult_le_reg_r (IZR S)); [auto|]. unfold Rdiv in *. rewrite (Rmult_assoc (IZR hi)), Rinv_l by lra. lra. }
    assert (P : IZR lo / IZR S <= x * IZR S * / (y * IZR S) <= IZR hi / IZR S).
    { apply (prod4 (IZR al) (IZR ah) (/ IZR bh) (/ IZR bl)); auto; try (apply L; [auto|apply min4_le; auto]); apply U; [auto|apply max4_ge; auto|auto|apply max4_ge; auto|auto|apply max4_ge; auto|auto|apply max4_ge; auto]. }
    split; [apply (Rmult_le_reg_r (/ IZR S))|apply (Rmult_le_reg_r (/ IZR S))]; try (apply Rinv_0_lt_compat; auto); rewrite (Rmult_assoc _ (IZR S)), Rinv_r, Rmult_1_r by lra; apply P.
  - destruct (iv V e1) as [[al ah]|]; [|discriminate]. destruct (iv V e2) as [[bl bh]|]; [|discriminate]. injection E as <-.
    specialize (IHe1 _ eq_refl). specialize (IHe2 _ eq_refl). unfold inI in *. cbn [fst snd] in *. rewrite !IZR_max. unfold Rmax. destruct (Rle_dec (IZR al) (IZR bl)), (Rle_dec (IZR ah) (IZR bh)), (Rle_dec (ev v e1) (ev v e2)); nra.
  - destruct (iv V e1) as [[al ah]|]; [|discriminate]. destruct (iv V e2) as [[bl bh]|]; [|discriminate]. injection E as <-.
    specialize (IHe1 _ eq_refl). specialize (IHe2 _ eq_refl). unfold inI in *. cbn [fst snd] in *. rewrite !IZR_min. unfold Rmin. destruct (Rle_dec (IZR al) (IZR bl)), (Rle_dec (IZR ah) (IZR bh)), (Rle_dec (ev v e1) (ev v e2)); nra.
Qed.

(** e <= c, c <= e, checked with intervals. *)
Definition le_check (V : nat -> Z * Z) (e : ex) (c : Z) : bool := match iv V e with Some (_, h) => (h <=? c * S)%Z | None => false end.
Definition ge_check (V : nat -> Z * Z) (e : ex) (c : Z) : bool := match iv V e with Some (l, _) => (c * S <=? l)%Z | None => false end.
Lemma le_ok v V e c : (forall i, inI (v i) (V i)) -> le_check V e c = true -> ev v e <= IZR c.
Proof.
  intros HV H. unfold le_check in H. destruct (iv V e) as [[l h]|] eqn:E; [|discriminate]. apply Z.leb_le in H. destruct (iv_ok v V HV e _ E) as [_ G]. cbn [snd] in G.
  apply IZR_le in H. rewrite mult_IZR in H. apply (Rmult_le_reg_r (IZR S)); [auto|lra].
Qed.
Lemma ge_ok v V e c : (forall i, inI (v i) (V i)) -> ge_check V e c = true -> IZR c <= ev v e.
Proof.
  intros HV H. unfold ge_check in H. destruct (iv V e) as [[l h]|] eqn:E; [|discriminate]. apply Z.leb_le in H. destruct (iv_ok v V HV e _ E) as [G _]. cbn [fst] in G.
  apply IZR_le in H. rewrite mult_IZR in H. apply (Rmult_le_reg_r (IZR S)); [auto|lra].
Qed.
End Scale.
