(** The sign changes of P'_(n-1) around the tabulated nodes, in integer arithmetic. *)
From Verif Require Import Base PolyImpSyntax PolyImp PolyGllProof.

(** Approximations c of m! 2^100 P'_(m+1)(e/2^60) with error bounds r: c m, c (m+1), r m, r (m+1). *)
Fixpoint approx (e : Z) (m : nat) : Z * Z * Z * Z :=
  match m with
  | O => (2 ^ 100, 3 * e * 2 ^ 40, 0, 0)%Z
  | S m => let '(a, b, r, t) := approx e m in
           let k := Z.of_nat m in let p := (2 * k + 5)%Z in let q := ((k + 3) * (k + 1))%Z in
           (b, Z.shiftr (p * (e * b)) 60 - q * a, t, p * t + q * r + 1)%Z
  end.
(** The sign of P'_(m+1)(e/2^60), 0 if unknown. *)
Definition sgn (e : Z) (m : nat) : Z :=
  let '(a, _, r, _) := approx e m in
  if (Z.abs e <=? 2 ^ 60)%Z then if (r <? a)%Z then 1%Z else if (a <? - r)%Z then (-1)%Z else 0%Z else 0%Z.
(** The number of units of 2^-60 below an entry with 52 digits. *)
Definition units (e : Z) : Z := (e * 2 ^ 60 / 10 ^ 52)%Z.

Definition change_at (n : nat) (e : Z) : bool :=
  let f := units e in (sgn (f - 1) (n - 2) * sgn (f + 1) (n - 2) <? 0)%Z.
Definition roots_check (n : nat) : bool :=
  let l := gll_list_Z n in
  (0 <? sgn (2 ^ 60) (n - 2))%Z &&
  forallb (fun i => change_at n (nth i l 0%Z)) (seq 1 (n - 2)) &&
  forallb (fun i => (units (nth i l 0) + 2 <? units (nth (S i) l 0))%Z) (seq 1 (n - 3)).
Lemma roots_checked : forallb roots_check (seq 2 23) = true.
Proof. vm_cast_no_check (eq_refl true). Qed.
