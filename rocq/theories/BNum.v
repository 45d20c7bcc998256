(** Instance of the number structure with rounding: binary floating point numbers with the 53 bits of
    an f64, round to nearest even, and unbounded exponents (no overflow, no underflow).

    [DualNum<f64> for f64] (crate num-dual) maps every operation to the one of f64.  Addition,
    subtraction, multiplication, division and the square root of f64 are correctly rounded (IEEE 754);
    exp, ln, ln_1p, exp_m1, cbrt, sin and powf come from the platform's library, here an arbitrary
    record [libm].  [powi] with exponents above two: one of the possible orders of multiplication.
    Literals are rounded to the nearest f64. *)
From Coq Require Import ZArith QArith Reals Lra List Bool.
From Flocq Require Import Core.
From Verif Require Import Num RNum.
Import ListNotations.
Local Open Scope R_scope.

#[global] Instance prec53 : Prec_gt_0 53. Proof. reflexivity. Qed.
(** the nearest f64 *)
Definition rnd (x : R) : R := round radix2 (FLX_exp 53) ZnearestE x.
(** numbers representable by an f64 *)
Definition f64 (x : R) : Prop := generic_format radix2 (FLX_exp 53) x.

Record libm := mkLibm {
  l_exp : R -> R; l_expm1 : R -> R; l_ln : R -> R; l_ln1p : R -> R; l_cbrt : R -> R; l_sin : R -> R; l_powf : R -> R -> R }.
(** one unit in the last place, the accuracy of common implementations *)
Definition within (e x y : R) : Prop := Rabs (x - y) <= e * Rabs y.
Definition libm_ok (L : libm) : Prop :=
  (forall x, within (/ 2 ^ 52) (l_exp L x) (exp x)) /\
  (forall x, within (/ 2 ^ 52) (l_expm1 L x) (exp x - 1)) /\
  (forall x, 0 < x -> within (/ 2 ^ 52) (l_ln L x) (ln x)) /\
  (forall x, -1 < x -> within (/ 2 ^ 52) (l_ln1p L x) (ln (1 + x))).

Fixpoint bpowi (x : R) (n : nat) : R :=
  match n with O => 1 | S O => x | S m => rnd (x * bpowi x m) end.

Definition BNum (L : libm) : Num :=
  {| car := R; nlit := fun q => rnd (Rlit q); npi := rnd PI;
     nadd := fun x y => rnd (x + y); nsub := fun x y => rnd (x - y); nmul := fun x y => rnd (x * y); ndiv := fun x y => rnd (x / y);
     nopp := Ropp; nrecip := fun x => rnd (/ x);
     npowi := bpowi; npowf := l_powf L; nexp := l_exp L; nexpm1 := l_expm1 L;
     nln := l_ln L; nln1p := l_ln1p L; nsqrt := fun x => rnd (sqrt x); ncbrt := l_cbrt L; nsin := l_sin L;
     nmin := Rmin; nabs := Rabs; nre := fun x => x; nltb := Rltb; neqb := Reqb;
     nisnan := fun _ => false; nderiv := 0 |}.

(** correctly rounded library functions satisfy [libm_ok] *)
Definition exact_libm : libm :=
  mkLibm (fun x => rnd (exp x)) (fun x => rnd (exp x - 1)) (fun x => rnd (ln x)) (fun x => rnd (ln (1 + x))) (fun x => x) (fun x => rnd (sin x)) (fun x _ => x).
