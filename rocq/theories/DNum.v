(** Dual numbers over a number structure: pairs a + b eps with eps^2 = 0.

    The crate num-dual is external; this is its [Dual<T>]: the real part follows the operation of
    the underlying type, the dual part the derivative rule.  [DualOf XNum] is Dual64,
    [DualOf (DualOf XNum)] carries first and mixed second derivatives (HyperDual64), and so on.
    Comparisons, NaN tests and [re] look at the real part only. *)
From Coq Require Import ZArith QArith List Bool.
From Verif Require Import Num.
Import ListNotations.
Local Open Scope num_scope.

Section Dual.
  Variable K : Num.
  Notation T := (car K).
  Notation D := (T * T)%type.
  Definition dmul (x y : D) : D := let (a, b) := x in let (c, d) := y in (a * c, a * d + b * c).
  Definition drecip (x : D) : D := let (a, b) := x in (nrecip a, - (b * (nrecip a * nrecip a))).
  Definition ddiv (x y : D) : D := let (a, b) := x in let (c, d) := y in (a / c, (b * c - a * d) / (c * c)).
  (** [chain_rule]: value and derivative of a function at the real part *)
  Definition dchain (x : D) (f0 f1 : T) : D := (f0, snd x * f1).
  Definition dpowi (x : D) (n : nat) : D :=
    match n with
    | O => (n1, n0)
    | S k => dchain x (fst x ^ S k) (nlit (inject_Z (Z.of_nat (S k))) * fst x ^ k)
    end.
  Definition DualOf : Num :=
    {| car := D;
       nlit := fun q => (nlit q, n0); npi := (npi, n0);
       nadd := fun x y => (fst x + fst y, snd x + snd y);
       nsub := fun x y => (fst x - fst y, snd x - snd y);
       nmul := dmul; ndiv := ddiv;
       nopp := fun x => (- fst x, - snd x);
       nrecip := drecip;
       npowi := dpowi;
       npowf := fun x y => dchain x (npowf (fst x) (fst y)) (fst y * npowf (fst x) (fst y - $1));
       nexp := fun x => dchain x (nexp (fst x)) (nexp (fst x));
       nexpm1 := fun x => dchain x (nexpm1 (fst x)) (nexp (fst x));
       nln := fun x => dchain x (nln (fst x)) (nrecip (fst x));
       nln1p := fun x => dchain x (nln1p (fst x)) (nrecip (fst x + $1));
       nsqrt := fun x => dchain x (nsqrt (fst x)) (nrecip (fst x) * nsqrt (fst x) * $0.5);
       ncbrt := fun x => dchain x (ncbrt (fst x)) (ncbrt (fst x) / (fst x * $3));
       nsin := fun x => dchain x (nsin (fst x)) (nsin (fst x + npi * $0.5));
       nmin := fun x y => if nltb (fst y) (fst x) then y else x;
       nabs := fun x => if nltb (fst x) n0 then (- fst x, - snd x) else x;
       nre := fun x => (nre (fst x), n0);
       nltb := fun x y => nltb (fst x) (fst y);
       neqb := fun x y => neqb (fst x) (fst y);
       nisnan := fun x => nisnan (fst x);
       nderiv := S (nderiv K) |}.
End Dual.
