(** Number structures.

    The Rust code is generic over [D: DualNum<f64>] (crate num-dual).  The model is generic
    over a record of operations; plain [f64] values are embedded in the same carrier (an f64
    is a dual number without derivative part), so one carrier suffices.

    No laws are part of the record: every theorem is about a concrete instance
    (reals [RNum], extended reals [XNum], dual numbers [DNum]). *)
From Coq Require Import ZArith QArith List Bool.
Import ListNotations.

Record Num := mkNum {
  car : Type;
  nlit : Q -> car;                      (* decimal literal, exact *)
  npi : car;                            (* std::f64::consts::PI *)
  nadd : car -> car -> car;
  nsub : car -> car -> car;
  nmul : car -> car -> car;
  ndiv : car -> car -> car;
  nopp : car -> car;
  nrecip : car -> car;                  (* recip / inv *)
  npowi : car -> nat -> car;            (* powi with non-negative exponent *)
  npowf : car -> car -> car;            (* powf *)
  nexp : car -> car;
  nexpm1 : car -> car;                  (* exp_m1 *)
  nln : car -> car;
  nln1p : car -> car;                   (* ln_1p *)
  nsqrt : car -> car;
  ncbrt : car -> car;
  nsin : car -> car;
  nmin : car -> car -> car;             (* f64::min *)
  nabs : car -> car;                    (* f64::abs *)
  nre : car -> car;                     (* .re(), re-embedded with zero derivative *)
  nltb : car -> car -> bool;            (* a.re() < b.re() *)
  neqb : car -> car -> bool;            (* a.re() == b.re() *)
  nisnan : car -> bool;                 (* a.re().is_nan() *)
  nderiv : nat                          (* D::NDERIV *)
}.

Arguments nlit {_}. Arguments npi {_}. Arguments nadd {_}. Arguments nsub {_}.
Arguments nmul {_}. Arguments ndiv {_}. Arguments nopp {_}. Arguments nrecip {_}.
Arguments npowi {_}. Arguments npowf {_}. Arguments nexp {_}. Arguments nexpm1 {_}.
Arguments nln {_}. Arguments nln1p {_}. Arguments nsqrt {_}. Arguments ncbrt {_}.
Arguments nsin {_}. Arguments nmin {_}. Arguments nabs {_}. Arguments nre {_}.
Arguments nltb {_}. Arguments neqb {_}. Arguments nisnan {_}.

Declare Scope num_scope.
Delimit Scope num_scope with num.
Notation "x + y" := (nadd x y) : num_scope.
Notation "x - y" := (nsub x y) : num_scope.
Notation "x * y" := (nmul x y) : num_scope.
Notation "x / y" := (ndiv x y) : num_scope.
Notation "- x" := (nopp x) : num_scope.
Notation "x ^ n" := (npowi x n) : num_scope.
Notation "x <? y" := (nltb x y) : num_scope.
(** literal, e.g. [$0.5] *)
Notation "$ q" := (nlit q%Q) (at level 1, format "$ q") : num_scope.

Section Arrays.
  Context {K : Num}.
  Local Open Scope num_scope.

  Definition n0 : car K := $0.
  Definition n1 : car K := $1.

  (** element access of an Array1 / Array2; the index is in bounds wherever the model uses it
      on well-formed parameters (theorem [from_records_wf]); the default is never observed there *)
  Definition ix (l : list (car K)) (i : nat) : car K := nth i l n0.
  Definition ix2 (M : list (list (car K))) (i j : nat) : car K := nth j (nth i M nil) n0.
  Definition ix3 (M : list (list (list (car K)))) (i j k : nat) : car K :=
    nth k (nth j (nth i M nil) nil) n0.
  Definition ixn (l : list nat) (i : nat) : nat := nth i l O.

  (** Array::from_shape_fn *)
  Definition mk1 {A} (n : nat) (f : nat -> A) : list A := map f (seq 0 n).
  Definition mk2 {A} (n m : nat) (f : nat -> nat -> A) : list (list A) :=
    mk1 n (fun i => mk1 m (f i)).
  Definition mk3 {A} (n m k : nat) (f : nat -> nat -> nat -> A) : list (list (list A)) :=
    mk1 n (fun i => mk2 m k (f i)).

  (** [.sum()] / [+=] loop starting from zero *)
  Definition nsum (l : list (car K)) : car K := fold_left nadd l n0.
  (** [-=] loop starting from zero *)
  Definition nsubs (l : list (car K)) : car K := fold_left nsub l n0.
  Definition nsumi (n : nat) (f : nat -> car K) : car K := nsum (mk1 n f).

  (** element-wise product of two arrays of equal shape *)
  Definition nmul1 (a b : list (car K)) : list (car K) := map (fun p => fst p * snd p) (combine a b).
  Definition ndot (a b : list (car K)) : car K := nsum (nmul1 a b).
End Arrays.
