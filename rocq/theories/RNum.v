(** Instance of the number structure over the real numbers (exact arithmetic).

    Division by zero, logarithm of non-positive numbers etc. follow the total functions of
    Coq's [R]; theorems over this instance carry side conditions that keep such arguments away,
    and file XNum.v justifies the reading "the f64 program does not hit NaN/inf there". *)
From Coq Require Import ZArith QArith Reals Lra List Bool.
From Verif Require Import Num.
Import ListNotations.
Local Open Scope R_scope.

Definition Rlit (q : Q) : R :=
  match Qden q with
  | xH => IZR (Qnum q)
  | d => IZR (Qnum q) / IZR (Zpos d)
  end.

Definition Rltb (x y : R) : bool := if Rlt_dec x y then true else false.
Definition Reqb (x y : R) : bool := if Req_EM_T x y then true else false.

(** [f64::cbrt] *)
Definition Rcbrt (x : R) : R :=
  if Rlt_dec 0 x then Rpower x (/ 3) else if Rlt_dec x 0 then - Rpower (- x) (/ 3) else 0.

(** [f64::powf] for non-negative base (all uses) *)
Definition Rpowf (x y : R) : R := if Rlt_dec 0 x then Rpower x y else 0.

Definition RNum : Num :=
  {| car := R; nlit := Rlit; npi := PI;
     nadd := Rplus; nsub := Rminus; nmul := Rmult; ndiv := Rdiv; nopp := Ropp; nrecip := Rinv;
     npowi := pow; npowf := Rpowf; nexp := exp; nexpm1 := fun x => exp x - 1;
     nln := ln; nln1p := fun x => ln (1 + x); nsqrt := sqrt; ncbrt := Rcbrt; nsin := sin;
     nmin := Rmin; nabs := Rabs; nre := fun x => x; nltb := Rltb; neqb := Reqb;
     nisnan := fun _ => false; nderiv := 0 |}.

(** unfolds the operations of [RNum] *)
Ltac rn_in H :=
  cbn [car nadd nsub nmul ndiv nopp nrecip npowi npowf nexp nexpm1 nln nln1p nsqrt ncbrt nsin
       nmin nabs nre nltb neqb nisnan nderiv nlit npi RNum Rlit Qnum Qden n0 n1] in H.
Ltac rn :=
  cbn [car nadd nsub nmul ndiv nopp nrecip npowi npowf nexp nexpm1 nln nln1p nsqrt ncbrt nsin
       nmin nabs nre nltb neqb nisnan nderiv nlit npi RNum Rlit Qnum Qden n0 n1].

Lemma n0_R : @n0 RNum = 0. Proof. reflexivity. Qed.
Lemma n1_R : @n1 RNum = 1. Proof. reflexivity. Qed.

Lemma Rltb_true x y : Rltb x y = true <-> x < y.
Proof. unfold Rltb; destruct (Rlt_dec x y); split; intros; auto; discriminate. Qed.
Lemma Rltb_false x y : Rltb x y = false <-> y <= x.
Proof. unfold Rltb; destruct (Rlt_dec x y); split; intros; auto; try discriminate; lra. Qed.
Lemma Reqb_true x y : Reqb x y = true <-> x = y.
Proof. unfold Reqb; destruct (Req_EM_T x y); split; intros; auto; discriminate. Qed.
Lemma Reqb_false x y : Reqb x y = false <-> x <> y.
Proof. unfold Reqb; destruct (Req_EM_T x y); split; intros; auto; try discriminate; contradiction. Qed.

Lemma Rcbrt_pos x : 0 < x -> 0 < Rcbrt x.
Proof. intros; unfold Rcbrt. destruct (Rlt_dec 0 x); [apply exp_pos | lra]. Qed.

Lemma Rcbrt_cube x : 0 < x -> Rcbrt x ^ 3 = x.
Proof.
  intros H; unfold Rcbrt. destruct (Rlt_dec 0 x) as [_ | ]; [ | lra].
  rewrite <- (Rpower_pow 3) by apply exp_pos. rewrite Rpower_mult.
  replace (/ 3 * INR 3) with 1 by (simpl; field). apply Rpower_1; auto.
Qed.

Lemma Rcbrt_of_cube x : 0 < x -> Rcbrt (x * x * x) = x.
Proof.
  intros H. assert (0 < x * x * x) by (repeat apply Rmult_lt_0_compat; auto).
  unfold Rcbrt. destruct (Rlt_dec 0 (x * x * x)) as [_ | ]; [ | lra].
  replace (x * x * x) with (x ^ 3) by ring.
  rewrite <- (Rpower_pow 3) by auto. rewrite Rpower_mult.
  replace (INR 3 * / 3) with 1 by (simpl; field). apply Rpower_1; auto.
Qed.

(** evaluates decimal literals in scientific notation *)
Ltac lits :=
  repeat match goal with |- context [Rlit (Qdiv ?a ?b)] => let v := eval vm_compute in (Qdiv a b) in change (Qdiv a b) with v end;
  unfold Q2R; cbn [Rlit Qnum Qden];
  repeat match goal with |- context [Z.pow_pos ?a ?b] => let v := eval vm_compute in (Z.pow_pos a b) in change (Z.pow_pos a b) with v end.

Ltac toR := match goal with |- @eq _ ?a ?b => change (@eq R a b) end.
