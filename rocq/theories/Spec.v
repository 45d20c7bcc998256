(** Textbook formulation of PC-SAFT over the real numbers, independent of the Rust code.

    Sources: Gross & Sadowski 2001 (hard chain, dispersion), Gross 2005 (quadrupole), Gross &
    Vrabec 2006 (dipole), Vrabec & Gross 2008 (dipole-quadrupole), Chapman et al. 1990 and
    Huang & Radosz 1990 (association).  Everything is a function of a mixture description
    (component number -> parameter) and of the densities; sums run over all components, there
    are no index lists, no loops and no special cases.  Only the tables of universal constants
    are shared with the model. *)
From Coq Require Import ZArith QArith Reals List.
From Verif Require Import RNum Tables RSum.
Import ListNotations.
Local Open Scope R_scope.

(** component parameters as functions of the component number *)
Record mixture := mkMix {
  N : nat;                     (* number of components *)
  M : nat -> R;                (* segment number *)
  Sg : nat -> R;               (* segment diameter *)
  Ep : nat -> R;               (* dispersion energy / kB *)
  Mu2 : nat -> R;              (* reduced squared dipole moment *)
  Qu2 : nat -> R;              (* reduced squared quadrupole moment *)
  Kab : nat -> R;              (* association volume *)
  Eab : nat -> R;              (* association energy / kB *)
  Na : nat -> R; Nb : nat -> R;(* numbers of association sites *)
  Kij : nat -> nat -> R }.     (* binary interaction parameter *)

Definition lit (t : list Q) (i : nat) : R := Rlit (nth i t 0%Q).
Definition lit2 (t : list (list Q)) (i j : nat) : R := Rlit (nth j (nth i t nil) 0%Q).

Section Spec.
  Variable X : mixture.
  Variable T : R.                       (* temperature *)
  Variable rho : nat -> R.              (* partial number densities *)

  Definition Sij (i j : nat) : R := (Sg X i + Sg X j) / 2.
  Definition Eij0 (i j : nat) : R := sqrt (Ep X i * Ep X j).
  Definition Eij (i j : nat) : R := (1 - Kij X i j) * Eij0 i j.

  (** Chen-Kreglewski temperature dependent diameter *)
  Definition Di (i : nat) : R := Sg X i * (1 - 12 / 100 * exp (- 3 * Ep X i / T)).

  Definition Zeta (k : nat) : R := PI / 6 * (Sum i < N X, rho i * M X i * Di i ^ k).
  Definition Eta : R := Zeta 3.
  Definition Rho : R := Sum i < N X, rho i.
  (** mean segment number *)
  Definition Mbar : R := (Sum i < N X, rho i * M X i) / Rho.

  (* Boublik-Mansoori-Carnahan-Starling-Leland, Helmholtz energy density / kT *)
  Definition f_hs : R :=
    6 / PI * (3 * Zeta 1 * Zeta 2 / (1 - Zeta 3)
              + Zeta 2 ^ 3 / (Zeta 3 * (1 - Zeta 3) ^ 2)
              + (Zeta 2 ^ 3 / Zeta 3 ^ 2 - Zeta 0) * ln (1 - Zeta 3)).

  (* radial distribution function at contact *)
  Definition Gij (i j : nat) : R :=
    let D := Di i * Di j / (Di i + Di j) in
    1 / (1 - Zeta 3) + D * (3 * Zeta 2 / (1 - Zeta 3) ^ 2)
    + D ^ 2 * (2 * Zeta 2 ^ 2 / (1 - Zeta 3) ^ 3).

  Definition f_hc : R := - Sum i < N X, rho i * (M X i - 1) * ln (Gij i i).

  (* dispersion *)
  Definition power_series (c0 c1 c2 : list Q) : R :=
    Sum i < 7, (lit c0 i + (Mbar - 1) / Mbar * lit c1 i
                + (Mbar - 1) / Mbar * ((Mbar - 2) / Mbar) * lit c2 i) * Eta ^ i.
  Definition C1 : R :=
    1 / (1 + Mbar * (8 * Eta - 2 * Eta ^ 2) / (1 - Eta) ^ 4
         + (1 - Mbar) * (20 * Eta - 27 * Eta ^ 2 + 12 * Eta ^ 3 - 2 * Eta ^ 4)
           / ((1 - Eta) * (2 - Eta)) ^ 2).
  Definition mixsum (k : nat) : R :=
    Sum i < N X, Sum j < N X, rho i * rho j * M X i * M X j * (Eij i j / T) ^ k * Sij i j ^ 3.
  Definition f_disp : R :=
    - 2 * PI * power_series A0 A1 A2 * mixsum 1
    - PI * Mbar * C1 * power_series B0 B1 B2 * mixsum 2.

  (* polar terms: perturbation terms of second and third order, Pade approximation *)
  Definition mp (i : nat) : R := Rmin (M X i) 2.
  Definition m2 (i j : nat) : R := sqrt (mp i * mp j).
  Definition m3 (i j k : nat) : R := Rcbrt (mp i * mp j * mp k).
  Definition q1 (m : R) : R := (m - 1) / m.
  Definition q12 (m : R) : R := (m - 1) / m * ((m - 2) / m).
  Definition cm (c : list (list Q)) (l : nat) (m : R) : R :=
    lit2 c l 0 + q1 m * lit2 c l 1 + q12 m * lit2 c l 2.
  Definition J2 (a b : list (list Q)) (i j : nat) : R :=
    Sum l < length a, (cm a l (m2 i j) + cm b l (m2 i j) * (Eij0 i j / T)) * Eta ^ l.
  Definition J3 (c : list (list Q)) (i j k : nat) : R :=
    Sum l < length c, cm c l (m3 i j k) * Eta ^ l.

  (* reduced energies: eps_i/T * sigma_i^k *)
  Definition Wi (k : nat) (i : nat) : R := Ep X i / T * Sg X i ^ k.

  Definition dd2 : R := - PI * Sum i < N X, Sum j < N X,
    rho i * rho j * Wi 3 i * Wi 3 j / Sij i j ^ 3 * Mu2 X i * Mu2 X j * J2 AD BD i j.
  Definition dd3 : R := - (4 * PI ^ 2 / 3) * Sum i < N X, Sum j < N X, Sum k < N X,
    rho i * rho j * rho k * Wi 3 i * Wi 3 j * Wi 3 k / (Sij i j * Sij i k * Sij j k)
    * Mu2 X i * Mu2 X j * Mu2 X k * J3 CD i j k.
  Definition qq2 : R := - PI * (3 / 4) ^ 2 * Sum i < N X, Sum j < N X,
    rho i * rho j * Wi 5 i * Wi 5 j / Sij i j ^ 7 * Qu2 X i * Qu2 X j * J2 AQ BQ i j.
  Definition qq3 : R := 4 * PI ^ 2 / 3 * (3 / 4) ^ 3 * Sum i < N X, Sum j < N X, Sum k < N X,
    rho i * rho j * rho k * Wi 5 i * Wi 5 j * Wi 5 k / (Sij i j * Sij i k * Sij j k) ^ 3
    * Qu2 X i * Qu2 X j * Qu2 X k * J3 CQ i j k.
  (* dipole-quadrupole; the exponents of sigma distinguish the two published variants *)
  Definition dq2 (kd kq : nat) : R := - (9 / 4) * PI * Sum i < N X, Sum j < N X,
    rho i * rho j * Wi kd i * Wi kq j / Sij i j ^ 5 * Mu2 X i * Qu2 X j * J2 ADQ BDQ i j.
  Definition J3dq (i j k : nat) : R :=
    Sum l < length CDQ, (lit2 CDQ l 0 + q1 (m3 i j k) * lit2 CDQ l 1) * Eta ^ l.
  Definition dq3 : R := PI ^ 2 * Sum i < N X, Sum j < N X, Sum k < N X,
    rho i * rho j * rho k * Wi 4 i * Wi 4 j * Wi 4 k / (Sij i j * Sij i k * Sij j k) ^ 2
    * (Mu2 X i * Qu2 X j * Mu2 X k + Rlit ALPHA * Mu2 X i * Qu2 X j * Qu2 X k) * J3dq i j k.
  Definition pade2 (a2 a3 : R) : R := a2 ^ 2 / (a2 - a3).
  Definition f_dd : R := pade2 dd2 dd3.
  Definition f_qq : R := pade2 qq2 qq3.
  Definition f_dq (kd kq : nat) : R := pade2 (dq2 kd kq) dq3.

  (* association: strength, mass action law, Helmholtz energy density *)
  Definition Kapij (i j : nat) : R := sqrt (Kab X i * Kab X j) * (sqrt (Sg X i * Sg X j) / Sij i j) ^ 3.
  Definition Delta (i j : nat) : R :=
    Gij i j * Sij i j ^ 3 * Kapij i j * (exp ((Eab X i + Eab X j) / 2 / T) - 1).
  (** monomer fractions of the A and B sites of every component: A bonds to B only *)
  Definition mass_action (xa xb : nat -> R) : Prop :=
    forall i, (i < N X)%nat ->
      xa i * (1 + Sum j < N X, rho j * Nb X j * xb j * Delta i j) = 1 /\
      xb i * (1 + Sum j < N X, rho j * Na X j * xa j * Delta i j) = 1.
  Definition fx (x : R) : R := ln x - x / 2 + 1 / 2.
  Definition f_assoc_xx (xa xb : nat -> R) : R :=
    Sum i < N X, rho i * (Na X i * fx (xa i) + Nb X i * fx (xb i)).
End Spec.
