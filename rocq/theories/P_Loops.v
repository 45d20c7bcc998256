(** C59: how many volumes belong to a temperature and a pressure.  At and above the critical temperature exactly one; below,
    the loop of the isotherm between vapour and liquid need not be the only one.  Butane at 100 K has
    three volumes of liquid-like density for every pressure up to about 4000 bar. *)
From Coq Require Import ZArith QArith Reals Ranalysis5 Lra Lia String List Bool Psatz.
From Coquelicot Require Import Coquelicot.
From Interval Require Import Tactic.
From Verif Require Import Num RNum RSum Tables M_Params F_Params M_Eos Spec F_Spec F_SpecPolar
  F_SpecAssoc F_Contrib F_Cross F_Total Samples F_Limit P_Basic P_Limit P_HighT P_Params P_Select XNum DNum F_Transfer F_Transfer2 F_Transfer3 F_Level P_Dual P_Dual2 P_Close P_Npt P_Vle P_Cold P_Hot P_Critical.
Import ListNotations.
Local Open Scope R_scope.
Set Bullet Behavior "Strict Subproofs".
Notation length := List.length.


(** At and above the critical temperature every positive pressure belongs to exactly one volume. *)
Theorem C59_above_critical prs bin p (Hp : from_records prs bin = Some p) (Hph : phys p) (H1 : length (p_m p) = 1%nat) n (Hn : 0 < n)
  (Hd : p_ndipole p = 0%nat) (Hq : p_nquadpole p = 0%nat) (Hass : p_nassoc p = 0%nat) (Hk : Kij (mix_of p) 0 0 <> 1) :
  exists Tc, 0 < Tc /\
    (forall t, Tc <= t -> forall lu2 o P, 0 < P -> exists v, close p t [n] < v /\ reduced_pressure p t [n] lu2 o v P /\
      forall v', close p t [n] < v' -> reduced_pressure p t [n] lu2 o v' P -> v' = v) /\
    (* and this temperature cannot be lowered *)
    forall T, T < Tc -> exists t, T < t < Tc /\ 0 < t /\ forall lu2 o, exists P v1 v2, 0 < P /\ close p t [n] < v1 < v2 /\
      reduced_pressure p t [n] lu2 o v1 P /\ reduced_pressure p t [n] lu2 o v2 P.
Proof.
  destruct (C58_critical_point prs bin p Hp Hph H1 n Hn Hd Hq Hass Hk) as (Tc & _ & HT & _ & Up & Lo & _). exists Tc. split; auto. split.
  - intros t Ht lu2 o P HP.
    destruct (C56_npt prs bin p Hp Hph t [n] ltac:(lra) (len1 p H1 n) (nn1 p H1 n Hn) (ne1 p H1 n Hn) (fun _ _ => None) lu2 o P Hd Hq Hass HP) as (f & _ & v & Hv & Rv & _).
    exists v. split; auto. split; auto. intros v' Hv' Rv'. destruct (Rtotal_order v v') as [L | [E | L]]; [ | auto | ].
    + specialize (Up t Ht lu2 o v v' P P (conj Hv L) Rv Rv'). lra.
    + specialize (Up t Ht lu2 o v' v P P (conj Hv' L) Rv' Rv). lra.
  - intros T Hlt. destruct (Lo (Tc - T) ltac:(lra)) as (t & Ht & Ht0 & Co). exists t. split; [lra | ]. split; auto. intros lu2 o. destruct (Co lu2 o) as (P & v1 & v2 & HP & Hv & R1 & R2 & _).
    exists P, v1, v2. auto.
Qed.
(** butane *)
Example C59_case : exists Tc, 0 < Tc /\ forall t, Tc <= t -> exists v, close but t [1] < v /\ reduced_pressure but t [1] (fun _ _ => None) default_options v 0.001 /\
  forall v', close but t [1] < v' -> reduced_pressure but t [1] (fun _ _ => None) default_options v' 0.001 -> v' = v.
Proof.
  destruct but_none as (E1 & E2 & E3). destruct (C59_above_critical _ _ _ but_ok but_phys eq_refl 1 ltac:(lra) E1 E2 E3 ltac:(change (0 <> 1); lra)) as (Tc & H & Hv & _).
  exists Tc. split; auto. intros t Ht. apply Hv; auto. lra.
Qed.

Section Slopes.
  Variable m : R.
  Hypothesis Hm : 0 < m.
  Definition d1 (x : R) : R := Sum i < 7, cfm m A0 A1 A2 i * (INR (S i) * x ^ i).
  Lemma d1_ok x : is_derive (fun x => x * serm m A0 A1 A2 x) x (d1 x).
  Proof.
    unfold d1, serm. set (a := cfm m A0 A1 A2). clearbody a. unfold rsum. cbn [seq fold_right map]. auto_derive; auto. cbn [INR pow]. ring.
  Qed.
  Definition nu (x : R) : R := (1 - x) ^ 4 * (2 - x) ^ 2.
  Definition nu1 (x : R) : R := - 4 * (1 - x) ^ 3 * (2 - x) ^ 2 - 2 * (1 - x) ^ 4 * (2 - x).
  Definition de1 (x : R) : R := nu1 x + m * ((8 - 4 * x) * (2 - x) ^ 2 - 2 * (8 * x - 2 * x ^ 2) * (2 - x))
    + (1 - m) * ((20 - 54 * x + 36 * x ^ 2 - 8 * x ^ 3) * (1 - x) ^ 2 - 2 * (20 * x - 27 * x ^ 2 + 12 * x ^ 3 - 2 * x ^ 4) * (1 - x)).
  Definition sb1 (x : R) : R := Sum i < 6, cfm m B0 B1 B2 (S i) * (INR (S i) * x ^ i).
  Definition d2 (x : R) : R :=
    let S := serm m B0 B1 B2 x in let D := denom m x in
    nu x / D * S + x * ((nu1 x * D - nu x * de1 x) / D ^ 2 * S + nu x / D * sb1 x).
  Lemma d2_ok x : 0 <= x <= 1 -> is_derive (fun x => x * (compm m x * serm m B0 B1 B2 x)) x (d2 x).
  Proof.
    intros Hx. pose proof (denom_pos m Hm x Hx) as ND.
    assert (Dn : is_derive nu x (nu1 x)) by (unfold nu, nu1; auto_derive; auto; ring).
    assert (Dd : is_derive (denom m) x (de1 x)) by (unfold denom, de1, nu1; auto_derive; auto; ring).
    assert (Ds : is_derive (serm m B0 B1 B2) x (sb1 x)).
    { unfold sb1, serm. set (a := cfm m B0 B1 B2). clearbody a. unfold rsum. cbn [seq fold_right map]. auto_derive; auto. cbn [INR pow]. ring. }
    assert (Dc : is_derive (compm m) x ((nu1 x * denom m x - nu x * de1 x) / denom m x ^ 2)).
    { replace ((nu1 x * denom m x - nu x * de1 x) / denom m x ^ 2) with (nu1 x * / denom m x + nu x * - (de1 x * (/ denom m x * / denom m x))) by (field; auto).
      unfold compm. apply (d_mult nu (fun x => / denom m x)); auto. apply d_inv; auto. }
    replace (d2 x) with (1 * (compm m x * serm m B0 B1 B2 x) + x * ((nu1 x * denom m x - nu x * de1 x) / denom m x ^ 2 * serm m B0 B1 B2 x + compm m x * sb1 x)).
    - apply (d_mult (fun x => x) (fun x => compm m x * serm m B0 B1 B2 x)); [auto_derive; auto | ]. apply d_mult; auto.
    - unfold d2, compm. fold (nu x). field. auto.
  Qed.
End Slopes.

Definition bm : R := 2.331586.
Lemma bm_eq : M (mix_of but) 0 = bm. Proof. reflexivity. Qed.
Lemma bm_pos : 0 < M (mix_of but) 0. Proof. rewrite bm_eq. unfold bm. lra. Qed.
Definition bcurve (x : R) : R := curve but (d1 bm) (d2 bm) 100 x.
Ltac num :=
  unfold bcurve, curve, str1, str2, chain1, d1, d2, sb1, nu, nu1, de1, serm, denom, cfm, Eij, Eij0, Di, lit, Rlit;
  unfold rsum; cbn [seq fold_right map];
  change (M (mix_of but) 0) with bm; change (Sg (mix_of but) 0) with (3.708601); change (Ep (mix_of but) 0) with (222.8774);
  change (Kij (mix_of but) 0 0) with 0; cbn [nth A0 A1 A2 B0 B1 B2 Qnum Qden INR]; unfold bm.
Lemma at_39 : bcurve 0.39 < 0. Proof. num. interval. Qed.
Lemma at_65 : 18 < bcurve 0.65. Proof. num. interval. Qed.
Lemma at_78 : bcurve 0.78 < 0. Proof. num. interval. Qed.
Lemma at_90 : 18 < bcurve 0.9. Proof. num. interval. Qed.
Lemma bclose : 62 < close but 100 [1] < 63.
Proof.
  unfold close, Di. change (length (p_m but)) with 1%nat. unfold rsum. cbn [seq fold_right map].
  change (M (mix_of but) 0) with (2.331586). change (Sg (mix_of but) 0) with (3.708601). change (Ep (mix_of but) 0) with (222.8774).
  cbn [nth]. split; interval.
Qed.
(** root of a continuous function between two points, either way round *)
Lemma root_up (f : R -> R) a b k : a < b -> (forall x, a <= x <= b -> continuous f x) -> f a < k -> k < f b -> exists x, a < x < b /\ f x = k.
Proof.
  intros Hab C Ha Hb. destruct (Ranalysis5.IVT_interv (fun x => f x - k) a b) as (z & Hz & E); [ | auto | lra | lra | ].
  - intros x Hx. apply continuity_pt_filterlim. pose proof (C x Hx). change (continuous (fun x => f x - k) x). cont.
  - exists z. split; [ | lra]. destruct (Req_dec z a) as [-> | N1]; [lra | ]. destruct (Req_dec z b) as [-> | N2]; [lra | ]. lra.
Qed.
Lemma root_down (f : R -> R) a b k : a < b -> (forall x, a <= x <= b -> continuous f x) -> k < f a -> f b < k -> exists x, a < x < b /\ f x = k.
Proof.
  intros Hab C Ha Hb. destruct (root_up (fun x => - f x) a b (- k)) as (x & Hx & E); [auto | | lra | lra | exists x; split; [auto | lra]].
  intros x Hx. pose proof (C x Hx). cont.
Qed.

(** One would expect at most one volume of liquid-like density per temperature and pressure.  Butane at 100 K has three
    above a packing fraction of 0.39, for every pressure up to 0.28 kT per cubic Angstrom. *)
Theorem C59_one_liquid_refuted P : 0 < P <= 0.28 -> forall lu2 o, let c := close but 100 [1] in
  exists v1 v2 v3, c < v1 < v2 /\ v2 < v3 /\ 0.39 * v3 < c /\
    reduced_pressure but 100 [1] lu2 o v1 P /\ reduced_pressure but 100 [1] lu2 o v2 P /\ reduced_pressure but 100 [1] lu2 o v3 P.
Proof.
  intros HP lu2 o c. pose proof bclose as Hc. fold c in Hc. destruct but_none as (E1 & E2 & E3).
  destruct (df_slopes _ (df_first (M (mix_of but) 0) 3)) as (g1 & G1 & _ & D1 & DD1 & _). destruct (df_slopes _ (df_second (M (mix_of but) 0) bm_pos 3)) as (g2 & G2 & _ & D2 & DD2 & _).
  assert (Eq : forall x, 0 <= x <= 1 -> curve but g1 g2 100 x = bcurve x).
  { intros x Hx. unfold bcurve, curve.
    replace (g1 x) with (d1 bm x) by (rewrite <- (is_derive_unique _ _ _ (D1 x Hx)); symmetry; apply is_derive_unique; exact (d1_ok bm x)).
    replace (g2 x) with (d2 bm x) by (rewrite <- (is_derive_unique _ _ _ (D2 x Hx)); symmetry; apply is_derive_unique; exact (d2_ok bm bm_pos x Hx)). reflexivity. }
  assert (Cc : forall x, 0 <= x < 1 -> continuous (curve but g1 g2 100) x).
  { intros x Hx. exact (d_cont _ _ _ (curve_d but but_phys eq_refl E1 E2 E3 g1 g2 G1 G2 DD1 DD2 100 x Hx)). }
  set (k := P * c). assert (Hk : 0 < k < 18) by (unfold k; split; [apply Rmult_lt_0_compat; lra | nra]).
  pose proof at_39 as Y1. pose proof at_65 as Y2. pose proof at_78 as Y3. pose proof at_90 as Y4. rewrite <- Eq in Y1, Y2, Y3, Y4 by lra.
  set (f := curve but g1 g2 100) in *.
  destruct (root_up f 0.39 0.65 k ltac:(lra) ltac:(intros; apply Cc; lra) ltac:(lra) ltac:(lra)) as (x3 & X3 & F3).
  destruct (root_down f 0.65 0.78 k ltac:(lra) ltac:(intros; apply Cc; lra) ltac:(lra) ltac:(lra)) as (x2 & X2 & F2).
  destruct (root_up f 0.78 0.9 k ltac:(lra) ltac:(intros; apply Cc; lra) ltac:(lra) ltac:(lra)) as (x1 & X1 & F1).
  assert (Ord : forall x y, 0 < x < y -> c / y < c / x).
  { intros x y Hxy. unfold Rdiv. apply Rmult_lt_compat_l; [lra | ]. apply Rinv_lt_contravar; [apply Rmult_lt_0_compat; lra | lra]. }
  assert (Pr : forall x, 0 < x < 1 -> f x = k -> reduced_pressure but 100 [1] lu2 o (c / x) P).
  { intros x Hx Fx. pose proof (Ord x 1 Hx) as Lc. replace (c / 1) with c in Lc by field.
    pose proof (press_ok _ _ _ but_ok but_phys eq_refl 1 ltac:(lra) E1 E2 E3 g1 g2 D1 D2 100 lu2 o (c / x) ltac:(lra) Lc) as R1.
    unfold press in R1. fold c in R1. replace (c / (c / x)) with x in R1 by (field; lra). fold f in R1. rewrite Fx in R1. unfold k in R1. replace (1 / c * (P * c)) with P in R1 by (field; lra). exact R1. }
  exists (c / x1), (c / x2), (c / x3). pose proof (Ord x1 1 ltac:(lra)) as Lc. replace (c / 1) with c in Lc by field.
  split; [split; [exact Lc | apply Ord; lra] | ]. split; [apply Ord; lra | ]. split.
  - apply Rmult_lt_reg_r with (x3 / c); [apply Rdiv_lt_0_compat; lra | ]. replace (0.39 * (c / x3) * (x3 / c)) with 0.39 by (field; lra). replace (c * (x3 / c)) with x3 by (field; lra). lra.
  - split; [apply Pr; [lra | auto] | split; apply Pr; auto; lra].
Qed.
Print Assumptions C59_one_liquid_refuted.
Print Assumptions C59_above_critical.
Print Assumptions C59_case.
