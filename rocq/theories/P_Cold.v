(** C57, continued: at sufficiently low temperature every pure non-polar non-associating fluid with an attraction has a
    vapour-liquid equilibrium.  The square of the temperature times the energy tends to the second-order dispersion term
    at full diameter, and that term is concave in the volume at low density. *)
From Coq Require Import ZArith QArith Reals Lra Lia String List Bool Psatz.
From Coquelicot Require Import Coquelicot.
From Verif Require Import Num RNum RSum Tables M_Params F_Params M_Eos Spec F_Spec F_SpecPolar
  F_SpecAssoc F_Contrib F_Cross F_Total Samples F_Limit P_Basic P_Limit P_HighT P_Params P_Select XNum DNum F_Transfer F_Transfer2 F_Transfer3 F_Level P_Dual P_Dual2 P_Close P_Npt P_Vle.
Import ListNotations.
Local Open Scope R_scope.
Set Bullet Behavior "Strict Subproofs".
Notation length := List.length.

Lemma exp_small e t : 0 < e -> 0 < t -> 0 <= exp (- 3 * e / t) <= t / (3 * e).
Proof.
  intros He Ht. split; [left; apply exp_pos | ]. assert (Px : 0 < 3 * e / t) by (apply Rdiv_lt_0_compat; lra).
  replace (- 3 * e / t) with (- (3 * e / t)) by (unfold Rdiv; ring). rewrite exp_Ropp. replace (t / (3 * e)) with (/ (3 * e / t)) by (field; lra).
  apply Rinv_le_contravar; auto. pose proof (exp_ineq1_le (3 * e / t)). lra.
Qed.
(** limit t -> 0 of t^2 H + t U1 + U2, all of them functions of y = exp(-3e/t) *)
Lemma cold_limit (H U1 U2 : R -> R) e : 0 < e -> continuous H 0 -> continuous U1 0 -> continuous U2 0 -> forall eps, 0 < eps ->
  exists T0, 0 < T0 /\ forall t, 0 < t < T0 -> let y := exp (- 3 * e / t) in Rabs (t ^ 2 * H y + t * U1 y + U2 y - U2 0) < eps.
Proof.
  intros He CH C1 C2 eps Heps. destruct (continuous_bound H CH 1 Rlt_0_1) as (d0 & Hd0 & B0). destruct (continuous_bound U1 C1 1 Rlt_0_1) as (d1 & Hd1 & B1).
  destruct (continuous_bound U2 C2 (eps / 3) ltac:(lra)) as (d2 & Hd2 & B2).
  set (b0 := Rabs (H 0) + 1). set (b1 := Rabs (U1 0) + 1). assert (P0 : 0 < b0) by (pose proof (Rabs_pos (H 0)); unfold b0; lra). assert (P1 : 0 < b1) by (pose proof (Rabs_pos (U1 0)); unfold b1; lra).
  set (d := Rmin d0 (Rmin d1 d2)). assert (Hd : 0 < d) by (repeat apply Rmin_pos; auto).
  assert (L0 : d <= d0) by apply Rmin_l. assert (L1 : d <= d1) by (eapply Rle_trans; [apply Rmin_r | apply Rmin_l]). assert (L2 : d <= d2) by (eapply Rle_trans; [apply Rmin_r | apply Rmin_r]).
  set (T0 := Rmin (Rmin 1 (d * (3 * e))) (Rmin (eps / 3 / b0) (eps / 3 / b1))).
  assert (Q1 : 0 < eps / 3 / b0) by (apply Rdiv_lt_0_compat; lra). assert (Q2 : 0 < eps / 3 / b1) by (apply Rdiv_lt_0_compat; lra). assert (Q3 : 0 < d * (3 * e)) by (apply Rmult_lt_0_compat; lra).
  exists T0. split; [unfold T0; repeat apply Rmin_pos; auto; lra | ]. intros t Ht y.
  assert (M1 : T0 <= 1) by (eapply Rle_trans; [apply Rmin_l | apply Rmin_l]). assert (M2 : T0 <= d * (3 * e)) by (eapply Rle_trans; [apply Rmin_l | apply Rmin_r]).
  assert (M3 : T0 <= eps / 3 / b0) by (eapply Rle_trans; [apply Rmin_r | apply Rmin_l]). assert (M4 : T0 <= eps / 3 / b1) by (eapply Rle_trans; [apply Rmin_r | apply Rmin_r]).
  destruct (exp_small e t He ltac:(lra)) as [E1 E2]. fold y in E1, E2.
  assert (E3 : t / (3 * e) < d). { apply Rmult_lt_reg_r with (3 * e); [lra | ]. unfold Rdiv. rewrite Rmult_assoc, Rinv_l; lra. }
  specialize (B0 y ltac:(lra)). specialize (B1 y ltac:(lra)). specialize (B2 y ltac:(lra)).
  assert (A0 : Rabs (H y) <= b0). { unfold b0. replace (H y) with ((H y - H 0) + H 0) by ring. pose proof (Rabs_triang (H y - H 0) (H 0)). lra. }
  assert (A1 : Rabs (U1 y) <= b1). { unfold b1. replace (U1 y) with ((U1 y - U1 0) + U1 0) by ring. pose proof (Rabs_triang (U1 y - U1 0) (U1 0)). lra. }
  assert (N0 : t * b0 < eps / 3). { apply Rlt_le_trans with (eps / 3 / b0 * b0); [apply Rmult_lt_compat_r; lra | right; field; lra]. }
  assert (N1 : t * b1 < eps / 3). { apply Rlt_le_trans with (eps / 3 / b1 * b1); [apply Rmult_lt_compat_r; lra | right; field; lra]. }
  assert (K0 : Rabs (t ^ 2 * H y) < eps / 3).
  { rewrite Rabs_mult, Rabs_right by (apply Rle_ge, pow_le; lra). assert (t ^ 2 * Rabs (H y) <= t ^ 2 * b0) by (apply Rmult_le_compat_l; [apply pow_le; lra | auto]).
    assert (t ^ 2 * b0 <= t * b0) by (replace (t ^ 2 * b0) with (t * (t * b0)) by ring; rewrite <- (Rmult_1_l (t * b0)) at 2; apply Rmult_le_compat_r; [apply Rmult_le_pos; lra | lra]). lra. }
  assert (K1 : Rabs (t * U1 y) < eps / 3).
  { rewrite Rabs_mult, Rabs_right by lra. assert (t * Rabs (U1 y) <= t * b1) by (apply Rmult_le_compat_l; lra). lra. }
  replace (t ^ 2 * H y + t * U1 y + U2 y - U2 0) with (t ^ 2 * H y + t * U1 y + (U2 y - U2 0)) by ring.
  pose proof (Rabs_triang (t ^ 2 * H y + t * U1 y) (U2 y - U2 0)). pose proof (Rabs_triang (t ^ 2 * H y) (t * U1 y)). lra.
Qed.

Section Cold.
  Variables (prs : list (pure_record RNum)) (bin : list (list R)) (p : params RNum).
  Hypothesis Hp : from_records prs bin = Some p.
  Hypothesis Hph : phys p.
  Hypothesis H1 : length (p_m p) = 1%nat.
  Variable n : R.
  Hypothesis Hn : 0 < n.
  Hypothesis Hd : p_ndipole p = 0%nat.
  Hypothesis Hq : p_nquadpole p = 0%nat.
  Hypothesis Hass : p_nassoc p = 0%nat.
  Let X := mix_of p.
  Let m := M X 0. Let s := Sg X 0. Let e := Ep X 0.
  (** the fluid has an attraction *)
  Hypothesis Hk : Kij X 0 0 <> 1.

  Lemma ms : 0 < m /\ 0 < s /\ 0 < e.
  Proof. destruct (Hph 0%nat ltac:(lia)) as (A & B & C). auto. Qed.
  Lemma q2_pos : 0 < Eij X 0 0 ^ 2.
  Proof.
    destruct ms as (_ & _ & He). unfold Eij, Eij0. fold e. rewrite sqrt_square by lra.
    assert ((1 - Kij X 0 0) * e <> 0) by (apply Rmult_integral_contrapositive; split; lra). apply pow2_gt_0. auto.
  Qed.
  (** volume of the segments at full diameter *)
  Definition core : R := PI / 6 * (n * m * s ^ 3).
  Lemma core_pos : 0 < core.
  Proof. destruct ms as (A & B & _). pose proof PI_RGT_0. unfold core. apply Rmult_lt_0_compat; [lra | ]. apply Rmult_lt_0_compat; [apply Rmult_lt_0_compat; auto | apply pow_lt; auto]. Qed.

  Section AtVolume.
    Variable v : R.
    Hypothesis Hv : core < v.
    Let r := n / v.
    Let rho := fun i => nth i [n] 0 / v.
    Lemma v_pos : 0 < v. Proof. pose proof core_pos. lra. Qed.
    Lemma r_pos : 0 < r. Proof. apply Rdiv_lt_0_compat; [auto | apply v_pos]. Qed.
    Definition Zy (k : nat) (y : R) : R := PI / 6 * (r * m * (s * (1 - 12 / 100 * y)) ^ k).
    Lemma Zy_eq t k : Zeta X t rho k = Zy k (exp (- 3 * e / t)).
    Proof. unfold Zeta. change (Spec.N X) with (length (p_m p)). rewrite H1. unfold rsum. cbn [seq fold_right map]. unfold Zy, rho, r, m, s, e, Di. cbn [nth]. ring. Qed.
    Lemma Zy_c k : continuous (Zy k) 0. Proof. unfold Zy. cont. Qed.
    Lemma Zy_pos k : 0 < Zy k 0.
    Proof.
      destruct ms as (A & B & _). pose proof PI_RGT_0. unfold Zy. apply Rmult_lt_0_compat; [lra | ]. apply Rmult_lt_0_compat; [apply Rmult_lt_0_compat; [apply r_pos | auto] | ].
      apply pow_lt. apply Rmult_lt_0_compat; lra.
    Qed.
    Lemma Zy3 : Zy 3 0 = core / v. Proof. pose proof v_pos. unfold Zy, core, r. field. lra. Qed.
    Lemma Zy3_lt : Zy 3 0 < 1.
    Proof. rewrite Zy3. pose proof v_pos. apply Rmult_lt_reg_r with v; auto. unfold Rdiv. rewrite Rmult_assoc, Rinv_l; lra. Qed.
    (** hard chains *)
    Definition Hy (y : R) : R :=
      let Z k := Zy k y in let d := s * (1 - 12 / 100 * y) in let D := d * d / (d + d) in
      v * (6 / PI * (3 * Z 1%nat * Z 2%nat / (1 - Z 3%nat) + Z 2%nat ^ 3 / (Z 3%nat * (1 - Z 3%nat) ^ 2) + (Z 2%nat ^ 3 / Z 3%nat ^ 2 - Z 0%nat) * ln (1 - Z 3%nat)))
      + v * - (r * (m - 1) * ln (1 / (1 - Z 3%nat) + D * (3 * Z 2%nat / (1 - Z 3%nat) ^ 2) + D ^ 2 * (2 * Z 2%nat ^ 2 / (1 - Z 3%nat) ^ 3))).
    Lemma Hy_eq t : v * f_hs X t rho + v * f_hc X t rho = Hy (exp (- 3 * e / t)).
    Proof.
      unfold f_hs, f_hc, Gij. rewrite !Zy_eq. change (Spec.N X) with (length (p_m p)). rewrite H1. unfold rsum. cbn [seq fold_right map].
      change (Di X t 0) with (s * (1 - 12 / 100 * exp (- 3 * e / t))). change (rho 0%nat) with r. change (M X 0) with m. unfold Hy. cbv zeta. rewrite Rplus_0_r. reflexivity.
    Qed.
    Lemma Hy_c : continuous Hy 0.
    Proof.
      pose proof Zy3_lt as L. pose proof (Zy_pos 3) as P3. pose proof (Zy_pos 2) as P2. destruct ms as (A & B & _).
      assert (S0 : s * (1 - 12 / 100 * 0) = s) by ring. assert (Sp : 0 < s * (1 - 12 / 100 * 0)) by (rewrite S0; auto).
      pose proof (Zy_c 0) as K0. pose proof (Zy_c 1) as K1. pose proof (Zy_c 2) as K2. pose proof (Zy_c 3) as K3.
      assert (Q1 : 1 - Zy 3 0 <> 0) by lra. assert (Q2 : forall k, (1 - Zy 3 0) ^ k <> 0) by (intros; apply pow_nonzero; auto).
      unfold Hy. cbv zeta. cont; cbv beta; auto; try lra.
      - apply Rmult_integral_contrapositive. split; [lra | apply Q2].
      - apply pow_nonzero. lra.
      - set (d := s * (1 - 12 / 100 * 0)) in *. clearbody d. assert (PD : 0 < d * d / (d + d)) by (apply Rdiv_lt_0_compat; [apply Rmult_lt_0_compat; auto | lra]). set (D := d * d / (d + d)) in *. clearbody D.
        set (z := Zy 3 0) in *. set (z2 := Zy 2 0) in *. clearbody z z2. assert (W : 0 < / (1 - z)) by (apply Rinv_0_lt_compat; lra).
        replace (1 / (1 - z) + D * (3 * z2 / (1 - z) ^ 2) + D ^ 2 * (2 * z2 ^ 2 / (1 - z) ^ 3)) with (/ (1 - z) + 3 * (D * z2) * (/ (1 - z)) ^ 2 + 2 * (D * z2) ^ 2 * (/ (1 - z)) ^ 3) by (field; lra).
        assert (PZ : 0 < D * z2) by (apply Rmult_lt_0_compat; auto). set (x := D * z2) in *. set (w := / (1 - z)) in *. clearbody x w.
        assert (0 < w ^ 2) by (apply pow_lt; auto). assert (0 < w ^ 3) by (apply pow_lt; auto). assert (0 < x ^ 2) by (apply pow_lt; auto).
        assert (0 < x * w ^ 2) by (apply Rmult_lt_0_compat; auto). assert (0 < x ^ 2 * w ^ 3) by (apply Rmult_lt_0_compat; auto). lra.
    Qed.
    (** dispersion *)
    Lemma Mbar_m : Mbar X rho = m.
    Proof. unfold Mbar, Rho. change (Spec.N X) with (length (p_m p)). rewrite H1. unfold rsum. cbn [seq fold_right map]. change (rho 0%nat) with r. change (M X 0) with m. pose proof r_pos. field. lra. Qed.
  End AtVolume.
  Definition cf (c0 c1 c2 : list Q) (i : nat) : R := lit c0 i + (m - 1) / m * lit c1 i + (m - 1) / m * ((m - 2) / m) * lit c2 i.
  Definition ser (c0 c1 c2 : list Q) (x : R) : R := Sum i < 7, cf c0 c1 c2 i * x ^ i.
  Lemma ser_c c0 c1 c2 (g : R -> R) x : continuous g x -> continuous (fun y => ser c0 c1 c2 (g y)) x.
  Proof. intros C. unfold ser. cont. Qed.
  Definition comp (x : R) : R := / inv_compressibility m x.
  Lemma comp_c (g : R -> R) x : 0 <= g x < 1 -> continuous g x -> continuous (fun y => comp (g y)) x.
  Proof.
    intros Hg C. destruct ms as (A & _ & _). pose proof (inv_compressibility_ge1 m (g x) A Hg) as I.
    assert (E : forall y : R, 1 / inv_compressibility m (g y) = comp (g y)) by (intros y; unfold comp, Rdiv; ring).
    apply (continuous_ext (fun y => 1 / inv_compressibility m (g y)) (fun y => comp (g y)) x E).
    apply (continuous_Rdiv (fun _ => 1) (fun y => inv_compressibility m (g y))); [apply c_const | | lra].
    unfold inv_compressibility. cont; cbv beta.
    - apply pow_nonzero. lra.
    - apply pow_nonzero. apply Rmult_integral_contrapositive. split; lra.
  Qed.
  Definition kap : R := PI * m * (m * m * Eij X 0 0 ^ 2 * s ^ 3).
  Lemma kap_pos : 0 < kap.
  Proof.
    destruct ms as (A & B & _). pose proof PI_RGT_0. pose proof q2_pos. unfold kap. apply Rmult_lt_0_compat; [apply Rmult_lt_0_compat; auto | ].
    apply Rmult_lt_0_compat; [ | apply pow_lt; auto]. apply Rmult_lt_0_compat; [apply Rmult_lt_0_compat; auto | auto].
  Qed.

  Section AtVolume2.
    Variable v : R.
    Hypothesis Hv : core < v.
    Let r := n / v.
    Let rho := fun i => nth i [n] 0 / v.
    Lemma MbE : Mbar X rho = m. Proof. exact (Mbar_m v Hv). Qed.
    Lemma ZyE t k : Zeta X t rho k = Zy v k (exp (- 3 * e / t)). Proof. exact (Zy_eq v t k). Qed.
    Definition U1y (y : R) : R := v * (- 2 * PI * ser A0 A1 A2 (Zy v 3 y) * (r * r * m * m * Eij X 0 0 * s ^ 3)).
    Definition U2y (y : R) : R := - (n * n * / v * kap * (comp (Zy v 3 y) * ser B0 B1 B2 (Zy v 3 y))).
    Lemma mix_t t k : 0 < t -> mixsum X t rho k = (/ t) ^ k * (r * r * m * m * Eij X 0 0 ^ k * s ^ 3).
    Proof.
      intros Ht. unfold mixsum. change (Spec.N X) with (length (p_m p)). rewrite H1. unfold rsum. cbn [seq fold_right map].
      change (rho 0%nat) with r. change (M X 0) with m. unfold Rdiv at 1. rewrite Rpow_mult_distr. replace (Sij X 0 0) with s by (unfold Sij; fold s; field). ring.
    Qed.
    Lemma disp_eq t : 0 < t -> v * f_disp X t rho = / t * U1y (exp (- 3 * e / t)) + (/ t) ^ 2 * U2y (exp (- 3 * e / t)).
    Proof.
      intros Ht. pose proof (v_pos v Hv) as Pv.
      assert (Ps : forall c0 c1 c2, power_series X t rho c0 c1 c2 = ser c0 c1 c2 (Zy v 3 (exp (- 3 * e / t)))).
      { intros. unfold power_series, ser, cf. rewrite MbE. unfold Eta. rewrite ZyE. reflexivity. }
      assert (Ec : C1 X t rho = comp (Zy v 3 (exp (- 3 * e / t)))).
      { unfold C1, comp, inv_compressibility, Eta. rewrite MbE, ZyE. unfold Rdiv. rewrite Rmult_1_l. reflexivity. }
      unfold f_disp. rewrite !Ps, Ec, MbE, !mix_t by auto. unfold U1y, U2y, kap. set (x := Zy v 3 _). unfold r. field. lra.
    Qed.
    Lemma U1_c : continuous U1y 0. Proof. unfold U1y. pose proof (ser_c A0 A1 A2 (Zy v 3) 0 (Zy_c v 3)). cont. Qed.
    Lemma U2_c : continuous U2y 0.
    Proof.
      unfold U2y. pose proof (ser_c B0 B1 B2 (Zy v 3) 0 (Zy_c v 3)).
      assert (continuous (fun y => comp (Zy v 3 y)) 0). { apply (comp_c (Zy v 3)); [ | apply Zy_c]. pose proof (Zy_pos v Hv 3). pose proof (Zy3_lt v Hv). lra. }
      cont.
    Qed.
    (** the energy in units of 1/t^2 *)
    Lemma cold_energy lu o eps : 0 < eps -> exists T0, 0 < T0 /\ forall t f, 0 < t < T0 ->
      (forall V, residual lu (with_options p o) (@state_new RNum t V [n]) = Some (f V)) -> close p t [n] < v -> Rabs (t ^ 2 * f v - U2y 0) < eps.
    Proof.
      intros He0. destruct ms as (_ & _ & Pe). destruct (cold_limit (Hy v) U1y U2y e Pe (Hy_c v Hv) U1_c U2_c eps He0) as (T0 & HT0 & L).
      exists T0. split; auto. intros t f Ht Hf Hc. specialize (L t Ht). cbv zeta in L.
      assert (Ht0 : 0 < t) by lra. pose proof (PSv p Hph t [n] Ht0 (len1 p H1 n) (nn1 p H1 n Hn) (ne1 p H1 n Hn) v Hc) as PS.
      specialize (Hf v). rewrite residual_total in Hf. unfold assoc_term in Hf. rewrite Hass in Hf. apply Some_inj in Hf.
      rewrite a_dipole_none, a_quadrupole_none, a_dq_none_d in Hf by auto. pose proof (wfp_from_records _ _ _ Hp) as W.
      rewrite (hs_textbook p W Hph t v [n] PS), (hc_textbook p W Hph t v [n] PS), (disp_textbook p W t v [n] PS) in Hf. fold X rho in Hf. rewrite !Rplus_0_r in Hf.
      unfold rho in Hf. rewrite (Hy_eq v) in Hf. fold rho in Hf. rewrite disp_eq in Hf by auto. rewrite <- Hf.
      replace (t ^ 2 * (Hy v (exp (- 3 * e / t)) + (/ t * U1y (exp (- 3 * e / t)) + (/ t) ^ 2 * U2y (exp (- 3 * e / t)))))
        with (t ^ 2 * Hy v (exp (- 3 * e / t)) + t * U1y (exp (- 3 * e / t)) + U2y (exp (- 3 * e / t))) by (field; lra). exact L.
    Qed.
  End AtVolume2.
  Lemma close_core t : 0 < t -> close p t [n] <= core.
  Proof.
    intros Ht. unfold close. rewrite H1. unfold rsum. cbn [seq fold_right map]. destruct ms as (A & B & C). fold X. change (M X 0) with m. cbn [nth].
    change (Di X t 0) with (s * (1 - 12 / 100 * exp (- 3 * e / t))). pose proof PI_RGT_0. unfold core. rewrite Rplus_0_r. apply Rmult_le_compat_l; [lra | ]. apply Rmult_le_compat_l; [apply Rmult_le_pos; lra | ].
    pose proof (exp_pos (- 3 * e / t)). assert (exp (- 3 * e / t) < 1). { rewrite <- exp_0. apply exp_increasing. assert (0 < e / t) by (apply Rdiv_lt_0_compat; auto). unfold Rdiv in *. lra. }
    apply pow_incr. split; [apply Rmult_le_pos; lra | ]. rewrite <- (Rmult_1_r s) at 2. apply Rmult_le_compat_l; lra.
  Qed.

  (** second-order dispersion at full diameter and low density *)
  Definition hh (u : R) : R := comp (core * u) * ser B0 B1 B2 (core * u).
  Lemma U2_u v : core < v -> U2y v 0 = - (n * n * kap * (/ v * hh (/ v))).
  Proof. intros Hv. unfold U2y, hh. rewrite (Zy3 v Hv). unfold Rdiv. ring. Qed.
  Lemma b_lead : 0 < cf B0 B1 B2 0.
  Proof.
    destruct ms as (A & _ & _). unfold cf, lit, Rlit. cbn [nth B0 B1 B2 Qnum Qden]. set (x := (m - 1) / m). replace ((m - 2) / m) with (2 * x - 1) by (unfold x; field; lra).
    assert (x < 1) by (unfold x; apply Rmult_lt_reg_r with m; auto; unfold Rdiv; rewrite Rmult_assoc, Rinv_l; lra). clearbody x. nra.
  Qed.
  Lemma hh_c : continuous hh 0.
  Proof.
    unfold hh. assert (C : continuous (fun u => core * u) 0) by cont. pose proof (ser_c B0 B1 B2 (fun u => core * u) 0 C).
    assert (continuous (fun u => comp (core * u)) 0) by (apply (comp_c (fun u => core * u)); auto; lra). cont.
  Qed.
  Lemma hh_0 : 0 < hh 0.
  Proof.
    unfold hh. rewrite Rmult_0_r. destruct ms as (A & _ & _). pose proof (inv_compressibility_ge1 m 0 A ltac:(lra)). apply Rmult_lt_0_compat; [apply Rinv_0_lt_compat; lra | ].
    replace (ser B0 B1 B2 0) with (cf B0 B1 B2 0); [exact b_lead | ]. unfold ser, rsum. cbn [seq fold_right map pow]. ring.
  Qed.

  (** Every such fluid has a vapour-liquid equilibrium below some temperature. *)
  Theorem C57_low_temperature lu2 o : exists T0, 0 < T0 /\ forall t, 0 < t < T0 ->
    exists P v1 v2, 0 < P /\ close p t [n] < v1 < v2 /\ coexist p t n lu2 o P v1 v2.
  Proof.
    set (lu := fun (_ : list (list R)) (_ : list R) => @None (list R)).
    set (h0 := hh 0). pose proof hh_0 as Ph. fold h0 in Ph. pose proof core_pos as Pc. pose proof kap_pos as Pk.
    destruct (continuous_bound hh hh_c (h0 / 10) ltac:(lra)) as (d & Hd0 & HB). fold h0 in HB.
    set (u := Rmin (d / 2) (/ (2 * core))). assert (I2 : 0 < / (2 * core)) by (apply Rinv_0_lt_compat; lra). assert (Pu : 0 < u) by (apply Rmin_pos; lra).
    assert (U1 : u < d) by (pose proof (Rmin_l (d / 2) (/ (2 * core))); fold u in H; lra). assert (U2 : u <= / (2 * core)) by apply Rmin_r.
    set (va := / u). assert (Va : core < va).
    { assert (L2 : / / (2 * core) <= va) by (unfold va; apply Rinv_le_contravar; auto). rewrite Rinv_inv in L2. lra. }
    assert (Ia : / va = u) by (unfold va; apply Rinv_inv). assert (Ib : / (3 * va) = u / 3) by (unfold va; field; lra). assert (I0 : / (2 * va) = u / 2) by (unfold va; field; lra).
    set (k := n * n * kap). assert (Pkk : 0 < k) by (unfold k; apply Rmult_lt_0_compat; [apply Rmult_lt_0_compat; auto | auto]).
    set (eps := k * u * h0 / 100). assert (Pe : 0 < eps) by (unfold eps; apply Rdiv_lt_0_compat; [ | lra]; apply Rmult_lt_0_compat; [apply Rmult_lt_0_compat; auto | auto]).
    destruct (cold_energy va Va lu o eps Pe) as (Ta & HTa & La). destruct (cold_energy (3 * va) ltac:(lra) lu o eps Pe) as (Tb & HTb & Lb). destruct (cold_energy (2 * va) ltac:(lra) lu o eps Pe) as (Tc & HTc & Lc).
    set (lnn := n * Rabs (ln (2 * va) - (1 / 2 * ln va + (1 - 1 / 2) * ln (3 * va)))). assert (Pl : 0 <= lnn) by (apply Rmult_le_pos; [lra | apply Rabs_pos]).
    set (T0 := Rmin (Rmin Ta Tb) (Rmin Tc (Rmin 1 (eps / (lnn + 1))))).
    assert (Q : 0 < eps / (lnn + 1)) by (apply Rdiv_lt_0_compat; lra).
    exists T0. split; [unfold T0; repeat apply Rmin_pos; auto; lra | ]. intros t Ht.
    assert (M1 : T0 <= Ta) by (eapply Rle_trans; [apply Rmin_l | apply Rmin_l]). assert (M2 : T0 <= Tb) by (eapply Rle_trans; [apply Rmin_l | apply Rmin_r]).
    assert (M3 : T0 <= Tc) by (eapply Rle_trans; [apply Rmin_r | apply Rmin_l]). assert (M4 : T0 <= 1) by (eapply Rle_trans; [apply Rmin_r | eapply Rle_trans; [apply Rmin_r | apply Rmin_l]]).
    assert (M5 : T0 <= eps / (lnn + 1)) by (eapply Rle_trans; [apply Rmin_r | eapply Rle_trans; [apply Rmin_r | apply Rmin_r]]).
    assert (Ht0 : 0 < t) by lra. pose proof (close_core t Ht0) as Hcc.
    destruct (setting prs bin p Hp Hph H1 t n Ht0 Hn Hd Hq Hass lu lu2 o) as (f & Hf & _).
    specialize (La t f ltac:(lra) Hf ltac:(lra)). specialize (Lb t f ltac:(lra) Hf ltac:(lra)). specialize (Lc t f ltac:(lra) Hf ltac:(lra)).
    rewrite U2_u in La, Lb, Lc by lra. rewrite Ia in La. rewrite Ib in Lb. rewrite I0 in Lc. fold k in La, Lb, Lc.
    pose proof (HB u ltac:(lra)) as B1. pose proof (HB (u / 3) ltac:(lra)) as B3. pose proof (HB (u / 2) ltac:(lra)) as B2.
    apply Rabs_def2 in La. apply Rabs_def2 in Lb. apply Rabs_def2 in Lc. apply Rabs_def2 in B1. apply Rabs_def2 in B2. apply Rabs_def2 in B3.
    assert (V0 : 1 / 2 * va + (1 - 1 / 2) * (3 * va) = 2 * va) by lra.
    pose proof (C57_unstable prs bin p Hp Hph H1 t n Ht0 Hn Hd Hq Hass lu lu2 o f va (3 * va) (1 / 2) Hf ltac:(lra) ltac:(lra) ltac:(lra)) as C. cbv zeta in C. rewrite V0 in C.
    destruct C as (P & v1 & v2 & X1 & X2 & X3 & X4 & _); [ | exists P, v1, v2; split; auto; split; [lra | auto]].
    apply Rmult_lt_reg_l with (t ^ 2); [apply pow_lt; auto | ].
    assert (Lt : t ^ 2 * lnn < eps).
    { assert (t * (lnn + 1) < eps). { apply Rlt_le_trans with (eps / (lnn + 1) * (lnn + 1)); [apply Rmult_lt_compat_r; lra | right; field; lra]. }
      assert (t ^ 2 * lnn <= t * lnn). { replace (t ^ 2 * lnn) with (t * (t * lnn)) by ring. rewrite <- (Rmult_1_l (t * lnn)) at 2. apply Rmult_le_compat_r; [apply Rmult_le_pos; lra | lra]. } lra. }
    assert (Ln : t ^ 2 * (n * (ln (2 * va) - (1 / 2 * ln va + (1 - 1 / 2) * ln (3 * va)))) <= t ^ 2 * lnn).
    { apply Rmult_le_compat_l; [apply pow_le; lra | ]. unfold lnn. apply Rmult_le_compat_l; [lra | apply Rle_abs]. }
    set (fa := f va) in *. set (fb := f (3 * va)) in *. set (fc := f (2 * va)) in *. set (l1 := ln va) in *. set (l3 := ln (3 * va)) in *. set (l2 := ln (2 * va)) in *.
    set (a1 := hh u) in *. set (a3 := hh (u / 3)) in *. set (a2 := hh (u / 2)) in *. clearbody fa fb fc l1 l2 l3 a1 a2 a3.
    assert (Ku : 0 < k * u) by (apply Rmult_lt_0_compat; auto).
    assert (J1 : k * u * (9 / 10 * h0) <= k * (u * a1)) by (replace (k * (u * a1)) with (k * u * a1) by ring; apply Rmult_le_compat_l; lra).
    assert (J3 : k * u * (9 / 10 * h0) <= k * (u * a3)) by (replace (k * (u * a3)) with (k * u * a3) by ring; apply Rmult_le_compat_l; lra).
    assert (J2 : k * (u * a2) <= k * u * (11 / 10 * h0)) by (replace (k * (u * a2)) with (k * u * a2) by ring; apply Rmult_le_compat_l; lra).
    replace (k * (u / 3 * a3)) with (k * (u * a3) / 3) in Lb by (unfold Rdiv; ring). replace (k * (u / 2 * a2)) with (k * (u * a2) / 2) in Lc by (unfold Rdiv; ring).
    set (w1 := k * (u * a1)) in *. set (w2 := k * (u * a2)) in *. set (w3 := k * (u * a3)) in *.
    set (g := k * u * h0) in *. replace (k * u * (9 / 10 * h0)) with (9 / 10 * g) in J1, J3 by (unfold g; ring). replace (k * u * (11 / 10 * h0)) with (11 / 10 * g) in J2 by (unfold g; ring).
    assert (Eg : g = 100 * eps) by (unfold eps, g; field).
    clearbody w1 w2 w3 g. set (t2 := t ^ 2) in *. clearbody t2. change (car RNum) with R in *.
    assert (E1 : t2 * (1 / 2 * (fa - n * l1) + (1 - 1 / 2) * (fb - n * l3)) = 1 / 2 * (t2 * fa) + 1 / 2 * (t2 * fb) - t2 * (n * (1 / 2 * l1 + (1 - 1 / 2) * l3))) by field.
    assert (E2 : t2 * (fc - n * l2) = t2 * fc - t2 * (n * l2)) by ring.
    assert (E3 : t2 * (n * (l2 - (1 / 2 * l1 + (1 - 1 / 2) * l3))) = t2 * (n * l2) - t2 * (n * (1 / 2 * l1 + (1 - 1 / 2) * l3))) by ring.
    rewrite E1, E2. rewrite E3 in Ln. lra.
  Qed.
End Cold.

(** butane *)
Example C57_low_temperature_case : exists T0, 0 < T0 /\ forall t, 0 < t < T0 ->
  exists P v1 v2, 0 < P /\ close but t [1] < v1 < v2 /\ coexist but t 1 (fun _ _ => None) default_options P v1 v2.
Proof.
  destruct but_none as (E1 & E2 & E3). apply (C57_low_temperature _ _ _ but_ok but_phys eq_refl 1 ltac:(lra) E1 E2 E3).
  change (0 <> 1). lra.
Qed.
Print Assumptions C57_low_temperature.
Print Assumptions C57_low_temperature_case.
