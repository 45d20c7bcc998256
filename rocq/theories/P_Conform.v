(** Conformance tests, not proofs: the model evaluated at the states of the unit tests of /repo
    reproduces the reference values of these tests (up to the tolerances of the tests). *)
From Coq Require Import ZArith QArith Reals Lra Lia String List Bool.
From Coquelicot Require Import Coquelicot.
From Interval Require Import Tactic.
From Verif Require Import Num RNum RSum Tables M_Params F_Params M_Eos Spec F_Spec F_SpecPolar
  F_SpecAssoc F_Contrib Samples P_Params P_Basic P_Split.
Import ListNotations.
Local Open Scope R_scope.
Set Bullet Behavior "Strict Subproofs".

Definition t_propane : params RNum := from_records_raw [pr_propane] (zeros 1).
Lemma t_propane_ok : from_records [pr_propane] (zeros 1) = Some t_propane.
Proof. reflexivity. Qed.
Lemma t_propane_phys : phys t_propane.
Proof. intros i Hi. cbn in Hi. destruct i as [ | i]; cbn; try lra; lia. Qed.
Lemma t_propane_state : phys_state t_propane 250 1000 [1].
Proof.
  apply phys_state_intro; [exact t_propane_phys | lra | lra | reflexivity | | | ].
  - intros i Hi. cbn in Hi. destruct i as [ | i]; cbn; try lra; lia.
  - exists 0%nat. cbn. split; [lia | lra].
  - cbn. lra.
Qed.

(** hard_sphere.rs 85 *)
Example test_hard_sphere : Rabs (a_hs t_propane (@state_new RNum 250 1000 [1]) - 0.410610492598808) <= 1e-10.
Proof.
  rewrite (C39_hard_sphere _ _ _ t_propane_ok t_propane_phys 250 1000 [1] t_propane_state).
  unfold f_hs, Zeta, Di. cbn. interval with (i_prec 80).
Qed.
(** hard_chain.rs 54 *)
Example test_hard_chain : Rabs (a_hc t_propane (@state_new RNum 250 1000 [1]) - -0.12402626171926148) <= 1e-10.
Proof.
  rewrite (C39_hard_chain _ _ _ t_propane_ok t_propane_phys 250 1000 [1] t_propane_state).
  unfold f_hc, Gij, Zeta, Di. cbn. interval with (i_prec 80).
Qed.
(** dispersion.rs 141 *)
Example test_dispersion : Rabs (a_disp t_propane (@state_new RNum 250 1000 [1]) - -1.0622531100351962) <= 1e-10.
Proof.
  rewrite (C39_dispersion _ _ _ t_propane_ok 250 1000 [1] t_propane_state).
  unfold f_disp, power_series, C1, mixsum, Mbar, Rho, Eta, Zeta, Eij, Eij0, Sij, Di. cbn. interval with (i_prec 80).
Qed.

Lemma cbrt_pos x : 0 < x -> Rcbrt x = exp (ln x / 3).
Proof. intros H. unfold Rcbrt. destruct (Rlt_dec 0 x); [ | lra]. unfold Rpower. f_equal. lra. Qed.

Definition t_dme : params RNum := from_records_raw [pr_dme] (zeros 1).
Lemma t_dme_ok : from_records [pr_dme] (zeros 1) = Some t_dme.
Proof. reflexivity. Qed.
Lemma t_dme_phys : phys t_dme.
Proof. intros i Hi. cbn in Hi. destruct i as [ | i]; cbn; try lra; lia. Qed.
Lemma t_dme_state : phys_state t_dme 350 1000 [1].
Proof.
  apply phys_state_intro; [exact t_dme_phys | lra | lra | reflexivity | | | ].
  - intros i Hi. cbn in Hi. destruct i as [ | i]; cbn; try lra; lia.
  - exists 0%nat. cbn. split; [lia | lra].
  - cbn. lra.
Qed.
(** Turns the closed form of a polar term into an expression for interval arithmetic. *)
Ltac eval_polar X :=
  unfold pade2, dd2, dd3, qq2, qq3, dq2, dq3, J2, J3, J3dq, cm, Wi, Sij, Eij0, Eta, Zeta, Di, q1, q12, m2, m3, lit2, X;
  cbn [rsum seq map fold_right nth length AD BD CD AQ BQ CQ ADQ BDQ CDQ N M Sg Ep Mu2 Qu2 published pr_model Nat.ltb Nat.leb
       r_m r_sigma r_epsilon_k r_mu r_q opt_or pr_dme pr_co2];
  unfold Rlit, Q2R, ALPHA; cbn [Qnum Qden].
(** polar.rs 510 *)
Example test_dipole : Rabs (a_dipole t_dme (@state_new RNum 350 1000 [1]) - -1.40501033595417E-002) <= 1e-6.
Proof.
  rewrite (C39_dipole _ _ _ t_dme_ok t_dme_phys 350 1000 [1] t_dme_state).
  set (X := published [pr_dme] (zeros 1)).
  assert (Em : mp X 0 = 2) by (unfold mp; cbn; rewrite Rmin_right; lra).
  assert (E2 : m2 X 0 0 = 2) by (unfold m2; rewrite Em; replace (2 * 2) with (2 ^ 2) by ring; rewrite sqrt_pow2; lra).
  assert (E3 : m3 X 0 0 0 = exp (ln 8 / 3)) by (unfold m3; rewrite Em, cbrt_pos by lra; do 3 f_equal; ring).
  assert (EN : N X = 1%nat) by reflexivity.
  unfold f_dd, pade2, dd2, dd3. rewrite EN. cbn [rsum seq map fold_right].
  unfold J2, J3, cm. rewrite E2, E3.
  eval_polar X.
  interval with (i_prec 80).
Qed.

Definition t_co2 : params RNum := from_records_raw [pr_co2] (zeros 1).
Lemma t_co2_ok : from_records [pr_co2] (zeros 1) = Some t_co2.
Proof. reflexivity. Qed.
Lemma t_co2_phys : phys t_co2.
Proof. intros i Hi. cbn in Hi. destruct i as [ | i]; cbn; try lra; lia. Qed.
Lemma t_co2_state : phys_state t_co2 350 1000 [1].
Proof.
  apply phys_state_intro; [exact t_co2_phys | lra | lra | reflexivity | | | ].
  - intros i Hi. cbn in Hi. destruct i as [ | i]; cbn; try lra; lia.
  - exists 0%nat. cbn. split; [lia | lra].
  - cbn. lra.
Qed.
(** polar.rs 523 *)
Example test_quadrupole : Rabs (a_quadrupole t_co2 (@state_new RNum 350 1000 [1]) - -4.38559558854186E-002) <= 1e-6.
Proof.
  rewrite (C39_quadrupole_partial _ _ _ t_co2_ok t_co2_phys 350 1000 [1] t_co2_state)
    by (intros i j Hi Hj; cbn in Hi, Hj; replace i with 0%nat by lia; replace j with 0%nat by lia; reflexivity).
  set (X := published [pr_co2] (zeros 1)).
  assert (Em : mp X 0 = 1.5131) by (unfold mp; cbn; rewrite Rmin_left; lra).
  assert (EN : N X = 1%nat) by reflexivity.
  unfold f_qq, pade2, qq2, qq3. rewrite EN. cbn [rsum seq map fold_right].
  unfold J2, J3, cm, m2, m3, q1, q12. rewrite Em, cbrt_pos by lra.
  eval_polar X.
  interval with (i_prec 80).
Qed.

Definition t_mix : params RNum := from_records_raw [pr_dme; pr_co2] (zeros 2).
Lemma t_mix_ok : from_records [pr_dme; pr_co2] (zeros 2) = Some t_mix.
Proof. reflexivity. Qed.
Lemma t_mix_phys : phys t_mix.
Proof. intros i Hi. cbn in Hi. destruct i as [ | [ | i]]; cbn; try lra; lia. Qed.
Lemma t_mix_state : phys_state t_mix 350 1000 [1; 1].
Proof.
  apply phys_state_intro; [exact t_mix_phys | lra | lra | reflexivity | | | ].
  - intros i Hi. cbn in Hi. destruct i as [ | [ | i]]; cbn; try lra; lia.
  - exists 0%nat. cbn. split; [lia | lra].
  - cbn. lra.
Qed.
(** polar.rs 550 *)
Example test_mix_dispersion : Rabs (a_disp t_mix (@state_new RNum 350 1000 [1; 1]) - -1.6283622072860044) <= 1e-6.
Proof.
  rewrite (C39_dispersion _ _ _ t_mix_ok 350 1000 [1; 1] t_mix_state).
  unfold f_disp, power_series, C1, mixsum, Mbar, Rho, Eta, Zeta, Eij, Eij0, Sij, Di. cbn. interval with (i_prec 80).
Qed.
Lemma t_mix_mp : let X := published [pr_dme; pr_co2] (zeros 2) in mp X 0 = 2 /\ mp X 1 = 1.5131.
Proof. cbv zeta. unfold mp. cbn. rewrite Rmin_right, Rmin_left by lra. auto. Qed.
(** polar.rs 551 *)
Example test_mix_dipole : Rabs (a_dipole t_mix (@state_new RNum 350 1000 [1; 1]) - -1.35361827881345E-002) <= 1e-6.
Proof.
  rewrite (C39_dipole _ _ _ t_mix_ok t_mix_phys 350 1000 [1; 1] t_mix_state).
  pose proof t_mix_mp as Em. cbv zeta in Em.
  set (X := published [pr_dme; pr_co2] (zeros 2)) in *. destruct Em as [E0 E1].
  assert (EN : N X = 2%nat) by reflexivity.
  unfold f_dd, pade2, dd2, dd3. rewrite EN. cbn [rsum seq map fold_right].
  unfold J2, J3, cm, m2, m3, q1, q12. rewrite E0, E1, !cbrt_pos by lra.
  eval_polar X.
  interval with (i_prec 80).
Qed.
Lemma t_mix_quad : let X := published [pr_dme; pr_co2] (zeros 2) in
  forall i j, (i < length [pr_dme; pr_co2])%nat -> (j < length [pr_dme; pr_co2])%nat -> Qu2 X i <> 0 -> Qu2 X j <> 0 -> Sg X i = Sg X j.
Proof.
  cbv zeta. set (X := published [pr_dme; pr_co2] (zeros 2)).
  assert (E : Qu2 X 0 = 0) by (unfold X; cbn [Qu2 published Nat.ltb Nat.leb length nth pr_model pr_dme r_q opt_or]; lra).
  intros i j Hi Hj A B. cbn [length] in Hi, Hj.
  assert (i = 1%nat) by (destruct i as [ | [ | i]]; [exfalso; auto | reflexivity | lia]).
  assert (j = 1%nat) by (destruct j as [ | [ | j]]; [exfalso; auto | reflexivity | lia]). subst. reflexivity.
Qed.
(** polar.rs 552 *)
Example test_mix_quadrupole : Rabs (a_quadrupole t_mix (@state_new RNum 350 1000 [1; 1]) - -4.20168059082731E-002) <= 1e-6.
Proof.
  rewrite (C39_quadrupole_partial _ _ _ t_mix_ok t_mix_phys 350 1000 [1; 1] t_mix_state)
    by exact t_mix_quad.
  pose proof t_mix_mp as Em. cbv zeta in Em.
  set (X := published [pr_dme; pr_co2] (zeros 2)) in *. destruct Em as [E0 E1].
  assert (EN : N X = 2%nat) by reflexivity.
  unfold f_qq, pade2, qq2, qq3. rewrite EN. cbn [rsum seq map fold_right].
  unfold J2, J3, cm, m2, m3, q1, q12. rewrite E0, E1, !cbrt_pos by lra.
  eval_polar X.
  interval with (i_prec 80).
Qed.
(** polar.rs 553: this assertion is commented out in /repo, and the code does not meet it: the
    reference value is -2.2316252638709004E-002, the code gives -2.2648...E-002. *)
Example test_mix_dipole_quadrupole : let a := a_dq t_mix DQ35 (@state_new RNum 350 1000 [1; 1]) in
  Rabs (a - -0.02264804) <= 1e-8 /\ 3e-4 < Rabs (a - -2.2316252638709004E-002).
Proof.
  cbv zeta. rewrite (proj1 (C39_dipole_quadrupole _ _ _ t_mix_ok t_mix_phys 350 1000 [1; 1] t_mix_state)).
  pose proof t_mix_mp as Em. cbv zeta in Em.
  set (X := published [pr_dme; pr_co2] (zeros 2)) in *. destruct Em as [E0 E1].
  assert (EN : N X = 2%nat) by reflexivity.
  unfold f_dq, pade2, dq2, dq3. rewrite EN. cbn [rsum seq map fold_right].
  unfold J2, J3dq, cm, m2, m3, q1, q12. rewrite E0, E1, !cbrt_pos by lra.
  eval_polar X.
  split; interval with (i_prec 80).
Qed.

(** association.rs 277: water at 350 K *)
Definition t_v : R := 41.248289328513216.
Lemma t_w_state : phys_state w1 350 t_v [1.23].
Proof.
  apply phys_state_intro; [exact w1_phys | lra | unfold t_v; lra | reflexivity | | | ].
  - intros i Hi. cbn in Hi. destruct i as [ | i]; cbn; try lra; lia.
  - exists 0%nat. cbn. split; [lia | lra].
  - unfold t_v. cbn. lra.
Qed.
Definition t_w_rho (i : nat) : R := nth i [1.23] 0 / t_v.
Definition t_w_bonds : R := Delta (mix_of w1) 350 t_w_rho 0 0 * t_w_rho 0.
Lemma t_w_switch : / 67108864 < t_w_bonds.
Proof. unfold t_w_bonds, t_w_rho, Delta, Kapij, Gij, Zeta, Di, Sij, t_v. cbn. interval. Qed.
Lemma t_w_frac : @assoc_site_frac_ab RNum t_w_bonds 1 1 = 2 / (sqrt (1 + 4 * t_w_bonds) + 1).
Proof.
  unfold assoc_site_frac_ab. pose proof t_w_switch as H.
  match goal with |- context [if ?b then _ else _] => replace b with true by (symmetry; apply Rltb_true; rewrite sqrt_eps_R; exact H) end.
  rn. assert (0 <= sqrt (1 + 4 * t_w_bonds)) by apply sqrt_pos.
  pose proof (sqrt_sqrt (1 + 4 * t_w_bonds) ltac:(lra)) as Q.
  replace ((t_w_bonds * (1 - 1) + 1) ^ 2 + t_w_bonds * 1 * 4) with (1 + 4 * t_w_bonds) by ring.
  set (r := sqrt _) in *. apply (Rmult_eq_reg_r ((t_w_bonds * 1 * 2) * (r + 1))); [ | nra].
  field_simplify; [ | lra | lra]. nra.
Qed.
(** association.rs 277 *)
Example test_association : Rabs (a_assoc w1 (@state_new RNum 350 t_v [1.23]) / 1.23 - -4.229878997054543) <= 1e-10.
Proof.
  pose proof (assoc_two_site_energy w1 (wfp_from_records _ _ _ w1_ok) w1_phys 350 t_v [1.23] t_w_state 0%nat w1_comp
    ltac:(cbn; lra)) as E.
  rewrite E. unfold f_assoc_xx, xb_code, xa_code. change (N (mix_of w1)) with 1%nat. cbn [rsum seq map fold_right Nat.eqb].
  change (Na (mix_of w1) 0) with 1. change (Nb (mix_of w1) 0) with 1.
  match goal with |- context [@assoc_site_frac_ab RNum ?d ?a ?b] =>
    replace (@assoc_site_frac_ab RNum d a b) with (2 / (sqrt (1 + 4 * t_w_bonds) + 1)) by (symmetry; exact t_w_frac) end.
  unfold fx, t_w_bonds, t_w_rho, Delta, Kapij, Gij, Zeta, Di, Sij, t_v. cbn [nth].
  unfold w1. cbn. interval with (i_prec 80).
Qed.
