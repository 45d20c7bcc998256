(** Association: strength, closed-form site fractions, energies; over the reals. *)
From Coq Require Import ZArith QArith Reals Lra Lia List Bool Psatz.
From Verif Require Import Num RNum RSum Tables M_Params F_Params M_Eos Spec F_Spec F_SpecPolar.
Import ListNotations.
Local Open Scope R_scope.

Lemma Rpowf3 x : 0 < x -> Rpowf x 3 = x ^ 3.
Proof.
  intros. unfold Rpowf. destruct (Rlt_dec 0 x); [ | lra].
  replace 3 with (INR 3) by (simpl; lra). apply Rpower_pow; auto.
Qed.

Section Strength.
  Variable p : params RNum.
  Hypothesis W : wfp p.
  Hypothesis Hph : phys p.
  Let X := mix_of p.
  Let n := length (p_m p).
  Variables (t v : R) (moles : list R).
  Hypothesis Lm : length moles = n.
  Hypothesis Ht : 0 < t.
  Let s := @state_new RNum t v moles.
  Let rho i := nth i moles 0 / v.

  Lemma Di_pos i : (i < n)%nat -> 0 < Di X t i.
  Proof.
    intros Hi. destruct (Hph i Hi) as (_ & Hs & He). unfold Di.
    change (Sg X i) with (@ix RNum (p_sigma p) i). change (Ep X i) with (@ix RNum (p_epsilon_k p) i).
    apply Rmult_lt_0_compat; auto.
    assert (exp (- 3 * @ix RNum (p_epsilon_k p) i / t) < 1); [ | lra].
    rewrite <- exp_0. apply exp_increasing.
    assert (0 < @ix RNum (p_epsilon_k p) i / t) by (apply Rdiv_lt_0_compat; auto).
    unfold Rdiv in *. lra.
  Qed.

  Theorem association_strength_spec i j : (i < n)%nat -> (j < n)%nat -> Zeta X t rho 3 <> 1 ->
    association_strength p t (seg_radius p t) (6 * Zeta X t rho 2) (/ (1 - Zeta X t rho 3)) 1 i j
    = Delta X t rho i j.
  Proof.
    intros Hi Hj H1. unfold association_strength, Delta.
    rewrite !(seg_radius_spec p W) by auto. fold X.
    rewrite (w_kap _ W) by auto.
    destruct (Hph i Hi) as (_ & Hsi & _). destruct (Hph j Hj) as (_ & Hsj & _).
    unfold Kapij.
    change (Kab X i) with (@ix RNum (p_kappa_ab p) i). change (Kab X j) with (@ix RNum (p_kappa_ab p) j).
    change (Sg X i) with (@ix RNum (p_sigma p) i). change (Sg X j) with (@ix RNum (p_sigma p) j).
    set (si := @ix RNum (p_sigma p) i) in *. set (sj := @ix RNum (p_sigma p) j) in *.
    assert (0 < sqrt (si * sj)) by (apply sqrt_lt_R0, Rmult_lt_0_compat; auto).
    replace (Sij X i j) with ((si + sj) / 2) by reflexivity.
    rewrite Rpowf3 by (apply Rdiv_lt_0_compat; lra).
    replace (2 * sqrt (si * sj) / (si + sj)) with (sqrt (si * sj) / ((si + sj) / 2)) by (field; lra).
    destruct (Req_EM_T (@ix RNum (p_kappa_ab p) i) 0) as [E | Ei].
    { rewrite E, Rmult_0_l, sqrt_0. rn. ring. }
    destruct (Req_EM_T (@ix RNum (p_kappa_ab p) j) 0) as [E | Ej].
    { rewrite E, Rmult_0_r, sqrt_0. rn. ring. }
    rewrite (w_eab _ W) by auto.
    change (Eab X i) with (@ix RNum (p_epsilon_k_ab p) i). change (Eab X j) with (@ix RNum (p_epsilon_k_ab p) j).
    set (ei := @ix RNum (p_epsilon_k_ab p) i). set (ej := @ix RNum (p_epsilon_k_ab p) j).
    set (K := sqrt (@ix RNum (p_kappa_ab p) i * @ix RNum (p_kappa_ab p) j)).
    unfold Gij. set (z2 := Zeta X t rho 2). set (z3 := Zeta X t rho 3) in *.
    pose proof (Di_pos i Hi) as Dip. pose proof (Di_pos j Hj) as Djp.
    set (di := Di X t i) in *. set (dj := Di X t j) in *.
    rn. replace (/ t * ((ei + ej) / 2)) with ((ei + ej) / 2 / t) by (field; lra).
    set (E := exp _ - 1). set (sq := sqrt (si * sj)) in *.
    set (q := (sq / ((si + sj) / 2)) ^ 3).
    replace (5 / 10 * (si + sj)) with ((si + sj) / 2) by lra.
    set (s3 := ((si + sj) / 2) ^ 3).
    field. split; [ | lra]. intros ?; lra.
  Qed.
End Strength.

(* ------------------------------------------------------- closed forms (C11, C12) *)

(** two kinds of sites A (na per molecule) and B (nb), strength times density d *)
Definition two_site_law (d na nb xa xb : R) : Prop :=
  xa * (1 + d * nb * xb) = 1 /\ xb * (1 + d * na * xa) = 1.

(** one kind of sites bonding to itself *)
Definition one_site_law (d na x : R) : Prop := x * (1 + d * na * x) = 1.

(** exact root of the two-site equations *)
Definition frac_ab (d na nb : R) : R :=
  (sqrt ((d * (na - nb) + 1) ^ 2 + d * nb * 4) - (d * (nb - na) + 1)) / (d * na * 2).

Lemma sqrt_eps_R : @sqrt_eps RNum = / 67108864.
Proof. unfold sqrt_eps. rn. lra. Qed.
Lemma f_eps_R : @f_eps RNum = / 4503599627370496.
Proof. unfold f_eps. rn. lra. Qed.

Lemma disc_pos d na nb : 0 < d -> 0 < na -> 0 < nb ->
  0 < (d * (na - nb) + 1) ^ 2 + d * nb * 4.
Proof.
  intros. assert (0 < d * nb) by (apply Rmult_lt_0_compat; auto).
  pose proof (pow2_ge_0 (d * (na - nb) + 1)). lra.
Qed.

Theorem frac_ab_law d na nb : 0 < d -> 0 < na -> 0 < nb ->
  let xa := frac_ab d na nb in
  let xb := (xa - 1) * (na / nb) + 1 in
  0 < xa < 1 /\ 0 < xb < 1 /\ two_site_law d na nb xa xb.
Proof.
  intros Hd Ha Hb xa xb.
  set (D := (d * (na - nb) + 1) ^ 2 + d * nb * 4).
  assert (HD : 0 < D) by (apply disc_pos; auto).
  set (r := sqrt D). assert (Hr : r * r = D) by (apply sqrt_sqrt; lra).
  assert (Hr0 : 0 < r) by (apply sqrt_lt_R0; auto).
  assert (Hda : 0 < d * na) by (apply Rmult_lt_0_compat; auto).
  assert (Hdb : 0 < d * nb) by (apply Rmult_lt_0_compat; auto).
  set (B := d * (nb - na) + 1).
  assert (HxB : xa = (r - B) / (d * na * 2)) by reflexivity.
  (* r^2 = B^2 + 4 d na *)
  assert (E1 : r * r = B * B + 4 * (d * na)) by (rewrite Hr; unfold D, B; ring).
  assert (L1 : B < r) by nra.
  assert (L2 : r < B + 2 * (d * na)).
  { assert (0 < B + 2 * (d * na)) by (unfold B; nra).
    assert (r * r < (B + 2 * (d * na)) * (B + 2 * (d * na))); [ | nra].
    rewrite E1. unfold B. nra. }
  assert (X0 : 0 < xa) by (rewrite HxB; apply Rdiv_lt_0_compat; lra).
  assert (X1 : xa < 1).
  { rewrite HxB. apply Rmult_lt_reg_r with (d * na * 2); [lra | ].
    unfold Rdiv. rewrite Rmult_assoc, Rinv_l; lra. }
  (* quadratic equation *)
  assert (Q : d * na * xa ^ 2 + B * xa - 1 = 0).
  { rewrite HxB. replace (d * na * ((r - B) / (d * na * 2)) ^ 2 + B * ((r - B) / (d * na * 2)) - 1)
      with ((r * r - B * B - 4 * (d * na)) / (4 * (d * na))) by (field; lra).
    rewrite E1. unfold Rdiv. replace (B * B + 4 * (d * na) - B * B - 4 * (d * na)) with 0 by ring. ring. }
  assert (Hxb : xb * (1 + d * na * xa) = 1).
  { (* nb d (xa-1) na/nb... *)
    unfold xb. apply Rmult_eq_reg_l with nb; [ | lra].
    replace (nb * (((xa - 1) * (na / nb) + 1) * (1 + d * na * xa)))
      with (((xa - 1) * na + nb) * (1 + d * na * xa)) by (field; lra).
    unfold B in Q.
    replace (((xa - 1) * na + nb) * (1 + d * na * xa)) with
      (nb * 1 + na * (d * na * xa ^ 2 + (d * (nb - na) + 1) * xa - 1)) by ring.
    rewrite Q. ring. }
  assert (0 < 1 + d * na * xa) by (assert (0 < d * na * xa) by (apply Rmult_lt_0_compat; auto); lra).
  assert (XB0 : 0 < xb).
  { apply Rmult_lt_reg_r with (1 + d * na * xa); auto. rewrite Hxb. lra. }
  assert (XB1 : xb < 1).
  { unfold xb. assert (0 < na / nb) by (apply Rdiv_lt_0_compat; auto). nra. }
  repeat split; auto.
  replace (xa * (1 + d * nb * xb)) with (1 + (d * na * xa ^ 2 + B * xa - 1)).
  { rewrite Q; ring. }
  unfold xb, B. field. lra.
Qed.

(** the code's function is the exact root above the switch, a quadratic polynomial below *)
Lemma assoc_site_frac_ab_above d na nb : / 67108864 < d ->
  @assoc_site_frac_ab RNum d na nb = frac_ab d na nb.
Proof.
  intros. unfold assoc_site_frac_ab. rewrite sqrt_eps_R. rn.
  rewrite (proj2 (Rltb_true _ _)) by auto. reflexivity.
Qed.
Lemma assoc_site_frac_ab_below d na nb : d <= / 67108864 ->
  @assoc_site_frac_ab RNum d na nb = 1 + d * nb * (d * (nb + na) - 1).
Proof.
  intros. unfold assoc_site_frac_ab. rewrite sqrt_eps_R. rn.
  rewrite (proj2 (Rltb_false _ _)) by auto. reflexivity.
Qed.

(** below the switch: accuracy of the second order expansion *)
Theorem frac_ab_expansion d na nb : 0 < d -> 0 < na -> 0 < nb -> d * (na + nb) <= 1 ->
  let P := 1 + d * nb * (d * (nb + na) - 1) in
  let xb := (P - 1) * (na / nb) + 1 in
  0 < P <= 1 /\ 0 < xb <= 1 /\
  0 <= P - frac_ab d na nb <= 2 * nb * (na + nb) ^ 2 * d ^ 3.
Proof.
  intros Hd Ha Hb Hs P xb.
  destruct (frac_ab_law d na nb Hd Ha Hb) as ([X0 X1] & _ & [L1 L2]).
  set (xe := frac_ab d na nb) in *.
  assert (Hda : 0 < d * na) by (apply Rmult_lt_0_compat; auto).
  assert (Hdb : 0 < d * nb) by (apply Rmult_lt_0_compat; auto).
  assert (HP : P = 1 - d * nb * (1 - d * (na + nb))) by (unfold P; ring).
  assert (P1 : P <= 1) by (rewrite HP; nra).
  assert (P0 : 1 - d * nb <= P) by (rewrite HP; nra).
  assert (P00 : 0 < P) by (rewrite HP; nra).
  assert (Hxb : xb = 1 - d * na * (1 - d * (na + nb))) by (unfold xb; rewrite HP; field; lra).
  assert (0 < xb <= 1) by (rewrite Hxb; nra).
  assert (Q : d * na * xe ^ 2 + (d * (nb - na) + 1) * xe - 1 = 0).
  { assert (Hx : (xe - 1) * (na / nb) + 1 = (nb + (xe - 1) * na) / nb) by (field; lra).
    rewrite Hx in L1.
    replace (xe * (1 + d * nb * ((nb + (xe - 1) * na) / nb)))
      with (xe * (1 + d * (nb + (xe - 1) * na))) in L1 by (field; lra). lra. }
  assert (QP : d * na * P ^ 2 + (d * (nb - na) + 1) * P - 1
     = d ^ 3 * (nb * (na + nb) ^ 2 + na * nb ^ 2 * (1 - d * (na + nb)) ^ 2)) by (rewrite HP; ring).
  set (den := d * na * (P + xe) + 1 + d * (nb - na)).
  assert (E : (P - xe) * den = d ^ 3 * (nb * (na + nb) ^ 2 + na * nb ^ 2 * (1 - d * (na + nb)) ^ 2)).
  { rewrite <- QP. unfold den.
    replace ((P - xe) * (d * na * (P + xe) + 1 + d * (nb - na))) with
      ((d * na * P ^ 2 + (d * (nb - na) + 1) * P - 1) - (d * na * xe ^ 2 + (d * (nb - na) + 1) * xe - 1)) by ring.
    rewrite Q. ring. }
  assert (Hden : 3 / 4 <= den).
  { unfold den. assert (d * na * (d * nb) <= / 4).
    { assert (4 * (d * na * (d * nb)) <= (d * (na + nb)) ^ 2) by (pose proof (pow2_ge_0 (d * (na - nb))); nra).
      assert ((d * (na + nb)) ^ 2 <= 1) by nra. lra. }
    nra. }
  assert (Hd3 : 0 < d ^ 3) by (apply pow_lt; auto).
  assert (R0 : 0 <= nb * (na + nb) ^ 2 + na * nb ^ 2 * (1 - d * (na + nb)) ^ 2).
  { apply Rplus_le_le_0_compat; repeat apply Rmult_le_pos; try lra; apply pow2_ge_0. }
  assert (R1 : nb * (na + nb) ^ 2 + na * nb ^ 2 * (1 - d * (na + nb)) ^ 2 <= 5 / 4 * (nb * (na + nb) ^ 2)).
  { assert ((1 - d * (na + nb)) ^ 2 <= 1) by nra.
    assert (0 < na * nb ^ 2) by (apply Rmult_lt_0_compat; [ | apply pow_lt]; auto).
    assert (na * nb ^ 2 * (1 - d * (na + nb)) ^ 2 <= na * nb ^ 2) by nra.
    assert (4 * (na * nb) <= (na + nb) ^ 2) by (pose proof (pow2_ge_0 (na - nb)); nra).
    assert (na * nb ^ 2 <= / 4 * (nb * (na + nb) ^ 2)) by nra. lra. }
  repeat split; auto; try tauto.
  - apply Rmult_le_reg_r with den; [lra | ]. rewrite E. rewrite Rmult_0_l. apply Rmult_le_pos; lra.
  - apply Rmult_le_reg_r with den; [lra | ]. rewrite E.
    set (Q3 := nb * (na + nb) ^ 2) in *.
    assert (0 <= Q3) by (unfold Q3; apply Rmult_le_pos; [lra | apply pow2_ge_0]).
    replace (2 * nb * (na + nb) ^ 2 * d ^ 3 * den) with (d ^ 3 * (2 * Q3 * den)) by (unfold Q3; ring).
    apply Rmult_le_compat_l; [lra | ]. nra.
Qed.

(** exact one-site root *)
Definition frac_a (u : R) : R := (sqrt (1 + 4 * u) - 1) / (2 * u).

Lemma frac_a_law d na : 0 < d -> 0 < na ->
  0 < frac_a (d * na) < 1 /\ one_site_law d na (frac_a (d * na)).
Proof.
  intros Hd Ha. assert (Hu : 0 < d * na) by (apply Rmult_lt_0_compat; auto).
  unfold one_site_law. set (u := d * na) in *. unfold frac_a.
  set (r := sqrt (1 + 4 * u)). assert (Hr : r * r = 1 + 4 * u) by (apply sqrt_sqrt; lra).
  assert (Hr0 : 0 <= r) by apply sqrt_pos.
  assert (1 < r) by nra. assert (r < 1 + 2 * u) by nra.
  repeat split.
  - apply Rdiv_lt_0_compat; lra.
  - apply Rmult_lt_reg_r with (2 * u); [lra | ]. unfold Rdiv. rewrite Rmult_assoc, Rinv_l; lra.
  - replace ((r - 1) / (2 * u) * (1 + u * ((r - 1) / (2 * u)))) with ((r * r - 1) / (4 * u)) by (field; lra).
    rewrite Hr. field. lra.
Qed.

(** the implemented one-site fraction exceeds two everywhere above the switch *)
Theorem assoc_site_frac_a_gt2 d na : / 67108864 < d -> 0 < na ->
  2 < @assoc_site_frac_a RNum d na.
Proof.
  intros Hd Ha. unfold assoc_site_frac_a. rewrite sqrt_eps_R. rn.
  rewrite (proj2 (Rltb_true _ _)) by auto.
  assert (Hd0 : 0 < d) by lra.
  assert (Hu : 0 < d * na) by (apply Rmult_lt_0_compat; auto). set (u := d * na) in *.
  set (D := (u * 4 + 1) ^ 2 - 1).
  assert (L : 4 * u < sqrt D).
  { rewrite <- (sqrt_square (4 * u)) by lra. apply sqrt_lt_1; [nra | unfold D; nra | unfold D; nra]. }
  apply Rmult_lt_reg_r with (u * 2); [lra | ].
  unfold Rdiv. rewrite Rmult_assoc, Rinv_l by lra. lra.
Qed.

(** below the switch the expansion is accurate to third order *)
Theorem assoc_site_frac_a_below d na : 0 < d <= / 67108864 -> 0 < na <= 67108864 ->
  0 <= @assoc_site_frac_a RNum d na - frac_a (d * na) <= 5 * (d * na) ^ 3.
Proof.
  intros Hd Ha. unfold assoc_site_frac_a. rewrite sqrt_eps_R. rn.
  rewrite (proj2 (Rltb_false _ _)) by lra.
  destruct (frac_a_law d na) as [[X0 X1] L]; [lra | lra | ]. unfold one_site_law in L.
  assert (Hu : 0 < d * na) by (apply Rmult_lt_0_compat; lra).
  assert (Hu1 : d * na <= 1).
  { apply Rle_trans with (/ 67108864 * 67108864); [apply Rmult_le_compat; lra | lra]. }
  set (u := d * na) in *. set (x := frac_a u) in *.
  set (P := 1 + u * (u * 2 - 1)).
  assert (E : (P - x) * (u * (P + x) + 1) = 5 * u ^ 3 - 4 * u ^ 4 + 4 * u ^ 5).
  { replace ((P - x) * (u * (P + x) + 1)) with (P * (1 + u * P) - x * (1 + u * x)) by ring.
    rewrite L. unfold P. ring. }
  assert (HP : 0 < P) by (unfold P; nra).
  assert (Hden : 1 <= u * (P + x) + 1) by nra.
  assert (U3 : 0 < u ^ 3) by (apply pow_lt; auto).
  assert (F : 0 <= 5 * u ^ 3 - 4 * u ^ 4 + 4 * u ^ 5 <= 5 * u ^ 3).
  { replace (5 * u ^ 3 - 4 * u ^ 4 + 4 * u ^ 5) with (u ^ 3 * (5 - 4 * u + 4 * u * u)) by ring.
    split; [apply Rmult_le_pos; nra | ]. nra. }
  rewrite <- E in F. split; nra.
Qed.
