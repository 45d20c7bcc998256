(** C52: rounding of the whole hard-sphere contribution. *)
From Coq Require Import ZArith QArith Reals Lra Lia List Bool.
From Flocq Require Import Core Relative.
From Verif Require Import Num RNum RSum Tables M_Params M_Eos Spec P_Basic BNum F_Round F_Round2 P_RoundD.
Import ListNotations.
Local Open Scope R_scope.
Set Bullet Behavior "Strict Subproofs".
Notation length := List.length.

Lemma list_ge_term (l : list R) a : (forall x, In x l -> 0 <= x) -> In a l -> a <= rsum l (fun x => x).
Proof.
  induction l as [ | b l IH]; intros H I; [destruct I | ]. change (rsum (b :: l) (fun x => x)) with (b + rsum l (fun x => x)). destruct I as [-> | I].
  - assert (0 <= rsum l (fun x => x)); [ | lra]. apply rsum_nonneg. intros x Hx. apply H. right. auto.
  - assert (0 <= b) by (apply H; left; auto). assert (a <= rsum l (fun x => x)) by (apply IH; [intros; apply H; right; auto | auto]). lra.
Qed.

Lemma acc_rel_trans e f x y z : acc e x y -> acc f y z -> acc (e + f + e * f) x z.
Proof.
  intros (a & Ha & ->) (b & Hb & ->). exists (a + b + a * b). split; [ | ring]. eapply Rle_trans; [apply Rabs_triang | ]. eapply Rle_trans; [apply Rplus_le_compat_r, Rabs_triang | ].
  rewrite Rabs_mult. assert (Rabs a * Rabs b <= e * f) by (apply Rmult_le_compat; auto; apply Rabs_pos). lra.
Qed.
(** [1 - x] and [ln (1 - x)] for a perturbed [x] *)
Lemma ln1_small e : Rabs e <= / 100 -> Rabs (ln (1 + e)) <= Rabs e * (1 + 2 * Rabs e).
Proof.
  intros H. apply Rabs_le_inv in H as [H1 H2]. assert (U : ln (1 + e) <= e).
  { destruct (Req_dec e 0) as [-> | N]; [rewrite Rplus_0_r, ln_1; lra | ]. rewrite <- (ln_exp e) at 2. left. apply ln_increasing; [lra | apply exp_ineq1; auto]. }
  assert (Lo : e / (1 + e) <= ln (1 + e)).
  { assert (V : ln (/ (1 + e)) <= / (1 + e) - 1).
    { set (y := / (1 + e) - 1). replace (/ (1 + e)) with (1 + y) by (unfold y; ring). destruct (Req_dec y 0) as [-> | N]; [rewrite Rplus_0_r, ln_1; lra | ].
      rewrite <- (ln_exp y) at 2. left. apply ln_increasing; [ | apply exp_ineq1; auto]. unfold y. assert (0 < / (1 + e)) by (apply Rinv_0_lt_compat; lra). lra. }
    rewrite ln_Rinv in V by lra. replace (e / (1 + e)) with (- (/ (1 + e) - 1)) by (field; lra). lra. }
  destruct (Rle_dec 0 e) as [P | P].
  - rewrite (Rabs_right e) by lra. assert (0 <= e / (1 + e)) by (apply Rmult_le_pos; [auto | left; apply Rinv_0_lt_compat; lra]). rewrite Rabs_right by lra. nra.
  - rewrite (Rabs_left e) by lra. assert (e * (1 - 2 * e) <= e / (1 + e)).
    { apply (Rmult_le_reg_r (1 + e)); [lra | ]. replace (e / (1 + e) * (1 + e)) with e by (field; lra). nra. }
    rewrite Rabs_left1 by lra. lra.
Qed.

(** rounding of the hard-sphere expression, the relative errors of its arguments being given in units of [w] *)
Section Core.
  Variable L : libm. Hypothesis HL : libm_ok L.
  Variable w : R. Hypothesis Hw : 0 < w <= / 10 ^ 9.
  Variables z0 z1 z2 z3 : R.
  Hypotheses (P0 : 0 < z0) (P1 : 0 < z1) (P2 : 0 < z2) (P3 : 0 < z3 < 1).
  Hypothesis Ho : z2 ^ 3 <= z0 * z3 ^ 2.
  Hypothesis Hu : u <= w * (1 - z3) / 24.
  Variables Z0 Z1 Z2 Z3 Z23 : R.
  Hypotheses (A0 : acc (1 * w) Z0 z0) (A1 : acc (1 * w) Z1 z1) (A2 : acc (1 * w) Z2 z2) (A3 : acc (w * (1 - z3)) Z3 z3) (A23 : acc (4 * w) Z23 (z2 / z3)).

  Lemma u20 : u <= w / 20.
  Proof. assert (w * (1 - z3) <= w * 1) by (apply Rmult_le_compat_l; lra). lra. Qed.
  Let Rn := W_rnd w Hw u20.
  Let Mr := W_mulr w Hw u20.
  Let Ir := W_invr w Hw u20.
  Lemma one_minus : acc (1 * w) (1 - Z3) (1 - z3).
  Proof.
    destruct A3 as (e & He & ->). exists (- (z3 * e / (1 - z3))). split; [ | field; lra]. rewrite Rabs_Ropp. unfold Rdiv. rewrite !Rabs_mult, (Rabs_right z3), (Rabs_right (/ (1 - z3))) by (try apply Rle_ge, Rlt_le, Rinv_0_lt_compat; lra).
    apply Rle_trans with (1 * (w * (1 - z3)) * / (1 - z3)); [ | right; field; lra]. apply Rmult_le_compat_r; [left; apply Rinv_0_lt_compat; lra | ]. apply Rmult_le_compat; try lra. apply Rabs_pos.
  Qed.
  Let frac := @nopp (BNum L) (@nrecip (BNum L) (@nsub (BNum L) Z3 (@nlit (BNum L) 1))).
  Lemma lit1 : @nlit (BNum L) 1 = 1.
  Proof. cbn [nlit BNum]. replace (Rlit 1) with 1 by (unfold Rlit; cbn; lra). apply rnd_1. Qed.
  Lemma litm1 : @nlit (BNum L) (-1) = -1.
  Proof. cbn [nlit BNum]. replace (Rlit (-1)) with (- (1)) by (unfold Rlit; cbn; lra). rewrite rnd_opp, rnd_1. reflexivity. Qed.
  Lemma lit3 : @nlit (BNum L) 3 = 3.
  Proof. cbn [nlit BNum]. replace (Rlit 3) with 3 by (unfold Rlit; cbn; lra). apply rnd_id. exact (f64_int 3 ltac:(lia)). Qed.
  Lemma lit6 : @nlit (BNum L) 6 = 6.
  Proof. cbn [nlit BNum]. replace (Rlit 6) with 6 by (unfold Rlit; cbn; lra). apply rnd_id. exact (f64_int 6 ltac:(lia)). Qed.
  Lemma frac_acc : acc (1.13 * w) frac (/ (1 - z3)).
  Proof.
    unfold frac. rewrite lit1. cbn [nopp nrecip nsub BNum]. replace (/ (1 - z3)) with (- / - (1 - z3)) by (field; lra). apply acc_opp.
    replace 1.13 with (1.06 + 0.07) by lra. apply Ir; [lra | lra | ]. replace 1.06 with (1 + 0.06) by lra. apply Rn; [lra | ]. replace (Z3 - 1) with (- (1 - Z3)) by ring. apply acc_opp, one_minus.
  Qed.
  Lemma ln_acc : acc (1.17 * w) (@nln1p (BNum L) (@nmul (BNum L) Z3 (@nlit (BNum L) (-1)))) (ln (1 - z3)).
  Proof.
    rewrite litm1. cbn [nln1p nmul BNum]. destruct A3 as (e & He & ->). destruct (rnd_err (z3 * (1 + e) * -1)) as (f & Hf & ->).
    assert (Hq : 0 < w * (1 - z3) <= / 10 ^ 9). { split; [apply Rmult_lt_0_compat; lra | ]. apply Rle_trans with (/ 10 ^ 9 * 1); [apply Rmult_le_compat; lra | lra]. }
    set (g := e + f + e * f). assert (Hg : Rabs g <= 1.05 * (w * (1 - z3))).
    { unfold g. eapply Rle_trans; [apply Rabs_triang | ]. eapply Rle_trans; [apply Rplus_le_compat_r, Rabs_triang | ]. rewrite Rabs_mult.
      assert (Rabs e * Rabs f <= w * (1 - z3) * (/ 10 ^ 9)) by (apply Rmult_le_compat; try apply Rabs_pos; [exact He | pose proof u_small; lra]). lra. }
    replace (z3 * (1 + e) * -1 * (1 + f)) with (- (z3 * (1 + g))) by (unfold g; ring).
    set (h := - (z3 * g / (1 - z3))). assert (E1 : 1 + - (z3 * (1 + g)) = (1 - z3) * (1 + h)) by (unfold h; field; lra).
    assert (Hh : Rabs h <= 1.05 * w * z3).
    { unfold h. rewrite Rabs_Ropp. unfold Rdiv. rewrite !Rabs_mult, (Rabs_right z3), (Rabs_right (/ (1 - z3))) by (try apply Rle_ge, Rlt_le, Rinv_0_lt_compat; lra).
      apply Rle_trans with (z3 * (1.05 * (w * (1 - z3))) * / (1 - z3)); [ | right; field; lra]. apply Rmult_le_compat_r; [left; apply Rinv_0_lt_compat; lra | ]. apply Rmult_le_compat_l; lra. }
    assert (Hws : w * z3 <= / 10 ^ 9) by (apply Rle_trans with (/ 10 ^ 9 * 1); [apply Rmult_le_compat; lra | lra]).
    assert (Hh' : Rabs h <= / 10 ^ 8) by lra. destruct (Rabs_le_inv _ _ Hh') as [h1 h2].
    assert (Q : 0 < (1 - z3) * (1 + h)) by (apply Rmult_lt_0_compat; lra).
    destruct HL as (_ & _ & _ & HL4). pose proof (HL4 (- (z3 * (1 + g))) ltac:(lra)) as B. rewrite E1 in B. apply within_acc in B; [ | lra].
    assert (C : acc (1.06 * w) (ln ((1 - z3) * (1 + h))) (ln (1 - z3))).
    { apply within_acc; [lra | ]. unfold within. rewrite ln_mult by lra. replace (ln (1 - z3) + ln (1 + h) - ln (1 - z3)) with (ln (1 + h)) by ring.
      pose proof (ln1_small h ltac:(lra)) as K. destruct (ln_lower z3 ltac:(lra)) as [L0 L1]. rewrite (Rabs_left (ln (1 - z3))) by lra.
      assert (Lz : z3 <= - ln (1 - z3)).
      { assert (ln (1 - z3) <= - z3); [ | lra]. rewrite <- (ln_exp (- z3)). left. apply ln_increasing; [lra | ]. apply exp_ineq1. lra. }
      assert (0 < w * z3) by (apply Rmult_lt_0_compat; lra). apply Rle_trans with (1.06 * w * z3); [ | apply Rmult_le_compat_l; lra]. assert (Rabs h * (2 * Rabs h) <= 1.05 * w * z3 * (2 * / 10 ^ 8)) by (apply Rmult_le_compat; try lra; pose proof (Rabs_pos h); lra). lra. }
    eapply acc_weaken; [ | eapply acc_rel_trans; [exact B | exact C]]. replace (/ 2 ^ 52) with (2 * u) by (unfold u; lra). pose proof u20. pose proof u_pos. pose proof u_small.
    assert (2 * u * (1.06 * w) <= 2 * (/ 10 ^ 15) * (1.06 * w)) by (apply Rmult_le_compat_r; lra). lra.
  Qed.

  Let A := z2 ^ 3 / z3 ^ 2.
  Let t1 := 3 * z1 * z2 / (1 - z3).
  Let t2 := z2 ^ 3 / (z3 * (1 - z3) ^ 2).
  Let l := - ln (1 - z3).
  Lemma l_pos : 0 < l /\ l < z3 / (1 - z3) ^ 2.
  Proof.
    destruct (ln_lower z3 P3) as [L0 L1]. unfold l. split; [lra | ]. assert (z3 / (1 - z3) < z3 / (1 - z3) ^ 2).
    { unfold Rdiv. apply Rmult_lt_compat_l; [lra | ]. apply Rinv_lt_contravar; [ | nra]. apply Rmult_lt_0_compat; [apply pow_lt; lra | lra]. }
    unfold Rdiv in *. lra.
  Qed.
  Lemma A_pos : 0 < A <= z0.
  Proof.
    unfold A. split; [apply Rdiv_lt_0_compat; apply pow_lt; lra | ]. apply (Rmult_le_reg_r (z3 ^ 2)); [apply pow_lt; lra | ]. replace (z2 ^ 3 / z3 ^ 2 * z3 ^ 2) with (z2 ^ 3) by (field; lra). exact Ho.
  Qed.
  Lemma t1_pos : 0 < t1. Proof. unfold t1. apply Rdiv_lt_0_compat; [ | lra]. apply Rmult_lt_0_compat; lra. Qed.
  Lemma t2_big : A * l < t2.
  Proof.
    destruct l_pos as [L0 L1]. destruct A_pos as [A1' _]. replace t2 with (A * (z3 / (1 - z3) ^ 2)) by (unfold t2, A; field; lra). apply Rmult_lt_compat_l; auto.
  Qed.
  Lemma t1_acc : acc (3.34 * w) (@nmul (BNum L) (@nmul (BNum L) (@nmul (BNum L) Z1 Z2) frac) (@nlit (BNum L) 3)) t1.
  Proof.
    rewrite lit3. cbn [nmul BNum]. replace t1 with (z1 * z2 * / (1 - z3) * 3) by (unfold t1; field; lra). replace 3.34 with (3.27 + 0 + 0.07) by lra. apply Mr; [ | apply W_self | lra | lra].
    replace 3.27 with (2.07 + 1.13 + 0.07) by lra. apply Mr; [ | apply frac_acc | lra | lra]. replace 2.07 with (1 + 1 + 0.07) by lra. apply Mr; auto; lra.
  Qed.
  Lemma t2_acc : acc (8.54 * w) (@nmul (BNum L) (@nmul (BNum L) (@npowi (BNum L) Z2 2) (@npowi (BNum L) frac 2)) Z23) t2.
  Proof.
    cbn [nmul npowi BNum bpowi]. pose proof frac_acc as F. replace t2 with (z2 * z2 * (/ (1 - z3) * / (1 - z3)) * (z2 / z3)) by (unfold t2; field; lra). replace 8.54 with (4.47 + 4 + 0.07) by lra. apply Mr; [ | exact A23 | lra | lra].
    replace 4.47 with (2.07 + 2.33 + 0.07) by lra. apply Mr; [ | | lra | lra].
    - replace 2.07 with (1 + 1 + 0.07) by lra. apply Mr; auto; lra.
    - replace 2.33 with (1.13 + 1.13 + 0.07) by lra. apply Mr; auto; lra.
  Qed.
  Let B := @nsub (BNum L) (@nmul (BNum L) Z2 (@npowi (BNum L) Z23 2)) Z0.
  Lemma B_err : Rabs (B - (A - z0)) <= 10.21 * w * z0.
  Proof.
    unfold B. cbn [nsub nmul npowi BNum bpowi]. destruct A_pos as [PA AZ].
    assert (Q : acc (9.14 * w) (rnd (Z2 * rnd (Z23 * Z23))) A).
    { replace A with (z2 * (z2 / z3 * (z2 / z3))) by (unfold A; field; lra). replace 9.14 with (1 + 8.07 + 0.07) by lra. apply Mr; [exact A2 | | lra | lra]. replace 8.07 with (4 + 4 + 0.07) by lra. apply Mr; auto; lra. }
    set (A' := rnd (Z2 * rnd (Z23 * Z23))) in *. clearbody A'. apply W_abs in Q. pose proof (W_abs _ _ _ _ A0) as Q0. rewrite (Rabs_right A) in Q by lra. rewrite (Rabs_right z0) in Q0 by lra.
    assert (9.14 * w * A <= 9.14 * w * z0) by (apply Rmult_le_compat_l; lra). assert (K : Rabs (A' - Z0 - (A - z0)) <= 10.14 * w * z0).
    { replace (A' - Z0 - (A - z0)) with (A' - A - (Z0 - z0)) by ring. eapply Rle_trans; [apply Rabs_triang | ]. rewrite Rabs_Ropp. lra. }
    destruct (rnd_err (A' - Z0)) as (f & Hf & ->). replace ((A' - Z0) * (1 + f) - (A - z0)) with (A' - Z0 - (A - z0) + (A' - Z0) * f) by ring.
    eapply Rle_trans; [apply Rabs_triang | ]. rewrite Rabs_mult. assert (V : Rabs (A' - Z0) <= 1.1 * z0).
    { replace (A' - Z0) with (A' - Z0 - (A - z0) + (A - z0)) by ring. eapply Rle_trans; [apply Rabs_triang | ]. rewrite (Rabs_left1 (A - z0)) by lra.
      assert (w * z0 <= / 10 ^ 9 * z0) by (apply Rmult_le_compat_r; lra). lra. }
    assert (Rabs (A' - Z0) * Rabs f <= 1.1 * z0 * (w / 20)) by (apply Rmult_le_compat; try apply Rabs_pos; [exact V | pose proof u20; lra]).
    assert (0 < w * z0) by (apply Rmult_lt_0_compat; lra). lra.
  Qed.
  Lemma t3_err : Rabs (@nmul (BNum L) B (@nln1p (BNum L) (@nmul (BNum L) Z3 (@nlit (BNum L) (-1)))) - (z0 - A) * l) <= 11.46 * w * (z0 * l).
  Proof.
    pose proof B_err as HB. pose proof (W_abs _ _ _ _ ln_acc) as HL'. set (ln' := @nln1p (BNum L) _) in *. change (car (BNum L)) with R in *. clearbody ln'. destruct A_pos as [PA AZ]. destruct l_pos as [L0 _].
    assert (El : ln (1 - z3) = - l) by (unfold l; ring). rewrite El in HL'. rewrite Rabs_Ropp, (Rabs_right l) in HL' by lra.
    assert (HB' : Rabs B <= 1.1 * z0).
    { replace B with (B - (A - z0) + (A - z0)) by ring. eapply Rle_trans; [apply Rabs_triang | ]. rewrite (Rabs_left1 (A - z0)) by lra. assert (w * z0 <= / 10 ^ 9 * z0) by (apply Rmult_le_compat_r; lra). lra. }
    clearbody B l A. assert (HW : w * l <= / 10 ^ 9 * l) by (apply Rmult_le_compat_r; lra). assert (HLn : Rabs ln' <= 1.001 * l).
    { replace ln' with (ln' - - l + - l) by ring. eapply Rle_trans; [apply Rabs_triang | ]. rewrite Rabs_Ropp, (Rabs_right l) by lra. lra. }
    assert (PW : 0 < w * (z0 * l)) by (repeat apply Rmult_lt_0_compat; lra).
    cbn [nmul BNum]. destruct (rnd_err (B * ln')) as (f & Hf & ->). replace (B * ln' * (1 + f) - (z0 - A) * l) with ((B - (A - z0)) * ln' + (A - z0) * (ln' - - l) + B * ln' * f) by ring.
    eapply Rle_trans; [apply Rabs_triang | ]. eapply Rle_trans; [apply Rplus_le_compat_r, Rabs_triang | ]. rewrite !Rabs_mult. rewrite (Rabs_left1 (A - z0)) by lra.
    assert (E1 : Rabs (B - (A - z0)) * Rabs ln' <= 10.21 * w * z0 * (1.001 * l)) by (apply Rmult_le_compat; auto; apply Rabs_pos).
    assert (E2 : - (A - z0) * Rabs (ln' - - l) <= z0 * (1.17 * w * l)) by (apply Rmult_le_compat; auto; try apply Rabs_pos; lra).
    assert (E3 : Rabs B * Rabs ln' * Rabs f <= 1.1 * z0 * (1.001 * l) * (w / 20)). { apply Rmult_le_compat; [apply Rmult_le_pos; apply Rabs_pos | apply Rabs_pos | | pose proof u20; lra]. apply Rmult_le_compat; auto; apply Rabs_pos. }
    replace (10.21 * w * z0 * (1.001 * l)) with (10.22021 * (w * (z0 * l))) in E1 by lra. replace (z0 * (1.17 * w * l)) with (1.17 * (w * (z0 * l))) in E2 by lra.
    replace (1.1 * z0 * (1.001 * l) * (w / 20)) with (0.055055 * (w * (z0 * l))) in E3 by lra. lra.
  Qed.
  Lemma hs_acc v : acc (21 * w)
    (@nmul (BNum L) (@ndiv (BNum L) (@nmul (BNum L) v (@nlit (BNum L) 6)) npi)
      (@nadd (BNum L) (@nadd (BNum L) (@nmul (BNum L) (@nmul (BNum L) (@nmul (BNum L) Z1 Z2) frac) (@nlit (BNum L) 3))
          (@nmul (BNum L) (@nmul (BNum L) (@npowi (BNum L) Z2 2) (@npowi (BNum L) frac 2)) Z23))
        (@nmul (BNum L) B (@nln1p (BNum L) (@nmul (BNum L) Z3 (@nlit (BNum L) (-1)))))))
    (v * (6 / PI * (t1 + t2 + (A - z0) * ln (1 - z3)))).
  Proof.
    pose proof t1_acc as H1. pose proof t2_acc as H2. pose proof t3_err as H3. pose proof t1_pos as T1. pose proof t2_big as T2. destruct A_pos as [PA AZ]. destruct l_pos as [L0 _].
    rewrite lit6. assert (El : ln (1 - z3) = - l) by (unfold l; ring). rewrite El. set (T1' := @nmul (BNum L) _ (@nlit (BNum L) 3)) in *. set (T2' := @nmul (BNum L) _ Z23) in *. set (T3' := @nmul (BNum L) B _) in *.
    change (car (BNum L)) with R in *. clearbody T1' T2' T3'. set (S := t1 + t2 + (A - z0) * - l).
    assert (AL : 0 < A * l) by (apply Rmult_lt_0_compat; auto). assert (Al : A * l <= z0 * l) by (apply Rmult_le_compat_r; lra). 
    assert (S1 : t1 + t2 <= S) by (unfold S; lra). assert (S2 : z0 * l <= S) by (unfold S; lra). clearbody l A t1 t2.
    assert (PWS : 0 < w * S) by (apply Rmult_lt_0_compat; lra). assert (W1 : w * (t1 + t2) <= w * S) by (apply Rmult_le_compat_l; lra). assert (W2 : w * (z0 * l) <= w * S) by (apply Rmult_le_compat_l; lra).
    assert (HWS : w * S <= / 10 ^ 9 * S) by (apply Rmult_le_compat_r; lra).
    assert (H12 : acc (8.6 * w) (@nadd (BNum L) T1' T2') (t1 + t2)).
    { cbn [nadd BNum]. replace 8.6 with (8.54 + 0.06) by lra. apply Rn; [lra | ]. apply acc_add; [lra | lra | | exact H2]. apply (W_weaken w Hw 3.34); [lra | exact H1]. }
    apply W_abs in H12. rewrite (Rabs_right (t1 + t2)) in H12 by lra. set (T12 := @nadd (BNum L) T1' T2') in *. change (car (BNum L)) with R in *. clearbody T12.
    assert (HS : acc (20.4 * w) (@nadd (BNum L) T12 T3') S).
    { apply within_acc; [lra | ]. unfold within. rewrite (Rabs_right S) by lra. cbn [nadd BNum]. destruct (rnd_err (T12 + T3')) as (f & Hf & ->).
      assert (K : Rabs (T12 + T3' - S) <= 20.07 * (w * S)).
      { replace (T12 + T3' - S) with (T12 - (t1 + t2) + (T3' - (z0 - A) * l)) by (unfold S; ring). eapply Rle_trans; [apply Rabs_triang | ]. lra. }
      replace ((T12 + T3') * (1 + f) - S) with (T12 + T3' - S + (T12 + T3') * f) by ring. eapply Rle_trans; [apply Rabs_triang | ]. rewrite Rabs_mult.
      assert (V : Rabs (T12 + T3') <= 1.1 * S). { replace (T12 + T3') with (T12 + T3' - S + S) by ring. eapply Rle_trans; [apply Rabs_triang | ]. rewrite (Rabs_right S) by lra. lra. }
      assert (Rabs (T12 + T3') * Rabs f <= 1.1 * S * (w / 20)) by (apply Rmult_le_compat; try apply Rabs_pos; [exact V | pose proof u20; lra]). lra. }
    cbn [nmul ndiv npi BNum]. apply (W_weaken w Hw 20.7); [lra | ]. replace (v * (6 / PI * S)) with (v * 6 * / PI * S) by (unfold Rdiv; ring). replace 20.7 with (0.23 + 20.4 + 0.07) by lra. apply Mr; [ | exact HS | lra | lra].
    unfold Rdiv. apply (W_weaken w Hw (0.07 + 0.07 + 0.07)); [lra | ]. pose proof PI_RGT_0. apply Mr; [ | | lra | lra].
    - apply (W_weaken w Hw (0 + 0.06)); [lra | ]. apply Rn; [lra | apply W_self].
    - replace 0.07 with (0.06 + 0.01) by lra. apply (W_inv w Hw); [lra | lra | ]. apply (W_weaken w Hw (0 + 0.06)); [lra | ]. apply Rn; [lra | apply W_self].
  Qed.
End Core.

(** the mixture of hard spheres described by parameters held as f64 *)
Definition spheres {L} (p : params (BNum L)) : mixture :=
  mkMix (length (p_m p)) (fun i => nth i (p_m p) 0) (fun i => nth i (p_sigma p) 0) (fun i => nth i (p_epsilon_k p) 0)
    (fun _ => 0) (fun _ => 0) (fun _ => 0) (fun _ => 0) (fun _ => 0) (fun _ => 0) (fun _ _ => 0).

(** hypotheses: a physical state *)
Record sphere_state {L} (p : params (BNum L)) (t v : R) (moles : list R) : Prop := {
  ss_t : 0 < t; ss_v : 0 < v;
  ss_len : length (p_sigma p) = length (p_m p) /\ length moles = length (p_m p);
  ss_par : forall i, (i < length (p_m p))%nat -> 0 < nth i (p_m p) 0 /\ 0 < nth i (p_sigma p) 0 /\ 0 <= nth i (p_epsilon_k p) 0 /\ 0 <= nth i moles 0;
  ss_mol : exists i, (i < length (p_m p))%nat /\ 0 < nth i moles 0 }.

Section HS.
  Variable L : libm. Hypothesis HL : libm_ok L.
  Variables (p : params (BNum L)) (t v : R) (moles : list R).
  Hypothesis S : sphere_state p t v moles.
  Let X := spheres p.
  Let n := length (p_m p).
  Let rho i := nth i moles 0 / v.
  Let z k := Zeta X t rho k.
  Let st := @state_new (BNum L) t v moles.
  Let d i := Di X t i.
  Let dl := @hs_diameter (BNum L) p t.

  Lemma d_pos i : (i < n)%nat -> 0 < d i.
  Proof.
    intros Hi. destruct (ss_par _ _ _ _ S i Hi) as (_ & Ps & Pe & _). unfold d, Di. cbn [Sg Ep X spheres].
    apply Rmult_lt_0_compat; auto. assert (exp (-3 * nth i (p_epsilon_k p) 0 / t) <= exp 0); [ | rewrite exp_0 in *; lra].
    assert (0 <= nth i (p_epsilon_k p) 0 * / t) by (apply Rmult_le_pos; [auto | left; apply Rinv_0_lt_compat, (ss_t _ _ _ _ S)]).
    unfold Rdiv. destruct (Req_dec (-3 * nth i (p_epsilon_k p) 0 * / t) 0) as [-> | N]; [lra | left; apply exp_increasing; lra].
  Qed.
  Lemma lit0 : @n0 (BNum L) = 0.
  Proof. unfold n0. cbn [nlit BNum]. replace (Rlit 0) with 0 by (unfold Rlit; cbn; lra). apply rnd_0. Qed.
  Lemma ixb (l : list R) i : @ix (BNum L) l i = nth i l 0.
  Proof. unfold ix. rewrite lit0. reflexivity. Qed.
  Lemma d_rp i : (i < n)%nat -> rp 5 (@ix (BNum L) dl i) (d i).
  Proof.
    intros Hi. unfold dl. destruct (ss_len _ _ _ _ S) as [Ls _]. rewrite fl_diameter_ok by (unfold n in Hi; lia). rewrite !ixb. destruct (ss_par _ _ _ _ S i Hi) as (_ & Ps & Pe & _).
    apply acc_rp; [ | cbn; lra]. replace (INR 4) with 4 by (cbn; lra). pose proof (fl_diameter_err L HL _ _ _ (ss_t _ _ _ _ S) Pe Ps) as A. unfold diameter in A. unfold d, Di. cbn [Sg Ep X spheres].
    replace (12 / 100) with 0.12 by lra. exact A.
  Qed.
  Lemma d_pow_rp i k : (i < n)%nat -> (k <= 3)%nat -> rp 17 (@npowi (BNum L) (@ix (BNum L) dl i) k) (d i ^ k).
  Proof.
    intros Hi Hk. pose proof (d_rp i Hi) as A. cbn [npowi BNum]. set (x := @ix (BNum L) dl i) in *.
    assert (A2 : rp 11 (rnd (x * x)) (d i * d i)) by (apply (rp_rnd 10), (rp_mul 5 5); auto).
    destruct k as [ | [ | [ | [ | k]]]]; [ | | | | lia]; cbn [bpowi pow].
    - apply rp_weaken with 0%nat; [lia | apply rp_refl].
    - apply rp_weaken with 5%nat; [lia | ]. rewrite Rmult_1_r. auto.
    - apply rp_weaken with 11%nat; [lia | ]. rewrite Rmult_1_r. auto.
    - apply (rp_rnd 16). rewrite Rmult_1_r. apply (rp_mul 5 11); auto.
  Qed.
  Lemma rho_rp i : (i < n)%nat -> rp 1 (@ix (BNum L) (s_rho st) i) (rho i).
  Proof.
    intros Hi. destruct (ss_len _ _ _ _ S) as [_ Lm]. unfold st, state_new. cbn [s_rho]. rewrite ixb, (nth_indep _ 0 (@ndiv (BNum L) 0 v)) by (rewrite map_length; change (i < @length R moles)%nat; rewrite Lm; exact Hi).
    rewrite (map_nth (fun m => @ndiv (BNum L) m v)). apply (rp_rnd 0), rp_refl.
  Qed.
  Lemma pim_rp i : rp 3 (@nmul (BNum L) (@ndiv (BNum L) npi (@nlit (BNum L) 6)) (@ix (BNum L) (p_m p) i)) (PI / 6 * nth i (p_m p) 0).
  Proof.
    rewrite ixb. cbn [nmul ndiv npi nlit BNum]. replace (rnd (Rlit 6)) with 6 by (symmetry; replace (Rlit 6) with 6 by (unfold Rlit; cbn; lra); apply rnd_id; exact (f64_int 6 ltac:(lia))).
    apply (rp_rnd 2), (rp_mul 2 0); [ | apply rp_refl]. apply (rp_rnd 1), (rp_mul 1 0); [ | apply rp_refl]. apply (rp_rnd 0), rp_refl.
  Qed.
  Lemma pars i : (i < n)%nat -> 0 < M X i /\ 0 <= rho i /\ 0 < d i.
  Proof.
    intros Hi. destruct (ss_par _ _ _ _ S i Hi) as (Pm & _ & _ & Pn). pose proof (ss_v _ _ _ _ S) as Pv. repeat split; [exact Pm | | apply d_pos; auto].
    unfold rho. apply Rmult_le_pos; [auto | left; apply Rinv_0_lt_compat; auto].
  Qed.
  Lemma zeta_rp k : (k <= 3)%nat -> rp (23 + n) (@zeta (BNum L) (p_m p) (s_rho st) dl k) (z k).
  Proof.
    intros Hk. unfold zeta, z, Zeta. fold n. replace (N X) with n by reflexivity. rewrite <- rsum_scal. apply nsumi_rp. intros i Hi. destruct (pars i Hi) as (Pm & Pr & Pd). split.
    - replace (PI / 6 * (rho i * M X i * Di X t i ^ k)) with (rho i * d i ^ k * (PI / 6 * nth i (p_m p) 0)) by (unfold d; cbn [M X spheres]; ring).
      apply (rp_rnd 22), (rp_mul 19 3); [ | apply pim_rp]. apply (rp_rnd 18), (rp_mul 1 17); [apply rho_rp; auto | apply d_pow_rp; auto].
    - pose proof PI_RGT_0. apply Rmult_le_pos; [lra | ]. apply Rmult_le_pos; [apply Rmult_le_pos; lra | ]. apply pow_le. apply Rlt_le, Pd.
  Qed.
  Lemma total_rp : rp n (@nsum (BNum L) moles) (rsum moles (fun x => x)).
  Proof.
    destruct (ss_len _ _ _ _ S) as [_ Lm]. unfold n. rewrite <- Lm. apply (nsum_rp L moles 0 (fun x => x)). intros x Hx. split; [apply rp_refl | ].
    apply (In_nth _ _ 0) in Hx. destruct Hx as (i & Hi & <-). rewrite Lm in Hi. apply (ss_par _ _ _ _ S i Hi).
  Qed.
  Lemma total_pos : 0 < rsum moles (fun x => x).
  Proof.
    destruct (ss_mol _ _ _ _ S) as (i & Hi & Pi). destruct (ss_len _ _ _ _ S) as [_ Lm]. eapply Rlt_le_trans; [exact Pi | ].
    apply (list_ge_term moles (nth i moles 0)).
    - intros x Hx. apply (In_nth _ _ 0) in Hx. destruct Hx as (j & Hj & <-). rewrite Lm in Hj. apply (ss_par _ _ _ _ S j Hj).
    - apply nth_In. lia.
  Qed.
  Lemma x_rp i : (i < n)%nat -> rp (1 + n) (@ix (BNum L) (s_x st) i) (nth i moles 0 / rsum moles (fun x => x)).
  Proof.
    intros Hi. destruct (ss_len _ _ _ _ S) as [_ Lm]. unfold st, state_new. cbn [s_x]. set (tt := @nsum (BNum L) moles). rewrite ixb, (nth_indep _ 0 (@ndiv (BNum L) 0 tt)) by (rewrite map_length; change (i < @length R moles)%nat; rewrite Lm; exact Hi).
    rewrite (map_nth (fun m => @ndiv (BNum L) m tt)). cbn [ndiv BNum]. apply rp_rnd. unfold Rdiv. apply (rp_mul 0 n); [apply rp_refl | ]. apply rp_inv. apply total_rp.
  Qed.
  Lemma z_pos k : 0 < z k.
  Proof.
    unfold z, Zeta. pose proof PI_RGT_0. apply Rmult_lt_0_compat; [lra | ]. destruct (ss_mol _ _ _ _ S) as (i & Hi & Pi).
    change (N X) with n. fold n in Hi. apply (rsum_pos _ _ i).
    - intros j Hj. apply in_seq in Hj. destruct (pars j) as (Pm & Pr & Pd); [lia | ]. apply Rmult_le_pos; [apply Rmult_le_pos; lra | ]. apply pow_le, Rlt_le, Pd.
    - apply in_seq. lia.
    - destruct (pars i Hi) as (Pm & Pr & Pd). pose proof (ss_v _ _ _ _ S). apply Rmult_lt_0_compat; [apply Rmult_lt_0_compat; [apply Rdiv_lt_0_compat; auto | auto] | apply pow_lt, Pd].
  Qed.
  Lemma z23_rp : rp (4 * n + 41) (@zeta_23 (BNum L) (p_m p) (s_x st) dl) (z 2 / z 3).
  Proof.
    pose proof total_pos as PT. set (T := rsum moles (fun x => x)) in *. pose proof (ss_v _ _ _ _ S) as Pv. pose proof PI_RGT_0 as PP.
    assert (G : forall k, (k <= 3)%nat -> rp (20 + n + n) (@nsumi (BNum L) n (fun i => @nmul (BNum L) (@nmul (BNum L) (@ix (BNum L) (s_x st) i) (@npowi (BNum L) (@ix (BNum L) dl i) k)) (@ix (BNum L) (p_m p) i)))
        (rsum (seq 0 n) (fun i => v / T * (rho i * M X i * Di X t i ^ k)))).
    { intros k Hk. apply nsumi_rp. intros i Hi. destruct (pars i Hi) as (Pm & Pr & Pd). split.
      - replace (v / T * (rho i * M X i * Di X t i ^ k)) with (nth i moles 0 / T * d i ^ k * nth i (p_m p) 0) by (unfold rho, d; cbn [M X spheres]; field; lra).
        rewrite (ixb (p_m p)). replace (20 + n)%nat with (Datatypes.S (Datatypes.S ((1 + n) + 17) + 0)) by lia. apply rp_rnd, rp_mul; [ | apply rp_refl]. apply rp_rnd, rp_mul; [apply x_rp; auto | apply d_pow_rp; auto].
      - apply Rmult_le_pos; [apply Rlt_le, Rdiv_lt_0_compat; auto | ]. apply Rmult_le_pos; [apply Rmult_le_pos; lra | apply pow_le, Rlt_le, Pd]. }
    unfold zeta_23. fold n. cbn [ndiv BNum]. pose proof (z_pos 2) as P2. pose proof (z_pos 3) as P3.
    replace (z 2 / z 3) with (rsum (seq 0 n) (fun i => v / T * (rho i * M X i * Di X t i ^ 2)) * / rsum (seq 0 n) (fun i => v / T * (rho i * M X i * Di X t i ^ 3))).
    - apply rp_weaken with (Datatypes.S ((20 + n + n) + (20 + n + n))); [lia | ]. apply rp_rnd. unfold Rdiv. apply rp_mul; [apply G; lia | apply rp_inv, G; lia].
    - rewrite !rsum_scal. unfold z, Zeta in *. replace (N X) with n in * by reflexivity. set (a := rsum _ _) in *. set (b := rsum _ (fun i => rho i * M X i * Di X t i ^ 3)) in *.
      assert (b <> 0) by (intros E; rewrite E, Rmult_0_r in P3; lra). field. repeat split; lra.
  Qed.
  (** (sum of squares)^3 <= sum of ones times (sum of cubes)^2 *)
  Lemma holder : z 2 ^ 3 <= z 0 * z 3 ^ 2.
  Proof.
    pose proof (z_pos 2) as P2. pose proof (z_pos 3) as P3. pose proof PI_RGT_0 as PP. set (s := z 3 / z 2). assert (Ps : 0 < s) by (apply Rdiv_lt_0_compat; auto).
    assert (K : 3 * s * z 2 <= s ^ 3 * z 0 + 2 * z 3).
    { unfold z, Zeta. replace (N X) with n by reflexivity.
      replace (3 * s * (PI / 6 * rsum (seq 0 n) (fun i => rho i * M X i * Di X t i ^ 2))) with (PI / 6 * rsum (seq 0 n) (fun i => 3 * s * (rho i * M X i * Di X t i ^ 2))) by (rewrite rsum_scal; ring).
      replace (s ^ 3 * (PI / 6 * rsum (seq 0 n) (fun i => rho i * M X i * Di X t i ^ 0)) + 2 * (PI / 6 * rsum (seq 0 n) (fun i => rho i * M X i * Di X t i ^ 3)))
        with (PI / 6 * rsum (seq 0 n) (fun i => s ^ 3 * (rho i * M X i * Di X t i ^ 0) + 2 * (rho i * M X i * Di X t i ^ 3))) by (rewrite rsum_plus, !rsum_scal; ring).
      apply Rmult_le_compat_l; [lra | ]. apply rsum_le. intros i Hi. apply in_seq in Hi. destruct (pars i) as (Pm & Pr & Pd); [lia | ]. fold (d i). set (x := d i) in *. 
      assert (W : 0 <= rho i * M X i) by (apply Rmult_le_pos; lra). assert (Q : 0 <= (s - x) ^ 2 * (s + 2 * x)) by (apply Rmult_le_pos; [apply pow2_ge_0 | lra]).
      assert (0 <= rho i * M X i * ((s - x) ^ 2 * (s + 2 * x))) by (apply Rmult_le_pos; auto). cbn [pow] in *. nra. }
    replace (3 * s * z 2) with (3 * z 3) in K by (unfold s; field; lra). assert (K2 : z 3 <= s ^ 3 * z 0) by lra.
    apply (Rmult_le_reg_r (z 3 / z 2 ^ 3)); [apply Rdiv_lt_0_compat; [auto | apply pow_lt; auto] | ].
    replace (z 2 ^ 3 * (z 3 / z 2 ^ 3)) with (z 3) by (field; lra). replace (z 0 * z 3 ^ 2 * (z 3 / z 2 ^ 3)) with (s ^ 3 * z 0) by (unfold s; field; lra). exact K2.
  Qed.
  Hypothesis He : z 3 < 1.
  Hypothesis Hn : INR n + 24 <= 9 * 10 ^ 6 * (1 - z 3).
  Let w := (INR n + 24) * u / (1 - z 3).
  Lemma w_b : 0 < w <= / 10 ^ 9.
  Proof.
    pose proof u_pos as U0. pose proof (pos_INR n) as N0. split; [apply Rdiv_lt_0_compat; [apply Rmult_lt_0_compat; lra | lra] | ]. unfold w. apply (Rmult_le_reg_r (1 - z 3)); [lra | ]. replace ((INR n + 24) * u / (1 - z 3) * (1 - z 3)) with ((INR n + 24) * u) by (field; lra).
    apply Rle_trans with (9 * 10 ^ 6 * (1 - z 3) * u); [apply Rmult_le_compat_r; lra | ]. replace (9 * 10 ^ 6 * (1 - z 3) * u) with (9 * 10 ^ 6 * u * (1 - z 3)) by ring. apply Rmult_le_compat_r; [lra | ]. unfold u. lra.
  Qed.
  Lemma w_eq : w * (1 - z 3) = (INR n + 24) * u. Proof. unfold w. field. lra. Qed.
  Lemma w_u : u <= w * (1 - z 3) / 24.
  Proof. rewrite w_eq. pose proof u_pos. assert (0 <= INR n * u) by (apply Rmult_le_pos; [apply pos_INR | lra]). lra. Qed.
  Lemma w_nn : (INR n + 24) * ((INR n + 24) * u) <= 0.01.
  Proof.
    pose proof (z_pos 3) as P3. pose proof u_pos as U0. pose proof (pos_INR n) as N0.
    apply Rle_trans with (9 * 10 ^ 6 * (9 * 10 ^ 6 * u)); [ | unfold u; lra]. assert (INR n + 24 <= 9 * 10 ^ 6) by lra. apply Rmult_le_compat; [lra | apply Rmult_le_pos; lra | lra | apply Rmult_le_compat_r; lra].
  Qed.
  Lemma zeta_acc k : (k <= 3)%nat -> acc (w * (1 - z 3)) (@zeta (BNum L) (p_m p) (s_rho st) dl k) (z k).
  Proof.
    intros Hk. pose proof u_pos as U0. pose proof (pos_INR n) as N0. pose proof w_nn as Nn. rewrite w_eq. assert (I : INR (23 + n) = INR n + 23) by (rewrite plus_INR; replace (INR 23) with 23 by (cbn; lra); ring).
    assert (Nu : (INR n + 24) * u <= / 2). { assert (24 * ((INR n + 24) * u) <= (INR n + 24) * ((INR n + 24) * u)) by (apply Rmult_le_compat_r; [apply Rmult_le_pos; lra | lra]). lra. }
    eapply acc_weaken; [ | apply rp_acc; [ | apply zeta_rp; auto]]; rewrite I; [ | lra].
    set (a := INR n) in *. assert ((a + 23) * ((a + 23) * u) <= (a + 24) * ((a + 24) * u)) by (apply Rmult_le_compat; [lra | apply Rmult_le_pos; lra | lra | apply Rmult_le_compat_r; lra]).
    assert (V : (a + 23) * (2 * ((a + 23) * u)) <= 1) by lra. assert ((a + 23) * (2 * ((a + 23) * u)) * u <= 1 * u) by (apply Rmult_le_compat_r; lra). lra.
  Qed.
  Lemma w_one x y : acc (w * (1 - z 3)) x y -> acc (1 * w) x y.
  Proof. pose proof w_b. pose proof (z_pos 3). apply acc_weaken. assert (w * (1 - z 3) <= w * 1) by (apply Rmult_le_compat_l; lra). lra. Qed.
  Lemma hs_final : acc (21 * w) (@a_hs (BNum L) p st) (v * f_hs X t rho).
  Proof.
    pose proof (z_pos 0) as P0. pose proof (z_pos 1) as P1. pose proof (z_pos 2) as P2. pose proof (z_pos 3) as P3. pose proof u_pos as U0. pose proof (pos_INR n) as N0.
    pose proof w_b as Hw. pose proof w_eq as Ew. pose proof w_nn as Nn. pose proof zeta_acc as AZ. pose proof w_one as A1w. pose proof w_u as Hu.
    assert (Nu : (INR n + 24) * u <= / 10 ^ 9). { rewrite <- Ew. apply Rle_trans with (/ 10 ^ 9 * 1); [apply Rmult_le_compat; lra | lra]. }
    assert (A23 : acc (4 * w) (@zeta_23 (BNum L) (p_m p) (s_x st) dl) (z 2 / z 3)).
    { eapply acc_weaken; [ | apply rp_acc; [ | apply z23_rp]]; (assert (I : INR (4 * n + 41) = 4 * INR n + 41) by (rewrite plus_INR, mult_INR; replace (INR 4) with 4 by (cbn; lra); replace (INR 41) with 41 by (cbn; lra); ring)); rewrite I; [ | lra].
      assert ((INR n + 24) * u <= w) by (rewrite <- Ew; assert (w * (1 - z 3) <= w * 1) by (apply Rmult_le_compat_l; lra); lra).
      apply Rle_trans with (4 * ((INR n + 24) * u)); [ | lra]. set (a := INR n) in *.
      assert (V : (4 * a + 41) * (2 * ((4 * a + 41) * u)) <= 32 * ((a + 24) * ((a + 24) * u))).
      { apply Rle_trans with (4 * (a + 24) * (2 * (4 * (a + 24) * u))); [ | lra]. apply Rmult_le_compat; [lra | apply Rmult_le_pos; [lra | apply Rmult_le_pos; lra] | lra | ]. apply Rmult_le_compat_l; [lra | ]. apply Rmult_le_compat_r; lra. }
      assert ((4 * a + 41) * (2 * ((4 * a + 41) * u)) * u <= 1 * u) by (apply Rmult_le_compat_r; lra). lra. }
    exact (hs_acc L HL w Hw (z 0) (z 1) (z 2) (z 3) P0 P1 P2 (conj P3 He) holder Hu _ _ _ _ _ (A1w _ _ (AZ 0%nat ltac:(lia))) (A1w _ _ (AZ 1%nat ltac:(lia))) (A1w _ _ (AZ 2%nat ltac:(lia))) (AZ 3%nat ltac:(lia)) A23 v).
  Qed.
  Lemma f_hs_pos : 0 < f_hs X t rho.
  Proof.
    pose proof (z_pos 0) as P0. pose proof (z_pos 1) as P1. pose proof (z_pos 2) as P2. pose proof (z_pos 3) as P3. pose proof holder as Ho. unfold f_hs. fold (z 0) (z 1) (z 2) (z 3). 
    pose proof (t1_pos (z 1) (z 2) (z 3) P1 P2 (conj P3 He)) as T1. pose proof (t2_big (z 0) (z 2) (z 3) P2 (conj P3 He) Ho) as T2. destruct (l_pos (z 3) (conj P3 He)) as [L0 _]. destruct (A_pos (z 0) (z 2) (z 3) P2 (conj P3 He) Ho) as [PA PZ].
    apply Rmult_lt_0_compat; [apply Rdiv_lt_0_compat; [lra | apply PI_RGT_0] | ]. set (A := z 2 ^ 3 / z 3 ^ 2) in *. set (l := ln (1 - z 3)) in *. set (b := z 2 ^ 3 / _) in *. assert (0 < z 0 * - l) by (apply Rmult_lt_0_compat; lra). lra.
  Qed.
End HS.

(** The hard-sphere contribution computed with f64 has a relative error of at most 21 (n + 24)/(1 - eta)
    units of roundoff, for n components at packing fraction eta: the difference of its logarithmic term
    does not cancel the leading digits, at any density. *)
Theorem C52_hard_sphere L (p : params (BNum L)) t v moles : libm_ok L -> sphere_state p t v moles ->
  let n := INR (length (p_m p)) in let rho := fun i => nth i moles 0 / v in let eta := Zeta (spheres p) t rho 3 in
  eta < 1 -> n + 24 <= 9 * 10 ^ 6 * (1 - eta) ->
  Rabs (@a_hs (BNum L) p (@state_new (BNum L) t v moles) - v * f_hs (spheres p) t rho)
    <= 21 * (n + 24) / (1 - eta) / 2 ^ 53 * (v * f_hs (spheres p) t rho).
Proof.
  intros HL S n rho eta He Hn. pose proof (acc_within _ _ _ (hs_final L HL p t v moles S He Hn)) as A. unfold within in A. fold rho in A. fold eta in A. fold n in A.
  pose proof (f_hs_pos L p t v moles S He) as P. fold rho in P. pose proof (ss_v _ _ _ _ S) as Pv. assert (0 < v * f_hs (spheres p) t rho) by (apply Rmult_lt_0_compat; auto).
  rewrite (Rabs_right (v * f_hs (spheres p) t rho)) in A by lra. eapply Rle_trans; [exact A | ]. right. f_equal. unfold u. field. lra.
Qed.

Example C52_hard_sphere_case : let L := exact_libm in let p := @from_records_raw (BNum L) [b_methane L] [[0]] in
  let a := @a_hs (BNum L) p (@state_new (BNum L) 300 1000 [10]) in let f := 1000 * f_hs (spheres p) 300 (fun i => nth i [10] 0 / 1000) in
  sphere_state p 300 1000 [10] /\ Rabs (a - f) <= / 10 ^ 12 * f /\ 0 < f.
Proof.
  intros L p a f. assert (S : sphere_state p 300 1000 [10]).
  { constructor; try lra; try (cbn; auto; fail).
    - intros i Hi. cbn in Hi. destruct i as [ | i]; [ | lia]. cbn. lra.
    - exists 0%nat. cbn. split; [lia | lra]. }
  set (eta := Zeta (spheres p) 300 (fun i => nth i [10] 0 / 1000) 3).
  assert (E : eta <= 0.4).
  { unfold eta, Zeta, Di. cbn [N M Sg Ep spheres p from_records_raw p_m p_sigma p_epsilon_k rsum seq length map nth b_methane]. 
    cbn. pose proof PI_4. pose proof PI_RGT_0. set (e := exp _). assert (0 < e < 1). { unfold e. split; [apply exp_pos | ]. rewrite <- exp_0. apply exp_increasing. lra. }
    assert (0 < 3.5 * (1 - 12 / 100 * e) <= 3.5) by lra. set (y := 3.5 * (1 - 12 / 100 * e)) in *. clearbody y. assert (y ^ 3 <= 3.5 ^ 3) by (apply pow_incr; lra). cbn [pow] in *.
    assert (0 <= y * (y * (y * 1))) by (repeat apply Rmult_le_pos; lra). assert (PI / 6 * (y * (y * (y * 1))) <= 4 / 6 * (3.5 * (3.5 * (3.5 * 1)))) by (apply Rmult_le_compat; lra). lra. }
  split; [exact S | ]. 
  assert (P : 0 < f). { unfold f. apply Rmult_lt_0_compat; [lra | ]. apply (f_hs_pos L p 300 1000 [10] S). unfold eta in E. lra. }
  split; [ | exact P]. eapply Rle_trans; [apply (C52_hard_sphere L p 300 1000 [10] exact_libm_ok S); fold eta; cbn [p from_records_raw p_m length map b_methane INR]; lra | ]. 
  apply Rmult_le_compat_r; [fold f; lra | ]. fold eta. cbn [p from_records_raw p_m length map b_methane INR]. assert (I : / (1 - eta) <= / 0.6) by (apply Rinv_le_contravar; lra). unfold Rdiv. lra.
Qed.
Print Assumptions C52_hard_sphere.
