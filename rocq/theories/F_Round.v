(** Lemmas on rounding (used by P_Round.v). *)
From Coq Require Import ZArith QArith Reals Lra Lia List Bool.
From Flocq Require Import Core Relative.
From Interval Require Import Tactic.
From Verif Require Import Num RNum BNum.
Import ListNotations.
Local Open Scope R_scope.
Set Bullet Behavior "Strict Subproofs".

(** unit roundoff *)
Definition u : R := / 2 ^ 53.
Lemma u_pos : 0 < u. Proof. apply Rinv_0_lt_compat. apply pow_lt. lra. Qed.
Lemma u_small : u <= / 10 ^ 15. Proof. unfold u. lra. Qed.
Lemma rnd_err x : exists d, Rabs d <= u /\ rnd x = x * (1 + d).
Proof.
  destruct (relative_error_N_FLX_ex radix2 53 ltac:(lia) (fun z => negb (Z.even z)) x) as (d & H1 & H2). exists d. split; [ | exact H2].
  eapply Rle_trans; [exact H1 | ]. unfold u. cbn [bpow]. change (-53 + 1)%Z with (-52)%Z. cbn. lra.
Qed.
Lemma rnd_le x y : x <= y -> rnd x <= rnd y.
Proof. apply round_le; [apply FLX_exp_valid; reflexivity | apply valid_rnd_N]. Qed.
Lemma rnd_id x : f64 x -> rnd x = x.
Proof. intros H. apply round_generic; [apply valid_rnd_N | exact H]. Qed.
Lemma f64_rnd x : f64 (rnd x).
Proof. apply generic_format_round; [apply FLX_exp_valid; reflexivity | apply valid_rnd_N]. Qed.
Lemma f64_Z m e : (Z.abs m < 2 ^ 53)%Z -> f64 (IZR m * bpow radix2 e).
Proof. intros H. apply generic_format_FLX. exists (Float radix2 m e); auto. Qed.
Lemma rnd_0 : rnd 0 = 0. Proof. apply round_0. apply valid_rnd_N. Qed.
Lemma f64_int m : (Z.abs m < 2 ^ 53)%Z -> f64 (IZR m).
Proof. intros H. replace (IZR m) with (IZR m * bpow radix2 0) by (cbn; lra). apply f64_Z. auto. Qed.
Lemma rnd_1 : rnd 1 = 1. Proof. apply rnd_id. exact (f64_int 1 ltac:(lia)). Qed.
Lemma rnd_opp x : rnd (- x) = - rnd x.
Proof. apply round_NE_opp. Qed.
(** scaling by powers of two is exact *)
Lemma f64_scale x e : f64 x -> f64 (x * bpow radix2 e).
Proof.
  intros H. apply generic_format_FLX. apply FLX_format_generic in H; [ | reflexivity]. destruct H as [[m k] H1 H2]. cbn in H2.
  exists (Float radix2 m (k + e)); [ | exact H2]. rewrite H1. unfold F2R. cbn [Fnum Fexp]. rewrite bpow_plus. ring.
Qed.
(** rounding in a binade *)
Lemma rnd_binade x z e : bpow radix2 (e + 52) <= x < bpow radix2 (e + 53) -> Rabs (x * bpow radix2 (- e) - IZR z) < / 2 -> rnd x = IZR z * bpow radix2 e.
Proof.
  intros Hx Hz. unfold rnd, round, F2R, scaled_mantissa. cbn [Fnum Fexp].
  assert (Ec : cexp radix2 (FLX_exp 53) x = e).
  { unfold cexp, FLX_exp. assert (0 < x) by (eapply Rlt_le_trans; [apply bpow_gt_0 | apply Hx]).
    rewrite (mag_unique_pos radix2 x (e + 53)); [lia | ]. replace (e + 53 - 1)%Z with (e + 52)%Z by lia. exact Hx. }
  rewrite Ec. f_equal. f_equal. apply Znearest_imp. exact Hz.
Qed.

(* ------------------------------------------------------------------- relative accuracy *)
(** [x] approximates [y] with relative error [e] *)
Definition acc (e x y : R) : Prop := exists d, Rabs d <= e /\ x = y * (1 + d).
Lemma acc_refl x : acc 0 x x.
Proof. exists 0. split; [rewrite Rabs_R0; lra | ring]. Qed.
Lemma acc_eq e x y : x = y -> 0 <= e -> acc e x y.
Proof. intros -> H. exists 0. split; [rewrite Rabs_R0; lra | ring]. Qed.
Lemma acc_weaken e e' x y : e <= e' -> acc e x y -> acc e' x y.
Proof. intros H (d & H1 & H2). exists d. split; [lra | auto]. Qed.
Lemma acc_within e x y : acc e x y -> within e x y.
Proof. intros (d & H1 & ->). unfold within. replace (y * (1 + d) - y) with (d * y) by ring. rewrite Rabs_mult. apply Rmult_le_compat_r; [apply Rabs_pos | auto]. Qed.
Lemma within_acc e x y : 0 <= e -> within e x y -> acc e x y.
Proof.
  intros He H. unfold within in H. destruct (Req_dec y 0) as [Z | Z].
  - subst. rewrite Rabs_R0, Rmult_0_r in H. assert (x = 0).
    { destruct (Req_dec x 0); auto. assert (0 < Rabs (x - 0)) by (apply Rabs_pos_lt; lra). lra. }
    subst. exists 0. rewrite Rabs_R0. split; [lra | ring].
  - exists ((x - y) / y). split; [ | field; auto]. unfold Rdiv. rewrite Rabs_mult, Rabs_inv.
    apply (Rmult_le_reg_r (Rabs y)); [apply Rabs_pos_lt; auto | ]. rewrite Rmult_assoc, Rinv_l by (apply Rabs_no_R0; auto). lra.
Qed.
Lemma acc_rnd e x y : acc e x y -> acc (e + u + e * u) (rnd x) y.
Proof.
  intros (d & H1 & ->). destruct (rnd_err (y * (1 + d))) as (g & G1 & ->). exists (d + g + d * g). split; [ | ring].
  eapply Rle_trans; [apply Rabs_triang | ]. apply Rplus_le_compat; [eapply Rle_trans; [apply Rabs_triang | lra] | ].
  rewrite Rabs_mult. apply Rmult_le_compat; auto; apply Rabs_pos.
Qed.
Lemma acc_mul e f x y x' y' : acc e x y -> acc f x' y' -> acc (e + f + e * f) (x * x') (y * y').
Proof.
  intros (d & H1 & ->) (g & G1 & ->). exists (d + g + d * g). split; [ | ring].
  eapply Rle_trans; [apply Rabs_triang | ]. apply Rplus_le_compat; [eapply Rle_trans; [apply Rabs_triang | lra] | ].
  rewrite Rabs_mult. apply Rmult_le_compat; auto; apply Rabs_pos.
Qed.
Lemma acc_opp e x y : acc e x y -> acc e (- x) (- y).
Proof. intros (d & H & ->). exists d. split; auto. ring. Qed.
Lemma acc_inv e x y : e <= / 2 -> y <> 0 -> acc e x y -> acc (e * (1 + 2 * e)) (/ x) (/ y).
Proof.
  intros He Hy (d & H & ->). assert (0 <= e) by (pose proof (Rabs_pos d); lra).
  assert (Hd : - e <= d <= e) by (apply Rabs_le_inv; auto). assert (P : / 2 <= 1 + d) by lra.
  assert (P0 : 1 + d <> 0) by lra. exists (- d / (1 + d)). split; [ | field; split; auto].
  unfold Rdiv. rewrite Rabs_mult, Rabs_Ropp, Rabs_inv by lra. rewrite (Rabs_right (1 + d)) by lra.
  apply (Rmult_le_reg_r (1 + d)); [lra | ]. rewrite Rmult_assoc, Rinv_l by lra. rewrite Rmult_1_r. eapply Rle_trans; [exact H | ].
  assert (0 <= e * (e - (-d))) by (apply Rmult_le_pos; lra). assert (0 <= e * (1 + 2 * e) * (d + e)) by (apply Rmult_le_pos; [apply Rmult_le_pos; lra | lra]).
  assert (e * e <= e * / 2) by (apply Rmult_le_compat_l; lra). nra.
Qed.
(** sums of terms of one sign *)
Lemma acc_add e x y x' y' : 0 <= y -> 0 <= y' -> acc e x y -> acc e x' y' -> acc e (x + x') (y + y').
Proof.
  intros P P' (d & H & ->) (d' & H' & ->). assert (0 <= e) by (pose proof (Rabs_pos d); lra).
  apply within_acc; auto. unfold within. replace (y * (1 + d) + y' * (1 + d') - (y + y')) with (y * d + y' * d') by ring.
  rewrite (Rabs_right (y + y')) by lra. eapply Rle_trans; [apply Rabs_triang | ]. rewrite !Rabs_mult, (Rabs_right y), (Rabs_right y') by lra.
  assert (y * Rabs d <= y * e) by (apply Rmult_le_compat_l; auto). assert (y' * Rabs d' <= y' * e) by (apply Rmult_le_compat_l; auto). lra.
Qed.
Lemma acc_sqrt e x y : e <= / 2 -> 0 <= y -> acc e x y -> acc (e / 2 + e ^ 2) (sqrt x) (sqrt y).
Proof.
  intros He Hy (d & H & ->). assert (Hd : - e <= d <= e) by (apply Rabs_le_inv; auto). assert (0 <= e) by lra.
  exists (sqrt (1 + d) - 1). split; [ | rewrite sqrt_mult by lra; ring].
  assert (S1 : sqrt (1 + d) <= 1 + d / 2).
  { rewrite <- (sqrt_square (1 + d / 2)) by lra. apply sqrt_le_1; [lra | apply Rle_0_sqr | ]. assert (0 <= d * d) by apply Rle_0_sqr. nra. }
  assert (S2 : 1 - e / 2 - e ^ 2 <= sqrt (1 + d)).
  { destruct (Rle_lt_dec (1 - e / 2 - e ^ 2) 0) as [Z | Z]; [pose proof (sqrt_pos (1 + d)); lra | ].
    rewrite <- (sqrt_square (1 - e / 2 - e ^ 2)) by lra. apply sqrt_le_1; [apply Rle_0_sqr | lra | ].
    assert (e ^ 2 <= e * / 2) by (replace (e ^ 2) with (e * e) by ring; apply Rmult_le_compat_l; lra). assert (0 <= e ^ 2) by apply pow2_ge_0. nra. }
  apply Rabs_le. assert (0 <= e ^ 2) by apply pow2_ge_0. lra.
Qed.

Lemma exact_libm_ok : libm_ok exact_libm.
Proof.
  assert (H : forall x, within (/ 2 ^ 52) (rnd x) x).
  { intros x. apply acc_within. destruct (rnd_err x) as (d & H & E). exists d. split; auto. pose proof u_pos. replace (/ 2 ^ 52) with (2 * u) by (unfold u; lra). lra. }
  repeat split; intros; apply H.
Qed.
