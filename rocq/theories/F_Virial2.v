(** Low-density expansion of the residual Helmholtz energy and the value at zero density. *)
From Coq Require Import ZArith QArith Reals Lra Lia List Bool.
From Coquelicot Require Import Coquelicot.
From Verif Require Import Num RNum RSum Tables M_Params F_Params M_Eos M_Virial Spec F_Spec F_SpecPolar F_SpecAssoc
  F_Contrib F_Cross F_Total F_Limit P_Limit F_Transfer XNum F_Transfer2 DNum F_Level P_Dual F_Virial F_Taylor.
Import ListNotations.
Local Open Scope R_scope.
Set Bullet Behavior "Strict Subproofs".

Ltac nnR := let N := fresh "N" in match goal with |- ?a = ?b => destruct (Req_dec a b) as [? | N]; [assumption | exfalso] end.

Lemma vanishes_scal c f : vanishes f -> vanishes (fun v => c * f v).
Proof.
  intros H e He. assert (Hc : 0 < Rabs c + 1) by (pose proof (Rabs_pos c); lra).
  destruct (H (e / (Rabs c + 1))) as (V0 & HV); [apply Rdiv_lt_0_compat; auto | ].
  exists V0. intros v Hv. specialize (HV v Hv). rewrite Rabs_mult.
  apply Rle_lt_trans with (Rabs c * (e / (Rabs c + 1))); [apply Rmult_le_compat_l; [apply Rabs_pos | lra] | ].
  replace (Rabs c * (e / (Rabs c + 1))) with (e * (Rabs c / (Rabs c + 1))) by (field; lra).
  rewrite <- (Rmult_1_r e) at 2. apply Rmult_lt_compat_l; auto. apply Rmult_lt_reg_r with (Rabs c + 1); auto.
  unfold Rdiv. rewrite Rmult_assoc, Rinv_l by lra. lra.
Qed.
Lemma vanishes_minus f g : vanishes f -> vanishes g -> vanishes (fun v => f v - g v).
Proof.
  intros Hf Hg. apply (vanishes_eventually _ (fun v => f v + (-1) * g v) 0); [intros; ring | ].
  apply (vanishes_plus f (fun v => (-1) * g v)); auto. apply vanishes_scal; auto.
Qed.
Lemma vanishes_inv : vanishes (fun v => / v).
Proof. intros e He. exists (/ e). intros v Hv. destruct (inv_small e v He Hv). rewrite Rabs_right; lra. Qed.

(** f(v) tends to c as v tends to infinity *)
Definition tends (f : R -> R) (c : R) : Prop := vanishes (fun v => f v - c).
Lemma tends_limit f c : tends f c <-> is_lim f p_infty c.
Proof.
  unfold tends. rewrite vanishes_limit. split; intros H.
  - replace (Finite c) with (Rbar_plus 0 c) by (cbn; f_equal; ring).
    apply (is_lim_ext (fun v => (f v - c) + c)); [intros; ring | ].
    apply (is_lim_plus (fun v => f v - c) (fun _ => c) _ 0 c); auto; [apply is_lim_const | reflexivity].
  - replace (Finite 0) with (Rbar_minus c c) by (cbn; f_equal; ring).
    apply (is_lim_minus f (fun _ => c) _ c c); auto; [apply is_lim_const | reflexivity].
Qed.
Lemma tends_unique f a b : tends f a -> tends f b -> a = b.
Proof.
  intros A B. nnR. pose proof (vanishes_minus _ _ A B) as C.
  destruct (C (Rabs (b - a))) as (V0 & HV); [apply Rabs_pos_lt; lra | ]. specialize (HV (V0 + 1) ltac:(lra)).
  replace (f (V0 + 1) - a - (f (V0 + 1) - b)) with (b - a) in HV by ring. lra.
Qed.
Lemma tends_eventually f g c V1 : (forall v, V1 < v -> f v = g v) -> tends g c -> tends f c.
Proof. intros E. apply (vanishes_eventually _ _ V1). intros v Hv. rewrite E; auto. Qed.
Lemma tends_plus f g a b : tends f a -> tends g b -> tends (fun v => f v + g v) (a + b).
Proof.
  intros A B. apply (vanishes_eventually _ (fun v => (f v - a) + (g v - b)) 0); [intros; ring | ].
  apply (vanishes_plus (fun v => f v - a) (fun v => g v - b)); auto.
Qed.
Lemma tends_scal k f a : tends f a -> tends (fun v => k * f v) (k * a).
Proof. intros A. apply (vanishes_eventually _ (fun v => k * (f v - a)) 0); [intros; ring | ]. apply (vanishes_scal k (fun v => f v - a)); auto. Qed.
Lemma tends_cont (F f : R -> R) V1 : continuous F 0 -> (forall v, V1 < v -> f v = F (/ v)) -> tends f (F 0).
Proof.
  intros C E. apply (vanish_cont (fun u => F u - F 0) _ V1).
  - apply (continuous_minus F (fun _ => F 0)); auto. apply continuous_const.
  - ring.
  - intros v Hv. rewrite E; auto.
Qed.

Lemma flat_v k F : flat k F -> vanishes (fun v => v ^ k * F (/ v)).
Proof.
  intros H e He. destruct (H (e / 2) ltac:(lra)) as [d Hd]. exists (/ d). intros v Hv.
  destruct (inv_small d v (cond_pos d) Hv) as [P Q].
  assert (B : Rabs (F (/ v)) <= e / 2 * Rabs (/ v) ^ k).
  { apply Hd. change (Rabs (/ v - 0) < d). rewrite Rminus_0_r, Rabs_right; lra. }
  rewrite Rabs_mult. rewrite <- RPow_abs. rewrite (Rabs_right v) by lra. rewrite (Rabs_right (/ v)) in B by lra.
  assert (Pk : 0 < v ^ k) by (apply pow_lt; auto).
  apply Rle_lt_trans with (v ^ k * (e / 2 * (/ v) ^ k)); [apply Rmult_le_compat_l; lra | ].
  replace (v ^ k * (e / 2 * (/ v) ^ k)) with (e / 2 * (v * / v) ^ k) by (rewrite Rpow_mult_distr; ring).
  rewrite Rinv_r, pow1 by lra. lra.
Qed.
Lemma flat_le k F : flat (S k) F -> flat k F.
Proof.
  intros H e He. specialize (H e He).
  assert (L : locally 0 (fun y => Rabs y < 1)).
  { exists (mkposreal 1 Rlt_0_1). intros y Hy. change (Rabs (y - 0) < 1) in Hy. rewrite Rminus_0_r in Hy. exact Hy. }
  eapply filter_imp; [ | exact (filter_and _ _ H L)]. intros y [A B]. cbv beta in *.
  apply Rle_trans with (1 := A). apply Rmult_le_compat_l; [lra | ]. rewrite <- tech_pow_Rmult.
  assert (0 <= Rabs y ^ k) by (apply pow_le, Rabs_pos). pose proof (Rabs_pos y). nra.
Qed.

Lemma linear_vanishes c0 c1 : vanishes (fun v => c0 * v + c1) -> c0 = 0 /\ c1 = 0.
Proof.
  intros H. assert (E0 : c0 = 0).
  { nnR. assert (P : 0 < Rabs c0) by (apply Rabs_pos_lt; auto).
    destruct (H (Rabs c0 / 2) ltac:(lra)) as (V0 & HV).
    pose proof (HV (V0 + 1) ltac:(lra)) as A. pose proof (HV (V0 + 2) ltac:(lra)) as B.
    pose proof (Rabs_triang (c0 * (V0 + 2) + c1) (- (c0 * (V0 + 1) + c1))) as T. rewrite Rabs_Ropp in T.
    replace (c0 * (V0 + 2) + c1 + - (c0 * (V0 + 1) + c1)) with c0 in T by ring. lra. }
  split; auto. subst. nnR. assert (P : 0 < Rabs c1) by (apply Rabs_pos_lt; auto).
  destruct (H (Rabs c1) P) as (V0 & HV). specialize (HV (V0 + 1) ltac:(lra)). replace (0 * (V0 + 1) + c1) with c1 in HV by ring. lra.
Qed.

(** expansion of v f(1/v) *)
Lemma expand2 f c0 c1 c2 : flat 2 (fun y => f y - (c0 + c1 * y + c2 * y ^ 2)) -> vanishes (fun v => v * f (/ v)) ->
  (c0 = 0 /\ c1 = 0) /\ tends (fun v => v * (v * f (/ v))) c2.
Proof.
  intros H V. assert (Z : c0 = 0 /\ c1 = 0).
  { apply linear_vanishes. pose proof (flat_v 1 _ (flat_le 1 _ H)) as F. cbv beta in F.
    apply (vanishes_eventually _ (fun v => v * f (/ v) - v ^ 1 * (f (/ v) - (c0 + c1 * / v + c2 * (/ v) ^ 2)) - c2 * / v) 0).
    - intros v Hv. field. lra.
    - apply (vanishes_minus (fun v => v * f (/ v) - v ^ 1 * (f (/ v) - (c0 + c1 * / v + c2 * (/ v) ^ 2))) (fun v => c2 * / v)).
      + apply (vanishes_minus (fun v => v * f (/ v))); auto.
      + apply (vanishes_scal c2 (fun v => / v)). apply vanishes_inv. }
  split; auto. destruct Z as [-> ->]. pose proof (flat_v 2 _ H) as F. cbv beta in F.
  apply (vanishes_eventually _ _ 0) with (2 := F). intros v Hv. field. lra.
Qed.
Lemma expand3 f c0 c1 c2 c3 : flat 3 (fun y => f y - (c0 + c1 * y + c2 * y ^ 2 + c3 * y ^ 3)) -> vanishes (fun v => v * f (/ v)) ->
  tends (fun v => v * (v * f (/ v))) c2 /\ tends (fun v => v * (v * (v * f (/ v)) - c2)) c3.
Proof.
  intros H V. destruct (expand2 f c0 c1 c2) as ((-> & ->) & E); auto.
  - intros e He. assert (H2 := flat_le 2 _ H (e / 2) ltac:(lra)). cbv beta in H2.
    assert (Hc : 0 < Rabs c3 + 1) by (pose proof (Rabs_pos c3); lra).
    assert (L : locally 0 (fun y => Rabs y < e / 2 / (Rabs c3 + 1))).
    { assert (P : 0 < e / 2 / (Rabs c3 + 1)) by (apply Rdiv_lt_0_compat; lra).
      exists (mkposreal _ P). intros y Hy. change (Rabs (y - 0) < e / 2 / (Rabs c3 + 1)) in Hy. rewrite Rminus_0_r in Hy. exact Hy. }
    eapply filter_imp; [ | exact (filter_and _ _ H2 L)]. intros y [A B]. cbv beta in *.
    replace (f y - (c0 + c1 * y + c2 * y ^ 2)) with ((f y - (c0 + c1 * y + c2 * y ^ 2 + c3 * y ^ 3)) + c3 * y * y ^ 2) by ring.
    eapply Rle_trans; [apply Rabs_triang | ]. rewrite !Rabs_mult, <- RPow_abs.
    assert (P2 : 0 <= Rabs y ^ 2) by (apply pow_le, Rabs_pos).
    assert (Q : Rabs c3 * Rabs y <= e / 2).
    { pose proof (Rabs_pos c3). pose proof (Rabs_pos y).
      apply Rle_trans with ((Rabs c3 + 1) * (e / 2 / (Rabs c3 + 1))).
      - apply Rmult_le_compat; lra.
      - right. field. lra. }
    nra.
  - split; auto. pose proof (flat_v 3 _ H) as F. cbv beta in F.
    apply (vanishes_eventually _ _ 0) with (2 := F). intros v Hv. field. lra.
Qed.

(* ------------------------------------------------------------------- Pade approximant *)

(** the Pade approximant minus its second order term *)
Lemma pade_diff a2 a3 : pade2 a2 a3 - a2 = if Req_EM_T a2 a3 then - a2 else a2 * a3 / (a2 - a3).
Proof.
  unfold pade2. destruct (Req_EM_T a2 a3) as [E | E].
  - rewrite E. unfold Rdiv. rewrite Rminus_eq_0, Rinv_0. ring.
  - field. lra.
Qed.
Lemma continuous_loc_nz (F : R -> R) : continuous F 0 -> F 0 <> 0 -> exists V1, 0 < V1 /\ forall v, V1 < v -> F (/ v) <> 0.
Proof.
  intros C N. destruct (continuous_bound F C (Rabs (F 0)) ltac:(apply Rabs_pos_lt; auto)) as (d & Hd & HB).
  exists (/ d). split; [apply Rinv_0_lt_compat; auto | ]. intros v Hv. destruct (inv_small d v Hd Hv) as [_ Q].
  specialize (HB (/ v) ltac:(lra)). intros E. rewrite E in HB. rewrite Rminus_0_l, Rabs_Ropp in HB. lra.
Qed.
Section PadeDiff.
  Variables (alpha beta : nat -> R) (L' K' : nat).
  Let A := polyn alpha (S (S L')).
  Let B := polyn beta (S K').
  Let diff v := v * pade2 ((/ v) ^ 2 * A (/ v)) ((/ v) ^ 3 * B (/ v)) - v * ((/ v) ^ 2 * A (/ v)).
  Definition regular2 : Prop := (forall l, alpha l = 0) \/ ~ (alpha 0%nat = 0 /\ alpha 1%nat = beta 0%nat).

  Lemma diff_none : (forall l, alpha l = 0) -> forall v, diff v = 0.
  Proof.
    intros H v. assert (E : A (/ v) = 0) by (unfold A, polyn; apply rsum_zero; intros; rewrite H; ring).
    unfold diff. rewrite E. unfold pade2. unfold Rdiv. ring.
  Qed.
  Let EA u : A u = alpha 0%nat + u * polyn (fun l => alpha (S l)) (S L') u := polyn_S _ _ _.
  Let CA : continuous A 0 := polyn_cont _ _ _.
  Let CB : continuous B 0 := polyn_cont _ _ _.
  Let ZA : A 0 = alpha 0%nat. Proof. apply polyn_0; lia. Qed.
  Let ZB : B 0 = beta 0%nat. Proof. apply polyn_0; lia. Qed.
  Let Cid : continuous (fun u : R => u) 0 := continuous_id 0.

  Lemma diff_strong : alpha 0%nat <> 0 -> tends (fun v => v * (v * diff v)) (beta 0%nat).
  Proof.
    intros N. set (D := fun u => A u - u * B u).
    assert (CD : continuous D 0).
    { apply (continuous_minus A (fun u => u * B u)); auto. apply (continuous_mult (fun u => u) B); auto. }
    assert (ZD : D 0 = alpha 0%nat) by (unfold D; rewrite ZA; ring).
    destruct (continuous_loc_nz D CD) as (V1 & P1 & HV); [rewrite ZD; auto | ].
    replace (beta 0%nat) with ((fun u => A u * B u / D u) 0) by (cbv beta; rewrite ZD, ZA, ZB; field; auto).
    apply (tends_cont (fun u => A u * B u / D u) _ V1).
    - apply (continuous_Rdiv (fun u => A u * B u) D); auto; [apply (continuous_mult A B); auto | rewrite ZD; auto].
    - intros v Hv. specialize (HV v Hv). unfold D in HV |- *. unfold diff. rewrite <- Rmult_minus_distr_l, pade_diff.
      generalize dependent (A (/ v)). generalize (B (/ v)). intros b a Hd. assert (v <> 0) by lra.
      destruct (Req_EM_T ((/ v) ^ 2 * a) ((/ v) ^ 3 * b)) as [E | E].
      + exfalso. apply Hd. apply Rmult_eq_reg_l with ((/ v) ^ 2); [ | apply pow_nonzero, Rinv_neq_0_compat; auto]. lra.
      + replace ((/ v) ^ 2 * a - (/ v) ^ 3 * b) with ((/ v) ^ 2 * (a - / v * b)) by ring. field. split; auto.
        intros C. apply Hd. replace (a - / v * b) with ((a * v - b) / v) by (field; auto). rewrite C. unfold Rdiv. ring.
  Qed.
  Lemma diff_regular : regular2 -> vanishes (fun v => v * diff v).
  Proof.
    intros [H | H].
    - apply (vanishes_eventually _ (fun _ => 0) 0); [ | apply vanishes_0]. intros v _. rewrite diff_none by auto. ring.
    - destruct (Req_dec (alpha 0%nat) 0) as [H0 | H0].
      + assert (H1 : alpha 1%nat <> beta 0%nat) by tauto. clear H.
        set (A1 := polyn (fun l => alpha (S l)) (S L')). set (D := fun u => A1 u - B u).
        assert (CA1 : continuous A1 0) by apply polyn_cont. assert (ZA1 : A1 0 = alpha 1%nat) by (apply polyn_0; lia).
        assert (CD : continuous D 0) by (apply (continuous_minus A1 B); auto).
        assert (ZD : D 0 = alpha 1%nat - beta 0%nat) by (unfold D; rewrite ZA1, ZB; ring).
        destruct (continuous_loc_nz D CD) as (V1 & P1 & HV); [rewrite ZD; lra | ].
        apply (vanish_cont (fun u => u * A1 u * B u / D u) _ V1).
        * apply (continuous_Rdiv (fun u => u * A1 u * B u) D); auto; [ | rewrite ZD; lra].
          apply (continuous_mult (fun u => u * A1 u) B); auto. apply (continuous_mult (fun u => u) A1); auto.
        * unfold Rdiv. ring.
        * intros v Hv. specialize (HV v Hv). unfold D in HV |- *. unfold diff. rewrite <- Rmult_minus_distr_l, pade_diff.
          rewrite EA, H0. fold A1. rewrite Rplus_0_l.
          generalize dependent (A1 (/ v)). generalize (B (/ v)). intros b a Hd. assert (v <> 0) by lra.
          destruct (Req_EM_T ((/ v) ^ 2 * (/ v * a)) ((/ v) ^ 3 * b)) as [E | E].
          -- exfalso. apply Hd. apply Rmult_eq_reg_l with ((/ v) ^ 3); [ | apply pow_nonzero, Rinv_neq_0_compat; auto]. lra.
          -- replace ((/ v) ^ 2 * (/ v * a) - (/ v) ^ 3 * b) with ((/ v) ^ 3 * (a - b)) by ring. field. split; auto.
      + pose proof (diff_strong H0) as T.
        apply (vanishes_eventually _ (fun v => / v * (v * (v * diff v) - beta 0%nat) + beta 0%nat * / v) 0).
        * intros v Hv. field. lra.
        * apply (vanishes_plus (fun v => / v * (v * (v * diff v) - beta 0%nat)) (fun v => beta 0%nat * / v)).
          -- intros e He. destruct (T e He) as (V0 & HV). exists (Rmax V0 1). intros v Hv.
             pose proof (Rmax_l V0 1). pose proof (Rmax_r V0 1). specialize (HV v ltac:(lra)). rewrite Rabs_mult.
             assert (0 < / v < 1) by (split; [apply Rinv_0_lt_compat; lra | rewrite <- Rinv_1; apply Rinv_lt_contravar; lra]).
             rewrite (Rabs_right (/ v)) by lra. pose proof (Rabs_pos (v * (v * diff v) - beta 0%nat)). nra.
          -- apply (vanishes_scal (beta 0%nat) (fun v => / v)). apply vanishes_inv.
  Qed.
  (** next order: b is the leading third order coefficient unless there is no second order term *)
  Definition lead (b : R) : Prop := ((forall l, alpha l = 0) /\ b = 0) \/ (alpha 0%nat <> 0 /\ b = beta 0%nat).
  Lemma diff_lead b : lead b -> tends (fun v => v * (v * diff v)) b.
  Proof.
    intros [[H ->] | [H ->]]; [ | apply diff_strong; auto].
    apply (vanishes_eventually _ (fun _ => 0) 0); [ | apply vanishes_0]. intros v _. rewrite diff_none by auto. ring.
  Qed.
  Lemma second_vanishes : vanishes (fun v => v * ((/ v) ^ 2 * A (/ v))).
  Proof.
    apply (vanish_cont (fun u => u * A u) _ 0).
    - apply (continuous_mult (fun u => u) A); auto.
    - ring.
    - intros v Hv. generalize (A (/ v)). intros a. field. lra.
  Qed.
  Lemma lead_regular b : lead b -> regular2.
  Proof. intros [[H _] | [H _]]; [left; auto | right; tauto]. Qed.
End PadeDiff.
