(** C06: ideal gas limit. *)
From Coq Require Import ZArith QArith Reals Lra Lia String List Bool Psatz.
From Coquelicot Require Import Coquelicot.
From Verif Require Import Num RNum RSum Tables M_Params F_Params M_Eos Spec F_Spec F_SpecPolar
  F_SpecAssoc F_Contrib F_Total Samples F_Limit.
Import ListNotations.
Local Open Scope R_scope.

Section C06.
  Variable p : params RNum.
  Hypothesis W : wfp p.
  Hypothesis Hph : phys p.
  Variables (t : R) (moles : list R).
  Hypothesis Ht : 0 < t.
  Hypothesis Hlen : List.length moles = List.length (p_m p).
  Hypothesis Hnn : forall i, (i < List.length (p_m p))%nat -> 0 <= nth i moles 0.
  Hypothesis Hne : exists i, (i < List.length (p_m p))%nat /\ 0 < nth i moles 0.
  Let X := mix_of p.
  Let n := List.length (p_m p).
  Let nn := fun i => nth i moles 0.
  Let rho (v : R) := fun i => nth i moles 0 / v.
  Let Z k := Zeta X t nn k.
  Let st v := @state_new RNum t v moles.

  Theorem C06_hard_sphere : vanishes (fun v => a_hs p (st v)).
  Proof. apply hs_limit; auto. Qed.
  Theorem C06_hard_chain : vanishes (fun v => a_hc p (st v)).
  Proof. apply hc_limit; auto. Qed.
  Theorem C06_dispersion : vanishes (fun v => a_disp p (st v)).
  Proof. apply disp_limit; auto. Qed.

  (** low-density expansion of the polar terms: a2 = (alpha_0 + alpha_1/V + ...) / V^2 and
      a3 = (beta_0 + beta_1/V + ...) / V^3.  The Pade approximant has a finite limit unless the
      leading orders cancel in its denominator. *)
  Definition regular (alpha beta : nat -> R) : Prop :=
    (forall l, alpha l = 0) \/
    ~ (alpha 0%nat = 0 /\ alpha 1%nat = beta 0%nat /\ alpha 2%nat = beta 1%nat).

  Definition pair_int (a b : list (list Q)) (l i j : nat) : R :=
    cm a l (m2 X i j) + cm b l (m2 X i j) * (Eij0 X i j / t).
  Definition dd_alpha := pair_coef p t moles (- PI)
    (fun i j => Wi X t 3 i * Wi X t 3 j / Sij X i j ^ 3 * Mu2 X i * Mu2 X j) (pair_int AD BD).
  Definition dd_beta := triple_coef p t moles (- (4 * PI ^ 2 / 3))
    (fun i j k => Wi X t 3 i * Wi X t 3 j * Wi X t 3 k / (Sij X i j * Sij X i k * Sij X j k) * Mu2 X i * Mu2 X j * Mu2 X k)
    (fun l i j k => cm CD l (m3 X i j k)).
  Definition qq_alpha := pair_coef p t moles (- PI * (3 / 4) ^ 2)
    (fun i j => Wi X t 5 i * Wi X t 5 j / Sg X (Nat.min i j) ^ 7 * Qu2 X i * Qu2 X j) (pair_int AQ BQ).
  Definition qq_beta := triple_coef p t moles (4 * PI ^ 2 / 3 * (3 / 4) ^ 3)
    (fun i j k => Wi X t 5 i * Wi X t 5 j * Wi X t 5 k / (Sij X i j * Sij X i k * Sij X j k) ^ 3 * Qu2 X i * Qu2 X j * Qu2 X k)
    (fun l i j k => cm CQ l (m3 X i j k)).
  Definition dq_alpha (var : dq_variant) := pair_coef p t moles (- (9 / 4) * PI)
    (fun i j => Wi X t (fst (dq_exps var)) i * Wi X t (snd (dq_exps var)) j / Sij X i j ^ 5 * Mu2 X i * Qu2 X j) (pair_int ADQ BDQ).
  Definition dq_beta := triple_coef p t moles (PI ^ 2)
    (fun i j k => Wi X t 4 i * Wi X t 4 j * Wi X t 4 k / (Sij X i j * Sij X i k * Sij X j k) ^ 2
       * (Mu2 X i * Qu2 X j * Mu2 X k + Rlit ALPHA * Mu2 X i * Qu2 X j * Qu2 X k))
    (fun l i j k => lit2 CDQ l 0 + q1 (m3 X i j k) * lit2 CDQ l 1).

  Ltac foldJ J := match goal with |- context [rsum (seq 0 ?k) ?f] => change (rsum (seq 0 k) f) with J end;
    unfold X, rho; cbv beta; match goal with |- _ = _ * ?y => generalize y end; intros ?y; unfold Rdiv; ring.
  Ltac sum2 := apply Sum_ext; intros i _; apply Sum_ext; intros j _.
  Ltac sum3 := sum2; apply Sum_ext; intros k _.

  Lemma dd2_v v : dd2 X t (rho v) = (/ v) ^ 2 * polyn dd_alpha 5 (/ v).
  Proof. unfold dd_alpha. rewrite <- (pair_v p t moles v (- PI)). unfold dd2. f_equal. sum2. foldJ (J2 X t (rho v) AD BD i j). Qed.
  Lemma dd3_v v : dd3 X t (rho v) = (/ v) ^ 3 * polyn dd_beta 4 (/ v).
  Proof.
    unfold dd_beta. rewrite <- (triple_v p t moles v (- (4 * PI ^ 2 / 3))). unfold dd3. f_equal. sum3. foldJ (J3 X t (rho v) CD i j k).
  Qed.
  Lemma qq2_v v : qq2_code X t (rho v) = (/ v) ^ 2 * polyn qq_alpha 5 (/ v).
  Proof.
    unfold qq_alpha. rewrite <- (pair_v p t moles v (- PI * (3 / 4) ^ 2)). unfold qq2_code. f_equal. sum2. foldJ (J2 X t (rho v) AQ BQ i j).
  Qed.
  Lemma qq3_v v : qq3 X t (rho v) = (/ v) ^ 3 * polyn qq_beta 4 (/ v).
  Proof.
    unfold qq_beta. rewrite <- (triple_v p t moles v (4 * PI ^ 2 / 3 * (3 / 4) ^ 3)). unfold qq3. f_equal. sum3. foldJ (J3 X t (rho v) CQ i j k).
  Qed.
  Lemma dq2_v var v : dq2 X t (rho v) (fst (dq_exps var)) (snd (dq_exps var)) = (/ v) ^ 2 * polyn (dq_alpha var) 4 (/ v).
  Proof.
    unfold dq_alpha. rewrite <- (pair_v p t moles v (- (9 / 4) * PI)). unfold dq2. f_equal. sum2. foldJ (J2 X t (rho v) ADQ BDQ i j).
  Qed.
  Lemma dq3_v v : dq3 X t (rho v) = (/ v) ^ 3 * polyn dq_beta 3 (/ v).
  Proof.
    unfold dq_beta. rewrite <- (triple_v p t moles v (PI ^ 2)). unfold dq3. f_equal. sum3. foldJ (J3dq X t (rho v) i j k).
  Qed.

  Theorem C06_dipole : regular dd_alpha dd_beta -> vanishes (fun v => a_dipole p (st v)).
  Proof.
    intros H. apply (pade_limit p Hph t moles Ht Hnn Hne _ dd_alpha dd_beta 2 2); auto.
    intros v Hv. unfold st. rewrite (dipole_textbook p W Hph t v moles) by (apply eventually_state; auto).
    unfold f_dd. f_equal. f_equal; [apply dd2_v | apply dd3_v].
  Qed.
  Theorem C06_quadrupole : regular qq_alpha qq_beta -> vanishes (fun v => a_quadrupole p (st v)).
  Proof.
    intros H. apply (pade_limit p Hph t moles Ht Hnn Hne _ qq_alpha qq_beta 2 2); auto.
    intros v Hv. unfold st. rewrite (quadrupole_code p W Hph t v moles) by (apply eventually_state; auto).
    f_equal. f_equal; [apply qq2_v | apply qq3_v].
  Qed.
  Theorem C06_dipole_quadrupole var : regular (dq_alpha var) dq_beta -> vanishes (fun v => a_dq p var (st v)).
  Proof.
    intros H. apply (pade_limit p Hph t moles Ht Hnn Hne _ (dq_alpha var) dq_beta 1 1); auto.
    intros v Hv. unfold st. rewrite (dq_textbook p W Hph t v moles) by (apply eventually_state; auto).
    unfold f_dq. f_equal. f_equal; [apply dq2_v | apply dq3_v].
  Qed.

  (* association of one component *)
  Section OneSite.
    Variable a : nat.
    Hypothesis Ha : p_assoc_comp p = [a].
    Let d_u (u : R) : R :=
      g_u p t moles a a u * (Sij X a a ^ 3 * Kapij X a a * (exp ((Eab X a + Eab X a) / 2 / t) - 1)) * (u * nn a).
    Lemma d_ex : ex_derive d_u 0.
    Proof.
      unfold d_u. apply (ex_derive_mult (fun u => g_u p t moles a a u * _) (fun u => u * nn a)).
      - apply (ex_derive_mult (g_u p t moles a a) (fun _ => _)); [apply g_ex | apply ex_derive_const].
      - auto_derive. auto.
    Qed.
    Lemma d_0 : d_u 0 = 0.
    Proof. unfold d_u. ring. Qed.
    Lemma d_v v : Delta X t (rho v) a a * rho v a = d_u (/ v).
    Proof.
      unfold Delta, d_u. change (Gij X t (rho v) a a) with (Gij (mix_of p) t (fun i => nth i moles 0 / v) a a).
      rewrite g_v. unfold rho, nn, Rdiv. ring.
    Qed.
    Lemma d_small : exists V1, Z 3 <= V1 /\ forall v, V1 < v -> d_u (/ v) <= / 67108864.
    Proof.
      destruct (continuous_bound d_u (ex_derive_continuous _ _ d_ex) (/ 67108864)) as (e & He & HB); [lra | ].
      exists (Rmax (Z 3) (/ e)). split; [apply Rmax_l | ]. intros v Hv.
      pose proof (Rmax_r (Z 3) (/ e)). destruct (inv_small e v He) as [_ Hi]; [lra | ].
      specialize (HB (/ v) ltac:(lra)). rewrite d_0, Rminus_0_r in HB.
      pose proof (Rle_abs (d_u (/ v))). lra.
    Qed.
    Let na := Na X a.
    Let nb := Nb X a.
    Let x_ab (d : R) : R := 1 + d * nb * (d * (nb + na) - 1).
    Let x_a (d : R) : R := 1 + d * na * (d * na * 2 - 1).
    Lemma fx_cont (x : R -> R) : ex_derive x 0 -> x 0 = 1 -> continuous (fun u => fx (x u)) 0.
    Proof.
      intros Hx H1. apply (ex_derive_continuous (fun u => fx (x u))).
      apply (ex_derive_comp fx x); auto. rewrite H1. unfold fx. auto_derive. lra.
    Qed.
    Lemma x_ab_ex : ex_derive (fun u => x_ab (d_u u)) 0.
    Proof. apply (ex_derive_comp x_ab d_u); [ | apply d_ex]. unfold x_ab. auto_derive. auto. Qed.
    Lemma x_a_ex : ex_derive (fun u => x_a (d_u u)) 0.
    Proof. apply (ex_derive_comp x_a d_u); [ | apply d_ex]. unfold x_a. auto_derive. auto. Qed.
    Lemma x_b_ex : ex_derive (fun u => (x_ab (d_u u) - 1) * (na / nb) + 1) 0.
    Proof.
      apply (ex_derive_plus (fun u => (x_ab (d_u u) - 1) * (na / nb)) (fun _ => 1)); [ | apply ex_derive_const].
      apply (ex_derive_mult (fun u => x_ab (d_u u) - 1) (fun _ => na / nb)); [ | apply ex_derive_const].
      apply (ex_derive_minus (fun u => x_ab (d_u u)) (fun _ => 1)); [apply x_ab_ex | apply ex_derive_const].
    Qed.

    Theorem C06_association : vanishes (fun v => a_assoc p (st v)).
    Proof.
      destruct d_small as (V1 & HV1 & Hs).
      assert (Hred : forall v, V1 < v -> a_assoc p (st v) =
        if Rltb 0 nb then nn a * (fx (x_ab (d_u (/ v))) * na + fx ((x_ab (d_u (/ v)) - 1) * (na / nb) + 1) * nb)
        else nn a * fx (x_a (d_u (/ v))) * na).
      { intros v Hv. assert (PS : phys_state p t v moles) by (apply eventually_state; auto; unfold Z, X, nn in *; lra).
        unfold a_assoc. rewrite Ha. change (ixn [a] 0) with a. cbv zeta.
        change (s_t (st v)) with t. unfold st.
        rewrite (assoc_deltarho p W Hph t v moles PS a Ha).
        change (Delta (mix_of p) t (fun i : nat => nth i moles 0 / v) a a * (nth a moles 0 / v)) with (Delta X t (rho v) a a * rho v a).
        rewrite d_v. specialize (Hs v Hv).
        change (@ix RNum (p_na p) a) with na. change (@ix RNum (p_nb p) a) with nb.
        change (@ix RNum (s_moles (@state_new RNum t v moles)) a) with (nn a).
        change (@nltb RNum n0 nb) with (Rltb (@n0 RNum) nb). replace (@n0 RNum) with 0 by (rn; lra).
        destruct (Rltb 0 nb).
        - rewrite !f_assoc_R. unfold assoc_site_frac_ab. rewrite sqrt_eps_R.
          change (@nltb RNum) with Rltb. rewrite (proj2 (Rltb_false _ _)) by lra.
          set (d := d_u (/ v)). unfold x_ab. rn. f_equal.
        - rewrite !f_assoc_R. unfold assoc_site_frac_a. rewrite sqrt_eps_R.
          change (@nltb RNum) with Rltb. rewrite (proj2 (Rltb_false _ _)) by lra.
          set (d := d_u (/ v)). unfold x_a. rn. f_equal. }
      assert (X0 : x_ab (d_u 0) = 1) by (rewrite d_0; unfold x_ab; ring).
      assert (A0 : x_a (d_u 0) = 1) by (rewrite d_0; unfold x_a; ring).
      destruct (Rltb 0 nb).
      - apply (vanish_cont (fun u => nn a * (fx (x_ab (d_u u)) * na + fx ((x_ab (d_u u) - 1) * (na / nb) + 1) * nb)) _ V1); auto.
        + apply (continuous_mult (fun _ => nn a) (fun u => _ + _)); [apply continuous_const | ].
          apply (continuous_plus (fun u => fx (x_ab (d_u u)) * na) (fun u => fx ((x_ab (d_u u) - 1) * (na / nb) + 1) * nb)).
          * apply (continuous_mult (fun u => fx (x_ab (d_u u))) (fun _ => na)); [ | apply continuous_const].
            apply (fx_cont (fun u => x_ab (d_u u))); auto. apply x_ab_ex.
          * apply (continuous_mult (fun u => fx ((x_ab (d_u u) - 1) * (na / nb) + 1)) (fun _ => nb)); [ | apply continuous_const].
            apply (fx_cont (fun u => (x_ab (d_u u) - 1) * (na / nb) + 1)); [apply x_b_ex | ]. rewrite X0. ring.
        + rewrite X0. replace ((1 - 1) * (na / nb) + 1) with 1 by ring. rewrite fx_1. ring.
      - apply (vanish_cont (fun u => nn a * fx (x_a (d_u u)) * na) _ V1); auto.
        + apply (continuous_mult (fun u => nn a * fx (x_a (d_u u))) (fun _ => na)); [ | apply continuous_const].
          apply (continuous_mult (fun _ => nn a) (fun u => fx (x_a (d_u u)))); [apply continuous_const | ].
          apply (fx_cont (fun u => x_a (d_u u))); auto. apply x_a_ex.
        + rewrite A0, fx_1. ring.
    Qed.
  End OneSite.

  (** several associating components: exactly zero at low density, whatever the solver *)
  Theorem C06_cross_association lu it tol :
    exists V0, forall v, V0 < v -> a_cross_assoc lu it tol p (st v) = Some 0.
  Proof.
    set (m := rsum moles (fun x => x)).
    exists (Rmax 0 (m * 4503599627370496)). intros v Hv.
    pose proof (Rmax_l 0 (m * 4503599627370496)). pose proof (Rmax_r 0 (m * 4503599627370496)).
    unfold a_cross_assoc, cross_association.
    replace (@nltb RNum (nsum (s_rho (st v))) f_eps) with true.
    - cbn. f_equal. rn. ring.
    - symmetry. change (@nltb RNum) with Rltb. apply Rltb_true. rewrite f_eps_R, nsum_R.
      unfold st, state_new. cbn [s_rho]. rewrite rsum_map.
      rewrite (rsum_ext _ _ (fun x => / v * x)) by (intros; rn; unfold Rdiv; ring).
      rewrite rsum_scal. fold m.
      apply Rmult_lt_reg_l with v; [lra | ]. rewrite <- Rmult_assoc, Rinv_r by lra. lra.
  Qed.

  (** the residual Helmholtz energy of the whole equation of state *)
  Theorem C06_residual lu o :
    regular dd_alpha dd_beta -> regular qq_alpha qq_beta -> regular (dq_alpha (o_dq o)) dq_beta ->
    forall eps, 0 < eps -> exists V0, forall v, V0 < v ->
      exists r, residual lu (with_options p o) (st v) = Some r /\ Rabs r < eps.
  Proof.
    intros R1 R2 R3.
    assert (A : exists f V1, vanishes f /\ forall v, V1 < v -> assoc_term lu o p (st v) = Some (f v)).
    { unfold assoc_term. destruct (p_nassoc p) as [ | [ | k]] eqn:E.
      - exists (fun _ => 0), 0. split; [apply vanishes_0 | auto].
      - assert (exists a, p_assoc_comp p = [a]) as (a & Ha).
        { rewrite (w_na _ W) in E. destruct (p_assoc_comp p) as [ | a [ | b l]]; try discriminate. exists a; auto. }
        exists (fun v => a_assoc p (st v)), 0. split; auto. apply (C06_association a Ha).
      - destruct (C06_cross_association lu (o_max_iter o) (o_tol o)) as (V0 & H).
        exists (fun _ => 0), V0. split; [apply vanishes_0 | auto]. }
    destruct A as (f & V1 & Hf & HA). intros eps He.
    assert (V : vanishes (fun v => a_hs p (st v) + a_hc p (st v) + a_disp p (st v) + a_dipole p (st v)
       + a_quadrupole p (st v) + a_dq p (o_dq o) (st v) + f v)).
    { apply (vanishes_plus (fun v => _ + _) f); auto.
      apply (vanishes_plus (fun v => _ + _) (fun v => a_dq p (o_dq o) (st v))); [ | apply C06_dipole_quadrupole; auto].
      apply (vanishes_plus (fun v => _ + _) (fun v => a_quadrupole p (st v))); [ | apply C06_quadrupole; auto].
      apply (vanishes_plus (fun v => _ + _) (fun v => a_dipole p (st v))); [ | apply C06_dipole; auto].
      apply (vanishes_plus (fun v => _ + _) (fun v => a_disp p (st v))); [ | apply C06_dispersion; auto].
      apply (vanishes_plus (fun v => a_hs p (st v)) (fun v => a_hc p (st v))); [apply C06_hard_sphere | apply C06_hard_chain]. }
    destruct (V eps He) as (V0 & HV). exists (Rmax V0 V1). intros v Hv.
    pose proof (Rmax_l V0 V1). pose proof (Rmax_r V0 V1).
    eexists. split; [rewrite residual_total, HA by lra; reflexivity | ]. apply HV. lra.
  Qed.
End C06.

(* ------------------------------------------------------- temperatures above epsilon / k *)

Lemma affine_pos a b e : 0 <= e <= 1 -> 0 < a -> 0 < a + b -> 0 < a + b * e.
Proof.
  intros H A B. replace (a + b * e) with ((1 - e) * a + e * (a + b)) by ring.
  assert (0 <= (1 - e) * a) by (apply Rmult_le_pos; lra). assert (0 <= e * (a + b)) by (apply Rmult_le_pos; lra).
  destruct (Rle_lt_dec e (/ 2)).
  - assert (0 < (1 - e) * a) by (apply Rmult_lt_0_compat; lra). lra.
  - assert (0 < e * (a + b)) by (apply Rmult_lt_0_compat; lra). lra.
Qed.
Lemma pair_dd_pos m e : 1 <= m <= 2 -> 0 <= e <= 1 -> 0 < cm AD 0 m + cm BD 0 m * e.
Proof.
  intros [H1 H2] He. set (y := / m).
  assert (Hy : / 2 <= y <= 1).
  { unfold y. split; [apply Rinv_le_contravar; lra | rewrite <- Rinv_1; apply Rinv_le_contravar; lra]. }
  unfold cm, q1, q12. replace ((m - 1) / m) with (1 - y) by (unfold y; field; lra).
  replace ((m - 2) / m) with (1 - 2 * y) by (unfold y; field; lra).
  unfold lit2, AD, BD. cbn [nth Rlit Qnum Qden]. lits. clearbody y.
  pose proof (pow2_ge_0 (y - 3 / 4)). apply affine_pos; auto; nra.
Qed.
Lemma pair_qq_pos m e : 1 <= m <= 2 -> 0 <= e <= 1 -> 0 < cm AQ 0 m + cm BQ 0 m * e.
Proof.
  intros [H1 H2] He. set (y := / m).
  assert (Hy : / 2 <= y <= 1).
  { unfold y. split; [apply Rinv_le_contravar; lra | rewrite <- Rinv_1; apply Rinv_le_contravar; lra]. }
  unfold cm, q1, q12. replace ((m - 1) / m) with (1 - y) by (unfold y; field; lra).
  replace ((m - 2) / m) with (1 - 2 * y) by (unfold y; field; lra).
  unfold lit2, AQ, BQ. cbn [nth Rlit Qnum Qden]. lits. clearbody y.
  pose proof (pow2_ge_0 (y - 3 / 4)). apply affine_pos; auto; nra.
Qed.
Lemma pair_dq_pos m e : 1 <= m <= 2 -> 0 <= e <= 1 -> 0 < cm ADQ 0 m + cm BDQ 0 m * e.
Proof.
  intros [H1 H2] He. set (y := / m).
  assert (Hy : / 2 <= y <= 1).
  { unfold y. split; [apply Rinv_le_contravar; lra | rewrite <- Rinv_1; apply Rinv_le_contravar; lra]. }
  unfold cm, q1, q12. replace ((m - 1) / m) with (1 - y) by (unfold y; field; lra).
  replace ((m - 2) / m) with (1 - 2 * y) by (unfold y; field; lra).
  unfold lit2, ADQ, BDQ. cbn [nth Rlit Qnum Qden]. lits. clearbody y.
  pose proof (pow2_ge_0 (y - 3 / 4)). apply affine_pos; auto; nra.
Qed.

(** no such molecules, or a second order term that does not vanish at low density *)
Definition strong (alpha : nat -> R) : Prop := (forall l, alpha l = 0) \/ alpha 0%nat <> 0.
Lemma regular_strong alpha beta : strong alpha -> regular alpha beta.
Proof. intros [H | H]; [left; auto | right; tauto]. Qed.

(** a sum of non-negative pair weights times positive integrals vanishes only if all weights do *)
Lemma pair_strong p t moles C w c :
  C <> 0 ->
  (forall i j, (i < N (mix_of p))%nat -> (j < N (mix_of p))%nat ->
     0 <= nth i moles 0 * nth j moles 0 * w i j /\ (nth i moles 0 * nth j moles 0 * w i j <> 0 -> 0 < c 0%nat i j)) ->
  strong (pair_coef p t moles C w c).
Proof.
  intros HC H.
  set (X := mix_of p) in *.
  set (S0 := Sum i < N X, Sum j < N X, nth i moles 0 * nth j moles 0 * w i j * c 0%nat i j).
  assert (T0 : forall i j, (i < N X)%nat -> (j < N X)%nat -> 0 <= nth i moles 0 * nth j moles 0 * w i j * c 0%nat i j).
  { intros i j Hi Hj. destruct (H i j Hi Hj) as [A B].
    destruct (Req_dec (nth i moles 0 * nth j moles 0 * w i j) 0) as [E | E]; [rewrite E; lra | ].
    specialize (B E). apply Rmult_le_pos; lra. }
  assert (R0 : forall i, (i < N X)%nat -> 0 <= Sum j < N X, nth i moles 0 * nth j moles 0 * w i j * c 0%nat i j).
  { intros i Hi. apply rsum_nonneg. intros j Hj. apply seq_in in Hj. auto. }
  destruct (Req_dec S0 0) as [E | E].
  - left. intros l. unfold pair_coef. fold X.
    replace (Sum i < N X, Sum j < N X, nth i moles 0 * nth j moles 0 * w i j * c l i j) with 0; [ring | ].
    symmetry. apply rsum_zero. intros i Hi. apply rsum_zero. intros j Hj.
    assert (Hi' := Hi). assert (Hj' := Hj). apply seq_in in Hi', Hj'.
    assert (Z1 : (Sum j < N X, nth i moles 0 * nth j moles 0 * w i j * c 0%nat i j) = 0).
    { apply (rsum_eq0 (seq 0 (N X)) (fun i => Sum j < N X, nth i moles 0 * nth j moles 0 * w i j * c 0%nat i j)); auto.
      intros k Hk. apply seq_in in Hk. auto. }
    assert (Z2 : nth i moles 0 * nth j moles 0 * w i j * c 0%nat i j = 0).
    { apply (rsum_eq0 (seq 0 (N X)) (fun j => nth i moles 0 * nth j moles 0 * w i j * c 0%nat i j)); auto.
      intros k Hk. apply seq_in in Hk. auto. }
    destruct (H i j Hi' Hj') as [A B].
    destruct (Req_dec (nth i moles 0 * nth j moles 0 * w i j) 0) as [E2 | E2]; [rewrite E2; ring | ].
    specialize (B E2). apply Rmult_integral in Z2. destruct Z2; [contradiction | lra].
  - right. unfold pair_coef. fold X. cbn [pow]. rewrite Rmult_1_r.
    apply Rmult_integral_contrapositive_currified; auto.
Qed.

Section Warm.
  Variables (prs : list (pure_record RNum)) (bin : list (list R)) (p : params RNum).
  Hypothesis Hp : from_records prs bin = Some p.
  Hypothesis Hph : phys p.
  Variables (t : R) (moles : list R).
  Hypothesis Ht : 0 < t.
  Hypothesis Hlen : List.length moles = List.length (p_m p).
  Hypothesis Hnn : forall i, (i < List.length (p_m p))%nat -> 0 <= nth i moles 0.
  Hypothesis Hne : exists i, (i < List.length (p_m p))%nat /\ 0 < nth i moles 0.
  Let W := wfp_from_records _ _ _ Hp.
  Let X := mix_of p.
  Let n := List.length (p_m p).
  (** every polar component has at least one segment, and the temperature is not below its
      dispersion energy *)
  Hypothesis warm : forall i, (i < List.length (p_m p))%nat ->
    @ix RNum (p_mu2 p) i <> 0 \/ @ix RNum (p_q2 p) i <> 0 ->
    1 <= @ix RNum (p_m p) i /\ @ix RNum (p_epsilon_k p) i <= t.

  Lemma moment_nn (mu den : R) : 0 < den -> 0 <= mu * mu / den * (@e_m19 RNum) * (@kb_conv RNum).
  Proof.
    intros H. unfold e_m19, kb_conv. rn. lits.
    apply Rmult_le_pos; [ | lra]. apply Rmult_le_pos; [ | lra].
    unfold Rdiv. apply Rmult_le_pos; [apply Rle_0_sqr | left; apply Rinv_0_lt_compat; auto].
  Qed.
  Lemma mu2_nn i : (i < n)%nat -> 0 <= Mu2 X i.
  Proof.
    intros Hi. change (Mu2 X i) with (@ix RNum (p_mu2 p) i).
    destruct (Hph i Hi) as (A & B & C). revert Hi A B C. unfold n.
    rewrite (from_records_raw_of _ _ _ Hp), fr_len_m. intros Hi A B C. rewrite fr_mu2 by auto.
    unfold mu2_of. apply moment_nn. rn. repeat apply Rmult_lt_0_compat; auto.
  Qed.
  Lemma qu2_nn i : (i < n)%nat -> 0 <= Qu2 X i.
  Proof.
    intros Hi. change (Qu2 X i) with (@ix RNum (p_q2 p) i).
    destruct (Hph i Hi) as (A & B & C). revert Hi A B C. unfold n.
    rewrite (from_records_raw_of _ _ _ Hp), fr_len_m. intros Hi A B C. rewrite fr_q2 by auto.
    unfold q2_of. apply moment_nn. rn. apply Rmult_lt_0_compat; auto. apply Rmult_lt_0_compat; auto. apply pow_lt; auto.
  Qed.
  Lemma Wi_nn k i : (i < n)%nat -> 0 <= Wi X t k i.
  Proof.
    intros Hi. destruct (Hph i Hi) as (A & B & C). unfold Wi.
    apply Rmult_le_pos; [ | apply pow_le; left; exact B].
    left. apply Rdiv_lt_0_compat; auto.
  Qed.
  Lemma Sg_pos i : (i < n)%nat -> 0 < Sg X i.
  Proof. intros Hi. destruct (Hph i Hi) as (_ & B & _). exact B. Qed.
  Lemma Sij_p i j : (i < n)%nat -> (j < n)%nat -> 0 < Sij X i j.
  Proof. intros Hi Hj. unfold Sij. pose proof (Sg_pos i Hi). pose proof (Sg_pos j Hj). lra. Qed.

  Definition polar i := Mu2 X i <> 0 \/ Qu2 X i <> 0.
  Lemma pair_range i j : (i < n)%nat -> (j < n)%nat -> polar i -> polar j ->
    1 <= m2 X i j <= 2 /\ 0 <= Eij0 X i j / t <= 1.
  Proof.
    intros Hi Hj Pi Pj. destruct (warm i Hi Pi) as [Mi Ei]. destruct (warm j Hj Pj) as [Mj Ej].
    destruct (Hph i Hi) as (_ & _ & Ci). destruct (Hph j Hj) as (_ & _ & Cj).
    assert (Hm : forall k, 1 <= @ix RNum (p_m p) k -> 1 <= mp X k <= 2).
    { intros k Hk. unfold mp. change (M X k) with (@ix RNum (p_m p) k). split; [apply Rmin_glb; lra | apply Rmin_r]. }
    pose proof (Hm i Mi). pose proof (Hm j Mj). unfold m2. split.
    - split.
      + rewrite <- sqrt_1. apply sqrt_le_1_alt. nra.
      + rewrite <- (sqrt_pow2 2) by lra. apply sqrt_le_1_alt. nra.
    - unfold Eij0. change (Ep X i) with (@ix RNum (p_epsilon_k p) i). change (Ep X j) with (@ix RNum (p_epsilon_k p) j).
      split; [apply Rmult_le_pos; [apply sqrt_pos | left; apply Rinv_0_lt_compat; auto] | ].
      apply Rmult_le_reg_r with t; auto. unfold Rdiv. rewrite Rmult_assoc, Rinv_l, Rmult_1_l, Rmult_1_r by lra.
      rewrite <- (sqrt_pow2 t) at 1 by lra. apply sqrt_le_1_alt. nra.
  Qed.

  Lemma strong_dd : strong (dd_alpha p t moles).
  Proof.
    apply pair_strong; [pose proof PI_RGT_0; lra | ].
    intros i j Hi Hj. change (N (mix_of p)) with n in *. split.
    - pose proof (Hnn i Hi). pose proof (Hnn j Hj). pose proof (mu2_nn i Hi). pose proof (mu2_nn j Hj).
      pose proof (Wi_nn 3 i Hi). pose proof (Wi_nn 3 j Hj).
      assert (0 <= / Sij (mix_of p) i j ^ 3) by (left; apply Rinv_0_lt_compat, pow_lt, Sij_p; auto).
      unfold Rdiv. change (mix_of p) with X in H5 |- *. revert H3 H4 H5. generalize (Wi X t 3 i) (Wi X t 3 j) (/ Sij X i j ^ 3). intros.
      repeat apply Rmult_le_pos; auto.
    - intros H. unfold pair_int. fold X.
      destruct (Req_dec (Mu2 X i) 0) as [E | Ei]; [exfalso; apply H; fold X; rewrite E; ring | ].
      destruct (Req_dec (Mu2 X j) 0) as [E | Ej]; [exfalso; apply H; fold X; rewrite E; ring | ].
      destruct (pair_range i j Hi Hj (or_introl Ei) (or_introl Ej)). apply pair_dd_pos; auto.
  Qed.
  Lemma strong_qq : strong (qq_alpha p t moles).
  Proof.
    apply pair_strong; [pose proof PI_RGT_0; lra | ].
    intros i j Hi Hj. change (N (mix_of p)) with n in *. split.
    - pose proof (Hnn i Hi). pose proof (Hnn j Hj). pose proof (qu2_nn i Hi). pose proof (qu2_nn j Hj).
      pose proof (Wi_nn 5 i Hi). pose proof (Wi_nn 5 j Hj).
      assert (0 <= / Sg (mix_of p) (Nat.min i j) ^ 7) by (left; apply Rinv_0_lt_compat, pow_lt, Sg_pos; unfold n in *; lia).
      unfold Rdiv. change (mix_of p) with X in H5 |- *. revert H3 H4 H5. generalize (Wi X t 5 i) (Wi X t 5 j) (/ Sg X (Nat.min i j) ^ 7). intros.
      repeat apply Rmult_le_pos; auto.
    - intros H. unfold pair_int. fold X.
      destruct (Req_dec (Qu2 X i) 0) as [E | Ei]; [exfalso; apply H; fold X; rewrite E; ring | ].
      destruct (Req_dec (Qu2 X j) 0) as [E | Ej]; [exfalso; apply H; fold X; rewrite E; ring | ].
      destruct (pair_range i j Hi Hj (or_intror Ei) (or_intror Ej)). apply pair_qq_pos; auto.
  Qed.
  Lemma strong_dq var : strong (dq_alpha p t moles var).
  Proof.
    apply pair_strong; [pose proof PI_RGT_0; lra | ].
    intros i j Hi Hj. change (N (mix_of p)) with n in *. split.
    - pose proof (Hnn i Hi). pose proof (Hnn j Hj). pose proof (mu2_nn i Hi). pose proof (qu2_nn j Hj).
      pose proof (Wi_nn (fst (dq_exps var)) i Hi). pose proof (Wi_nn (snd (dq_exps var)) j Hj).
      assert (0 <= / Sij (mix_of p) i j ^ 5) by (left; apply Rinv_0_lt_compat, pow_lt, Sij_p; auto).
      unfold Rdiv. change (mix_of p) with X in H5 |- *. revert H3 H4 H5. generalize (Wi X t (fst (dq_exps var)) i) (Wi X t (snd (dq_exps var)) j) (/ Sij X i j ^ 5). intros.
      repeat apply Rmult_le_pos; auto.
    - intros H. unfold pair_int. fold X.
      destruct (Req_dec (Mu2 X i) 0) as [E | Ei]; [exfalso; apply H; fold X; rewrite E; ring | ].
      destruct (Req_dec (Qu2 X j) 0) as [E | Ej]; [exfalso; apply H; fold X; rewrite E; ring | ].
      destruct (pair_range i j Hi Hj (or_introl Ei) (or_intror Ej)). apply pair_dq_pos; auto.
  Qed.

  Theorem C06_residual_warm lu o : forall eps, 0 < eps -> exists V0, forall v, V0 < v ->
      exists r, residual lu (with_options p o) (@state_new RNum t v moles) = Some r /\ Rabs r < eps.
  Proof. apply C06_residual; auto using regular_strong, strong_dd, strong_qq, strong_dq. Qed.
End Warm.

(** dimethyl ether + carbon dioxide + water at 350 K *)
Example C06_case : forall eps, 0 < eps -> exists V0, forall v, V0 < v ->
  exists r, residual (fun _ _ => None) (with_options sample default_options) (@state_new RNum 350 v [1; 2; 3]) = Some r
            /\ Rabs r < eps.
Proof.
  apply (C06_residual_warm _ _ _ sample_ok sample_phys).
  - lra.
  - reflexivity.
  - intros i Hi. cbn in Hi. destruct i as [ | [ | [ | i]]]; cbn; try lra; lia.
  - exists 0%nat. cbn. split; [lia | lra].
  - intros i Hi Hpol. cbn in Hi. destruct i as [ | [ | [ | i]]]; try lia.
    + split; cbn; lra.
    + split; cbn; lra.
    + exfalso. destruct Hpol as [H | H]; apply H.
      * change (@mu2_of RNum 0 1.065587 3.000683 366.5121 = 0). unfold mu2_of. rn. unfold Rdiv. ring.
      * change (@q2_of RNum 0 1.065587 3.000683 366.5121 = 0). unfold q2_of. rn. unfold Rdiv. ring.
Qed.

Print Assumptions C06_residual_warm.
Print Assumptions C06_residual.
