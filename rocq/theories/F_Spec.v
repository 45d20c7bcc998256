(** The model of the Rust code computes the textbook expressions of Spec.v (over the reals). *)
From Coq Require Import ZArith QArith Reals Lra Lia List Bool.
From Verif Require Import Num RNum RSum Tables M_Params F_Params M_Eos Spec.
Import ListNotations.
Local Open Scope R_scope.

(** the mixture described by a parameter set *)
Definition mix_of (p : params RNum) : mixture :=
  {| N := length (p_m p);
     M := @ix RNum (p_m p); Sg := @ix RNum (p_sigma p); Ep := @ix RNum (p_epsilon_k p);
     Mu2 := @ix RNum (p_mu2 p); Qu2 := @ix RNum (p_q2 p);
     Kab := @ix RNum (p_kappa_ab p); Eab := @ix RNum (p_epsilon_k_ab p);
     Na := @ix RNum (p_na p); Nb := @ix RNum (p_nb p); Kij := @ix2 RNum (p_k_ij p) |}.

(** consistency of a parameter set, as established by [from_records] (lemma [wfp_from_records]) *)
Record wfp (p : params RNum) : Prop := {
  w_ns : length (p_sigma p) = length (p_m p);
  w_npr : length (p_pure_records p) = length (p_m p);
  w_sij : forall i j, (i < length (p_m p))%nat -> (j < length (p_m p))%nat ->
    @ix2 RNum (p_sigma_ij p) i j = Sij (mix_of p) i j;
  w_eij0 : forall i j, (i < length (p_m p))%nat -> (j < length (p_m p))%nat ->
    @ix2 RNum (p_e_k_ij p) i j = Eij0 (mix_of p) i j;
  w_eij : forall i j, (i < length (p_m p))%nat -> (j < length (p_m p))%nat ->
    @ix2 RNum (p_epsilon_k_ij p) i j = Eij (mix_of p) i j;
  w_kap : forall i j, (i < length (p_m p))%nat -> (j < length (p_m p))%nat ->
    @ix2 RNum (p_kappa_aibj p) i j
    = sqrt (@ix RNum (p_kappa_ab p) i * @ix RNum (p_kappa_ab p) j)
      * Rpowf (2 * sqrt (@ix RNum (p_sigma p) i * @ix RNum (p_sigma p) j)
               / (@ix RNum (p_sigma p) i + @ix RNum (p_sigma p) j)) 3;
  w_eab : forall i j, (i < length (p_m p))%nat -> (j < length (p_m p))%nat ->
    @ix RNum (p_kappa_ab p) i <> 0 -> @ix RNum (p_kappa_ab p) j <> 0 ->
    @ix2 RNum (p_epsilon_k_aibj p) i j
    = (@ix RNum (p_epsilon_k_ab p) i + @ix RNum (p_epsilon_k_ab p) j) / 2;
  w_dip : p_dipole_comp p = filter (fun i => nonzero (@ix RNum (p_mu2 p) i)) (seq 0 (length (p_m p)));
  w_quad : p_quadpole_comp p = filter (fun i => nonzero (@ix RNum (p_q2 p) i)) (seq 0 (length (p_m p)));
  w_ass : p_assoc_comp p = filter (fun i => nonzero (@ix RNum (p_kappa_ab p) i)) (seq 0 (length (p_m p)));
  w_nd : p_ndipole p = length (p_dipole_comp p);
  w_nq : p_nquadpole p = length (p_quadpole_comp p);
  w_na : p_nassoc p = length (p_assoc_comp p) }.

Ltac mx := cbn [mix_of N M Sg Ep Mu2 Qu2 Kab Eab Na Nb Kij].

Lemma nonzero_R (x : R) : @nonzero RNum x = true <-> x <> 0.
Proof.
  unfold nonzero; rn. rewrite Rltb_true. split.
  - intros H E; subst. rewrite Rabs_R0 in H. lra.
  - apply Rabs_pos_lt.
Qed.
Lemma nonzero_R_false (x : R) : @nonzero RNum x = false <-> x = 0.
Proof.
  destruct (@nonzero RNum x) eqn:E; [apply nonzero_R in E | ]; split; intros H; auto; try discriminate; try lra.
  destruct (Req_EM_T x 0) as [ | Hn]; auto. apply nonzero_R in Hn. congruence.
Qed.

Theorem wfp_from_records prs bin p : from_records prs bin = Some p -> wfp p.
Proof.
  intros H. apply from_records_raw_of in H. subst p.
  set (p := from_records_raw prs bin).
  assert (L : length (p_m p) = length prs) by apply fr_len_m.
  assert (Lk : length (p_kappa_ab p) = length prs) by apply fr_len_kab.
  assert (Hass : forall i, (i < length prs)%nat ->
      existsb (Nat.eqb i) (p_assoc_comp p) = nonzero (@ix RNum (p_kappa_ab p) i)).
  { intros i Hi. apply Bool.eq_iff_eq_true. rewrite existsb_eqb.
    change (p_assoc_comp p) with (@nonzero_comp RNum (p_kappa_ab p)).
    rewrite nonzero_comp_in, Lk. tauto. }
  constructor; auto; rewrite ?L.
  - apply fr_len_sigma.
  - intros i j Hi Hj. unfold p; rewrite fr_sigma_ij by auto. unfold Sij; rn. mx. lra.
  - intros i j Hi Hj. unfold p; rewrite fr_e_k_ij by auto. reflexivity.
  - intros i j Hi Hj. unfold p; rewrite fr_epsilon_k_ij by auto. reflexivity.
  - intros i j Hi Hj. unfold p at 1; rewrite fr_kappa_aibj by auto. fold p.
    rewrite !Hass by auto.
    destruct (nonzero (@ix RNum (p_kappa_ab p) i)) eqn:E1;
    destruct (nonzero (@ix RNum (p_kappa_ab p) j)) eqn:E2; simpl andb; cbv iota; [reflexivity | ..].
    all: try (apply nonzero_R_false in E1; rewrite E1).
    all: try (apply nonzero_R_false in E2; rewrite E2).
    all: rewrite ?Rmult_0_l, ?Rmult_0_r, sqrt_0, Rmult_0_l; reflexivity.
  - intros i j Hi Hj Ki Kj. unfold p at 1; rewrite fr_epsilon_k_aibj by auto. fold p.
    rewrite !Hass by auto. apply nonzero_R in Ki, Kj. rewrite Ki, Kj. simpl andb. cbv iota.
    rn. lra.
  - change (p_dipole_comp p) with (@nonzero_comp RNum (p_mu2 p)). unfold nonzero_comp.
    unfold p at 2. rewrite fr_len_mu2; auto.
  - change (p_quadpole_comp p) with (@nonzero_comp RNum (p_q2 p)). unfold nonzero_comp.
    unfold p at 2. rewrite fr_len_q2; auto.
  - change (p_assoc_comp p) with (@nonzero_comp RNum (p_kappa_ab p)). unfold nonzero_comp.
    rewrite Lk; auto.
Qed.

(** physically meaningful component parameters *)
Definition phys (p : params RNum) : Prop :=
  forall i, (i < length (p_m p))%nat ->
    0 < @ix RNum (p_m p) i /\ 0 < @ix RNum (p_sigma p) i /\ 0 < @ix RNum (p_epsilon_k p) i.

Section Bridge.
  Variable p : params RNum.
  Hypothesis W : wfp p.
  Let X := mix_of p.
  Let n := length (p_m p).

  Lemma hs_diameter_spec t i : (i < n)%nat -> @ix RNum (hs_diameter p t) i = Di X t i.
  Proof.
    intros. unfold hs_diameter. rewrite ix_mk1 by (rewrite (w_ns _ W); auto).
    unfold Di, X; mx. rn.
    replace (/ t * IZR (-3) * ix (p_epsilon_k p) i) with (- 3 * ix (p_epsilon_k p) i / t)
      by (unfold Rdiv; ring).
    change (IZR (-3)) with (- 3). field.
  Qed.

  Lemma seg_radius_spec t i : (i < n)%nat -> @ix RNum (seg_radius p t) i = Di X t i / 2.
  Proof.
    intros Hi. unfold seg_radius. rewrite (ix_map (K := RNum) _ _ _ 0).
    2:{ unfold hs_diameter. rewrite mk1_length, (w_ns _ W). auto. }
    change (nth i (hs_diameter p t) 0) with (@ix RNum (hs_diameter p t) i).
    rewrite hs_diameter_spec by auto. rn. lra.
  Qed.

  Variables (t v : R) (moles : list R).
  Hypothesis Lm : length moles = n.
  Hypothesis Hv : v <> 0.
  Let s := @state_new RNum t v moles.
  Let rho i := nth i moles 0 / v.

  Lemma s_rho_ix i : (i < n)%nat -> @ix RNum (s_rho s) i = rho i.
  Proof.
    intros. unfold s, state_new; simpl s_rho.
    rewrite (ix_map (K := RNum) _ _ _ 0) by (rewrite Lm; auto). reflexivity.
  Qed.

  Lemma s_x_ix i : (i < n)%nat -> @ix RNum (s_x s) i = nth i moles 0 / rsum moles (fun x => x).
  Proof.
    intros. unfold s, state_new; simpl s_x.
    rewrite (ix_map (K := RNum) _ _ _ 0) by (rewrite Lm; auto). rewrite nsum_R. reflexivity.
  Qed.

  Lemma moles_sum : rsum moles (fun x => x) = v * Rho X rho.
  Proof.
    unfold Rho. rewrite (rsum_nth moles 0), Lm. change (N X) with n.
    rewrite <- rsum_scal. apply Sum_ext; intros. unfold rho; field; auto.
  Qed.

  Lemma zeta_spec k : zeta (p_m p) (s_rho s) (hs_diameter p t) k = Zeta X t rho k.
  Proof.
    unfold zeta, Zeta. rewrite nsumi_R, <- rsum_scal. apply Sum_ext; intros i Hi.
    rewrite s_rho_ix, hs_diameter_spec by auto. rn. unfold X; mx. unfold Rdiv. ring.
  Qed.

  Lemma packing_spec : packing p t (s_rho s) = Eta X t rho.
  Proof.
    unfold packing, Eta, Zeta. rewrite nsumi_R. unfold frac_pi_3.
    rewrite (Sum_ext _ _ (fun i => / 8 * (rho i * M X i * Di X t i ^ 3))).
    2:{ intros i Hi. rewrite s_rho_ix, seg_radius_spec by auto. rn.
        unfold X; mx. field. }
    rewrite rsum_scal. change (length (p_m p)) with (N X). set (S := rsum _ _). rn. field.
  Qed.

  Lemma assoc_n2_spec : assoc_n2 p t (s_rho s) = 6 * Zeta X t rho 2.
  Proof.
    unfold assoc_n2, Zeta. rewrite nsumi_R.
    rewrite (Sum_ext _ _ (fun i => / 4 * (rho i * M X i * Di X t i ^ 2))).
    2:{ intros i Hi. rewrite s_rho_ix, seg_radius_spec by auto. rn.
        unfold X; mx. field. }
    rewrite rsum_scal. change (length (p_m p)) with (N X). set (S := rsum _ _). rn. field.
  Qed.

  Lemma mean_segments_spec : mean_segments p (s_x s) = Mbar X rho.
  Proof.
    unfold mean_segments, Mbar. rewrite nsumi_R.
    rewrite (Sum_ext _ _ (fun i => (rho i * M X i) * / Rho X rho)).
    2:{ intros i Hi. rewrite s_x_ix, moles_sum by auto. unfold rho at 2, X; mx. rn.
        unfold Rdiv. rewrite Rinv_mult. ring. }
    rewrite rsum_scal_r. reflexivity.
  Qed.

  Lemma zeta_23_spec : Rho X rho <> 0 ->
    zeta_23 (p_m p) (s_x s) (hs_diameter p t) = Zeta X t rho 2 / Zeta X t rho 3.
  Proof.
    intros HR. unfold zeta_23, Zeta. rewrite !nsumi_R.
    rewrite (Sum_ext _ _ (fun i => / Rho X rho * (rho i * M X i * Di X t i ^ 2))).
    2:{ intros i Hi. rewrite s_x_ix, moles_sum, hs_diameter_spec by auto.
        change (rho i) with (nth i moles 0 / v). change (M X i) with (@ix RNum (p_m p) i).
        rn. field; auto. }
    rewrite (Sum_ext _ (fun i => _ * (ix (hs_diameter p t) i ^ 3)%num * _)%num
               (fun i => / Rho X rho * (rho i * M X i * Di X t i ^ 3))).
    2:{ intros i Hi. rewrite s_x_ix, moles_sum, hs_diameter_spec by auto.
        change (rho i) with (nth i moles 0 / v). change (M X i) with (@ix RNum (p_m p) i).
        rn. field; auto. }
    rewrite !rsum_scal. change (length (p_m p)) with (N X).
    set (a := rsum _ _). set (b := rsum (seq 0 (N X)) (fun i => rho i * M X i * Di X t i ^ 3)). rn.
    assert (PI <> 0) by apply PI_neq0.
    destruct (Req_EM_T b 0) as [-> | Hb].
    - unfold Rdiv. rewrite !Rmult_0_r, Rinv_0. ring.
    - field; auto.
  Qed.

  Theorem a_hs_spec : Rho X rho <> 0 -> Zeta X t rho 3 <> 0 -> Zeta X t rho 3 <> 1 ->
    a_hs p s = v * f_hs X t rho.
  Proof.
    intros HR HZ H1. unfold a_hs. change (s_t s) with t. rewrite !zeta_spec, zeta_23_spec by auto.
    unfold f_hs. change (s_v s) with v. rn.
    set (z0 := Zeta X t rho 0). set (z1 := Zeta X t rho 1). set (z2 := Zeta X t rho 2).
    set (z3 := Zeta X t rho 3) in *.
    replace (1 + z3 * -1) with (1 - z3) by ring.
    assert (PI <> 0) by apply PI_neq0. field. repeat split; auto; lra.
  Qed.

  Lemma g_hs_spec i : (i < n)%nat -> Zeta X t rho 3 <> 1 -> Di X t i <> 0 ->
    g_hs (K := RNum) (Di X t i) (Zeta X t rho 2) (Zeta X t rho 3) = Gij X t rho i i.
  Proof.
    intros Hi H1 Hd. unfold g_hs, Gij. rn. set (z2 := Zeta X t rho 2). set (z3 := Zeta X t rho 3) in *.
    field. repeat split; lra.
  Qed.

  Theorem a_hc_spec : Zeta X t rho 3 <> 1 -> (forall i, (i < n)%nat -> Di X t i <> 0) ->
    a_hc p s = v * f_hc X t rho.
  Proof.
    intros H1 Hd. unfold a_hc, f_hc. change (s_t s) with t. change (s_v s) with v.
    rewrite nsumi_R, <- rsum_opp. rn. rewrite Rmult_comm. f_equal. apply Sum_ext. intros i Hi.
    rewrite s_rho_ix, hs_diameter_spec, !zeta_spec by auto.
    rewrite g_hs_spec by auto. unfold X at 2; mx. ring.
  Qed.

  Lemma run_pow_R (eta : R) i : @run_pow RNum eta i = eta ^ i.
  Proof. induction i; simpl; [reflexivity | ]. rewrite IHi. rn. ring. Qed.

  Lemma disp_series_spec c0 c1 c2 (m eta : R) : @disp_series RNum c0 c1 c2 m eta =
    Sum i < 7, (lit c0 i + (m - 1) / m * lit c1 i + (m - 1) / m * ((m - 2) / m) * lit c2 i) * eta ^ i.
  Proof.
    unfold disp_series. rewrite nsumi_R. apply Sum_ext. intros i Hi.
    rewrite run_pow_R. unfold cst, lit.
    change (@nlit RNum) with Rlit. set (a := Rlit (nth i c2 0%Q)). set (b := Rlit (nth i c1 0%Q)).
    set (c := Rlit (nth i c0 0%Q)). clearbody a b c. rn. ring.
  Qed.

  Lemma disp_c1_spec (m eta : R) : @disp_c1 RNum m eta =
    1 / (1 + m * (8 * eta - 2 * eta ^ 2) / (1 - eta) ^ 4
         + (1 - m) * (20 * eta - 27 * eta ^ 2 + 12 * eta ^ 3 - 2 * eta ^ 4)
           / ((1 - eta) * (2 - eta)) ^ 2).
  Proof.
    unfold disp_c1. rn. unfold Rdiv at 3. rewrite Rmult_1_l. f_equal.
    replace ((eta - 1) ^ 4) with ((1 - eta) ^ 4) by ring.
    replace (((eta - 1) * (eta - 2)) ^ 2) with (((1 - eta) * (2 - eta)) ^ 2) by ring.
    unfold Rdiv. ring.
  Qed.

  Theorem a_disp_spec : a_disp p s = v * f_disp X t rho.
  Proof.
    unfold a_disp. change (s_t s) with t. change (s_v s) with v.
    rewrite packing_spec, mean_segments_spec, !disp_series_spec, disp_c1_spec.
    unfold f_disp. fold (C1 X t rho).
    fold (power_series X t rho A0 A1 A2). fold (power_series X t rho B0 B1 B2).
    assert (E1 : rho1mix p t (s_rho s) = mixsum X t rho 1).
    { unfold rho1mix, mixsum. rewrite nsum_R, rsum_flat_map. apply Sum_ext; intros i Hi.
      unfold mk1. rewrite rsum_map. apply Sum_ext; intros j Hj.
      rewrite !s_rho_ix, (w_eij _ W), (w_sij _ W) by auto. rn. unfold Rdiv.
      unfold X; mx. ring. }
    assert (E2 : rho2mix p t (s_rho s) = mixsum X t rho 2).
    { unfold rho2mix, mixsum. rewrite nsum_R, rsum_flat_map. apply Sum_ext; intros i Hi.
      unfold mk1. rewrite rsum_map. apply Sum_ext; intros j Hj.
      rewrite !s_rho_ix, (w_eij _ W), (w_sij _ W) by auto. rn. unfold Rdiv.
      unfold X; mx. ring. }
    rewrite E1, E2. rn. ring.
  Qed.
End Bridge.
