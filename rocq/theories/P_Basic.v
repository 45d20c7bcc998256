(** C01 (segment diameter), C20 (maximum density), C21 (signs), C35 (dispersion compressibility),
    C39 (contributions equal the published expressions). *)
From Coq Require Import ZArith QArith Reals Lra Lia String List Bool Psatz FunctionalExtensionality.
From Verif Require Import Num RNum RSum Tables M_Params F_Params M_Eos M_Dft Spec F_Spec F_SpecPolar
  F_SpecAssoc F_Contrib F_Total Samples P_Params F_Lump F_Lump2 P_Select P_Lump.
From Coq Require Import Permutation.
Import ListNotations.
Local Open Scope R_scope.

(* ----------------------------------------------------------------------------- C01 *)

Section C01.
  Variables (prs : list (pure_record RNum)) (bin : list (list R)) (p : params RNum).
  Hypothesis Hp : from_records prs bin = Some p.

  Lemma hs_diameter_value t i pr : nth_error prs i = Some pr ->
    nth i (hs_diameter p t) 0
    = r_sigma (pr_model pr) * (1 - 0.12 * exp (- 3 * r_epsilon_k (pr_model pr) / t)).
  Proof.
    intros H. destruct (C16_pure_values _ _ _ Hp i pr H) as (_ & Es & Ee & _).
    change (@ix RNum (p_sigma p) i = r_sigma (pr_model pr)) in Es.
    change (@ix RNum (p_epsilon_k p) i = r_epsilon_k (pr_model pr)) in Ee.
    assert (Hi : (i < List.length (p_m p))%nat).
    { rewrite (from_records_raw_of _ _ _ Hp), fr_len_m. apply nth_error_Some. congruence. }
    change (nth i (hs_diameter p t) 0) with (@ix RNum (hs_diameter p t) i).
    rewrite (hs_diameter_spec p (wfp_from_records _ _ _ Hp) t i Hi). unfold Di; mx. rewrite Es, Ee. toR. lra.
  Qed.

  Theorem C01_one_diameter_per_component t : List.length (hs_diameter p t) = List.length prs.
  Proof. unfold hs_diameter. rewrite mk1_length, (from_records_raw_of _ _ _ Hp). apply fr_len_sigma. Qed.

  Theorem C01_bounds t i pr : 0 < t -> nth_error prs i = Some pr ->
    let r := pr_model pr in 0 < r_sigma r -> 0 < r_epsilon_k r ->
    0.88 * r_sigma r < nth i (hs_diameter p t) 0 < r_sigma r.
  Proof.
    intros Ht H r Hs He. rewrite (hs_diameter_value t i pr H). fold r.
    assert (0 < r_epsilon_k r / t) by (apply Rdiv_lt_0_compat; auto).
    assert (E1 : exp (- 3 * r_epsilon_k r / t) < 1).
    { rewrite <- exp_0. apply exp_increasing. unfold Rdiv in *. lra. }
    pose proof (exp_pos (- 3 * r_epsilon_k r / t)) as E0.
    set (e := exp _) in *. clearbody e. change (0 < (r_sigma r : R)) in Hs. nra.
  Qed.

  Theorem C01_decreasing t1 t2 i pr : 0 < t1 < t2 -> nth_error prs i = Some pr ->
    let r := pr_model pr in 0 < r_sigma r -> 0 < r_epsilon_k r ->
    nth i (hs_diameter p t2) 0 < nth i (hs_diameter p t1) 0.
  Proof.
    intros Ht H r Hs He. rewrite !(hs_diameter_value _ i pr H). fold r.
    assert (E : exp (- 3 * r_epsilon_k r / t1) < exp (- 3 * r_epsilon_k r / t2)).
    { apply exp_increasing.
      assert (r_epsilon_k r / t2 < r_epsilon_k r / t1).
      { unfold Rdiv. apply Rmult_lt_compat_l; auto. apply Rinv_lt_contravar; [nra | lra]. }
      unfold Rdiv in *. lra. }
    set (e1 := exp (_ / t1)) in *. set (e2 := exp (_ / t2)) in *. clearbody e1 e2.
    change (0 < (r_sigma r : R)) in Hs. nra.
  Qed.
End C01.

Example C01_case : 0.88 * 3.618353 < nth 1 (hs_diameter (from_records_raw [pr_butane; pr_propane] (zeros 2)) 300) 0 < 3.618353.
Proof.
  apply (C01_bounds [pr_butane; pr_propane] (zeros 2) _ eq_refl 300 1 pr_propane); cbn; try lra; reflexivity.
Qed.

(* ----------------------------------------------------------------------------- C20 *)

(** packing fraction computed with the (temperature independent) parameters sigma *)
Definition sigma_packing (p : params RNum) (v : R) (moles : list R) : R :=
  PI / 6 * Sum i < List.length (p_m p), nth i moles 0 / v * nth i (p_m p) 0 * nth i (p_sigma p) 0 ^ 3.

Lemma pow3_lt a b : 0 < a -> a < b -> a ^ 3 < b ^ 3.
Proof.
  intros Ha Hb. assert (0 < b * b + b * a + a * a) by nra.
  assert (b ^ 3 - a ^ 3 = (b - a) * (b * b + b * a + a * a)) by ring. nra.
Qed.

Section C20.
  Variables (prs : list (pure_record RNum)) (bin : list (list R)) (p : params RNum) (o : options RNum).
  Hypothesis Hp : from_records prs bin = Some p.
  Hypothesis Hph : phys p.
  Variable moles : list R.
  Hypothesis Lm : List.length moles = List.length (p_m p).
  Hypothesis Hn : forall i, (i < List.length (p_m p))%nat -> 0 <= nth i moles 0.
  Hypothesis He : exists i, (i < List.length (p_m p))%nat /\ 0 < nth i moles 0.
  Hypothesis Ho : 0 < o_max_eta o.

  Let V := Sum i < List.length (p_m p), nth i moles 0 * nth i (p_m p) 0 * nth i (p_sigma p) 0 ^ 3.
  Let total := rsum moles (fun x => x).

  Lemma V_pos : 0 < V.
  Proof.
    destruct He as (i & Hi & P). unfold V. apply (rsum_pos _ _ i).
    - intros j Hj. apply seq_in in Hj. destruct (Hph j Hj) as (Hm & Hs & _).
      apply Rmult_le_pos; [apply Rmult_le_pos; [auto | left; exact Hm] | left; apply pow_lt; exact Hs].
    - apply seq_in; auto.
    - destruct (Hph i Hi) as (Hm & Hs & _).
      apply Rmult_lt_0_compat; [apply Rmult_lt_0_compat; [auto | exact Hm] | apply pow_lt; exact Hs].
  Qed.
  Lemma total_pos : 0 < total.
  Proof.
    destruct He as (i & Hi & P). unfold total. rewrite (rsum_nth moles 0), Lm.
    apply (rsum_pos _ _ i); auto; [intros j Hj; apply seq_in in Hj; auto | apply seq_in; auto].
  Qed.
  Lemma max_density_value : compute_max_density (with_options p o) moles = o_max_eta o * total / (PI / 6 * V).
  Proof.
    unfold compute_max_density, with_options. cbn [e_params e_options]. rewrite nsum_R, nsumi_R. fold total.
    rewrite (Sum_ext _ _ (fun i => PI / 6 * (nth i moles 0 * nth i (p_m p) 0 * nth i (p_sigma p) 0 ^ 3))).
    - rewrite rsum_scal. fold V. reflexivity.
    - intros i Hi. unfold frac_pi_6, ix. rn. ring.
  Qed.

  Theorem C20_positive : 0 < compute_max_density (with_options p o) moles.
  Proof.
    rewrite max_density_value. pose proof PI_RGT_0. pose proof V_pos. pose proof total_pos.
    apply Rdiv_lt_0_compat; apply Rmult_lt_0_compat; auto; lra.
  Qed.

  Theorem C20_intensive k : 0 < k ->
    compute_max_density (with_options p o) (map (fun n => k * n) moles) = compute_max_density (with_options p o) moles.
  Proof.
    intros Hk. unfold compute_max_density, with_options. cbn [e_params e_options].
    fold (scaled k moles). rewrite !nsum_R, !nsumi_R, rsum_scaled.
    rewrite (Sum_ext _ (fun i => (frac_pi_6 * @ix RNum (p_m p) i * (@ix RNum (p_sigma p) i) ^ 3 * @ix RNum (scaled k moles) i)%num)
       (fun i => k * (frac_pi_6 * @ix RNum (p_m p) i * (@ix RNum (p_sigma p) i) ^ 3 * @ix RNum moles i)%num)).
    2:{ intros i Hi. pose proof (scaled_moles 0 0 k moles i) as E.
        change (@ix RNum (scaled k moles) i = k * @ix RNum moles i) in E. rewrite E.
        unfold frac_pi_6. rn. ring. }
    rewrite rsum_scal. set (A := rsum moles _). set (B := rsum (seq 0 _) _). clearbody A B. rn.
    replace (o_max_eta o * (k * A)) with (k * (o_max_eta o * A)) by ring.
    apply div_scale. lra.
  Qed.

  (** a volume at which the density is the maximum density *)
  Theorem C20_packing v : 0 < v -> total / v = compute_max_density (with_options p o) moles ->
    sigma_packing p v moles = o_max_eta o /\
    forall t, 0 < t -> packing p t (s_rho (@state_new RNum t v moles)) < o_max_eta o.
  Proof.
    intros Hv E. rewrite max_density_value in E. pose proof PI_RGT_0. pose proof V_pos as HV. pose proof total_pos as HT.
    assert (S : sigma_packing p v moles = o_max_eta o).
    { unfold sigma_packing. rewrite (Sum_ext _ _ (fun i => / v * (nth i moles 0 * nth i (p_m p) 0 * nth i (p_sigma p) 0 ^ 3)))
        by (intros; unfold Rdiv; ring).
      rewrite rsum_scal. fold V.
      assert (Ev : / v = o_max_eta o / (PI / 6 * V)).
      { apply Rmult_eq_reg_l with total; [ | lra]. unfold Rdiv in *. lra. }
      rewrite Ev. change (car RNum) with R in *. set (mx := o_max_eta o) in *. clearbody mx. field. split; lra. }
    split; auto. intros t Ht. rewrite <- S.
    rewrite (packing_spec p (wfp_from_records _ _ _ Hp) t v moles Lm). unfold Eta, Zeta, sigma_packing.
    apply Rmult_lt_compat_l; [lra | ]. change (N (mix_of p)) with (List.length (p_m p)).
    assert (D : forall i, (i < List.length (p_m p))%nat -> 0 < Di (mix_of p) t i < nth i (p_sigma p) 0).
    { intros i Hi. split; [apply Di_pos; auto | ].
      destruct (Hph i Hi) as (_ & Hs & He'). unfold Di; mx.
      change (nth i (p_sigma p) 0) with (@ix RNum (p_sigma p) i).
      pose proof (exp_pos (-3 * @ix RNum (p_epsilon_k p) i / t)). nra. }
    assert (Hv' : 0 < / v) by (apply Rinv_0_lt_compat; auto).
    destruct He as (i & Hi & P). apply (rsum_lt _ _ _ i).
    - intros j Hj. apply seq_in in Hj. change (M (mix_of p) j) with (nth j (p_m p) 0).
      apply Rmult_le_compat_l.
      + apply Rmult_le_pos; [apply Rmult_le_pos; [auto | lra] | left; apply (Hph j Hj)].
      + apply pow_incr. destruct (D j Hj). lra.
    - apply seq_in; auto.
    - change (M (mix_of p) i) with (nth i (p_m p) 0). apply Rmult_lt_compat_l.
      + apply Rmult_lt_0_compat; [apply Rdiv_lt_0_compat; auto | apply (Hph i Hi)].
      + destruct (D i Hi) as [D0 D1]. apply pow3_lt; lra.
  Qed.
End C20.

Theorem C20_functional_agrees (p : params RNum) v o moles :
  f_compute_max_density (f_with_options p v o) moles = compute_max_density (with_options p o) moles.
Proof. reflexivity. Qed.

Example C20_case :
  let o := @mkOptions RNum 0.5 50 1e-10 DQ35 in
  0 < compute_max_density (with_options sample o) [1; 2; 3] /\
  compute_max_density (with_options sample o) (map (fun n => 7 * n) [1; 2; 3])
  = compute_max_density (with_options sample o) [1; 2; 3].
Proof.
  assert (Hn : forall i, (i < List.length (p_m sample))%nat -> 0 <= nth i [1; 2; 3] 0).
  { intros i Hi. cbn in Hi. destruct i as [ | [ | [ | i]]]; cbn; try lra; lia. }
  assert (He : exists i, (i < List.length (p_m sample))%nat /\ 0 < nth i [1; 2; 3] 0) by (exists 1%nat; cbn; split; [lia | lra]).
  split.
  - apply C20_positive; auto using sample_phys. cbn. lra.
  - apply C20_intensive; auto using sample_phys; cbn; lra.
Qed.

(* ----------------------------------------------------------------------------- C21 *)

Lemma ln_lower z : 0 < z < 1 -> - z / (1 - z) < ln (1 - z) < 0.
Proof.
  intros Hz. split.
  - assert (E : ln (/ (1 - z)) < / (1 - z) - 1).
    { assert (P : 0 < / (1 - z)) by (apply Rinv_0_lt_compat; lra).
      pose proof (exp_ineq1 (ln (/ (1 - z)))) as X. rewrite exp_ln in X by auto.
      assert (ln (/ (1 - z)) <> 0).
      { rewrite ln_Rinv by lra. intros E. assert (E1 : ln (1 - z) = ln 1) by (rewrite ln_1; lra).
        apply ln_inv in E1; lra. }
      specialize (X H). lra. }
    rewrite ln_Rinv in E by lra. replace (- z / (1 - z)) with (- (/ (1 - z) - 1)) by (field; lra). lra.
  - rewrite <- ln_1. apply ln_increasing; lra.
Qed.

Lemma ln_gt0 x : 1 < x -> 0 < ln x.
Proof. intros. rewrite <- ln_1. apply ln_increasing; lra. Qed.

Lemma fx_nonpos x : 0 < x <= 1 -> fx x <= 0.
Proof.
  intros [H0 H1]. unfold fx.
  destruct (Req_dec x 1) as [-> | Hn]; [rewrite ln_1; lra | ].
  pose proof (exp_ineq1 (ln x)) as X. rewrite exp_ln in X by auto.
  assert (ln x <> 0) as Hl.
  { intros E. rewrite <- ln_1 in E. apply ln_inv in E; lra. }
  specialize (X Hl). 
  assert (L : ln x < 0) by (rewrite <- ln_1; apply ln_increasing; lra).
  lra.
Qed.

Section C21.
  Variables (prs : list (pure_record RNum)) (bin : list (list R)) (p : params RNum).
  Hypothesis Hp : from_records prs bin = Some p.
  Hypothesis Hph : phys p.
  Variables (t v : R) (moles : list R).
  Hypothesis PS : phys_state p t v moles.

  Theorem C21_hard_sphere : 0 < a_hs p (@state_new RNum t v moles).
  Proof.
    rewrite (hs_textbook p (wfp_from_records _ _ _ Hp) Hph t v moles PS).
    pose proof (Zeta_pos p Hph t v moles PS) as Z. pose proof (Zeta3_lt1 p t v moles PS) as Z1.
    apply Rmult_lt_0_compat; [apply (ps_v _ _ _ _ PS) | ]. unfold f_hs.
    set (rho := fun i => nth i moles 0 / v) in *. set (X := mix_of p) in *.
    pose proof (Z 0%nat) as P0. pose proof (Z 1%nat) as P1. pose proof (Z 2%nat) as P2. pose proof (Z 3%nat) as P3.
    set (z0 := Zeta X t rho 0) in *. set (z1 := Zeta X t rho 1) in *. set (z2 := Zeta X t rho 2) in *.
    set (z3 := Zeta X t rho 3) in *. clearbody z0 z1 z2 z3.
    apply Rmult_lt_0_compat; [apply Rdiv_lt_0_compat; [lra | apply PI_RGT_0] | ].
    destruct (ln_lower z3) as [L0 L1]; [lra | ].
    set (l := ln (1 - z3)) in *. clearbody l.
    assert (A1 : 0 < 3 * z1 * z2 / (1 - z3)).
    { apply Rdiv_lt_0_compat; [ | lra]. apply Rmult_lt_0_compat; lra. }
    assert (A3 : 0 < - z0 * l) by nra.
    assert (A2 : 0 < z2 ^ 3 / z3 ^ 2 * (z3 / (1 - z3) ^ 2 + l)).
    { apply Rmult_lt_0_compat; [apply Rdiv_lt_0_compat; apply pow_lt; auto | ].
      assert (z3 / (1 - z3) < z3 / (1 - z3) ^ 2).
      { unfold Rdiv. apply Rmult_lt_compat_l; auto. apply Rinv_lt_contravar; [ | nra].
        apply Rmult_lt_0_compat; [apply pow_lt; lra | lra]. }
      unfold Rdiv in *. lra. }
    replace (3 * z1 * z2 / (1 - z3) + z2 ^ 3 / (z3 * (1 - z3) ^ 2) + (z2 ^ 3 / z3 ^ 2 - z0) * l)
      with (3 * z1 * z2 / (1 - z3) + z2 ^ 3 / z3 ^ 2 * (z3 / (1 - z3) ^ 2 + l) + - z0 * l) by (field; lra).
    lra.
  Qed.

  Lemma Gij_gt1 i j : (i < List.length (p_m p))%nat -> (j < List.length (p_m p))%nat ->
    1 < Gij (mix_of p) t (fun i => nth i moles 0 / v) i j.
  Proof.
    intros Hi Hj. pose proof (Zeta_pos p Hph t v moles PS) as Z. pose proof (Zeta3_lt1 p t v moles PS) as Z1.
    set (rho := fun i => nth i moles 0 / v) in *. set (X := mix_of p) in *. unfold Gij. 
    pose proof (D_pos p Hph t v moles PS i Hi) as Di0. pose proof (D_pos p Hph t v moles PS j Hj) as Dj0. fold X in Di0, Dj0.
    pose proof (Z 2%nat) as P2. pose proof (Z 3%nat) as P3. 
    set (D := Di X t i * Di X t j / (Di X t i + Di X t j)).
    assert (DP : 0 < D) by (apply Rdiv_lt_0_compat; [apply Rmult_lt_0_compat; auto | lra]).
    set (z3 := Zeta X t rho 3) in *. set (z2 := Zeta X t rho 2) in *. clearbody D z2 z3.
    assert (1 < 1 / (1 - z3)).
    { rewrite <- (Rinv_1) at 1. unfold Rdiv. rewrite Rmult_1_l. apply Rinv_lt_contravar; lra. }
    assert (0 < D * (3 * z2 / (1 - z3) ^ 2)).
    { apply Rmult_lt_0_compat; auto. apply Rdiv_lt_0_compat; [lra | apply pow_lt; lra]. }
    assert (0 < D ^ 2 * (2 * z2 ^ 2 / (1 - z3) ^ 3)).
    { apply Rmult_lt_0_compat; [apply pow_lt; auto | ]. apply Rdiv_lt_0_compat; [ | apply pow_lt; lra].
      apply Rmult_lt_0_compat; [lra | apply pow_lt; auto]. }
    lra.
  Qed.

  (** contact value of the pair correlation function *)
  Theorem C21_contact_value i : (i < List.length (p_m p))%nat ->
    let d := hs_diameter p t in let z := zeta (p_m p) (s_rho (@state_new RNum t v moles)) d in
    1 < @g_hs RNum (nth i d 0) (z 2%nat) (z 3%nat).
  Proof.
    intros Hi d z. pose proof (wfp_from_records _ _ _ Hp) as W. unfold z, d.
    change (nth i (hs_diameter p t) 0) with (@ix RNum (hs_diameter p t) i).
    rewrite !(zeta_spec p W t v moles (ps_len _ _ _ _ PS)), (hs_diameter_spec p W) by auto.
    rewrite (g_hs_spec p t v moles); auto.
    - apply Gij_gt1; auto.
    - pose proof (Zeta3_lt1 p t v moles PS). lra.
    - pose proof (D_pos p Hph t v moles PS i Hi). lra.
  Qed.

  Theorem C21_chain : (forall i, (i < List.length (p_m p))%nat -> 1 <= nth i (p_m p) 0) ->
    a_hc p (@state_new RNum t v moles) <= 0.
  Proof.
    intros Hm. rewrite (hc_textbook p (wfp_from_records _ _ _ Hp) Hph t v moles PS).
    pose proof (ps_v _ _ _ _ PS) as Hv. unfold f_hc.
    assert (0 <= Sum i < List.length (p_m p), nth i moles 0 / v * (M (mix_of p) i - 1)
       * ln (Gij (mix_of p) t (fun i => nth i moles 0 / v) i i)); [ | change (N (mix_of p)) with (List.length (p_m p)); nra].
    apply rsum_nonneg. intros i Hi. apply seq_in in Hi.
    apply Rmult_le_pos; [apply Rmult_le_pos | ].
    - apply (rho_nonneg p t v moles PS i Hi).
    - specialize (Hm i Hi). change (M (mix_of p) i) with (nth i (p_m p) 0). lra.
    - left. apply ln_gt0, Gij_gt1; auto.
  Qed.

  (** chains shorter than one segment: the sign is reversed *)
  Theorem C21_chain_below_one : (forall i, (i < List.length (p_m p))%nat -> nth i (p_m p) 0 <= 1) ->
    0 <= a_hc p (@state_new RNum t v moles).
  Proof.
    intros Hm. rewrite (hc_textbook p (wfp_from_records _ _ _ Hp) Hph t v moles PS).
    pose proof (ps_v _ _ _ _ PS) as Hv. unfold f_hc. apply Rmult_le_pos; [lra | ].
    rewrite <- rsum_opp. apply rsum_nonneg. intros i Hi. apply seq_in in Hi.
    replace (- (nth i moles 0 / v * (M (mix_of p) i - 1)
       * ln (Gij (mix_of p) t (fun i => nth i moles 0 / v) i i)))
    with (nth i moles 0 / v * (1 - M (mix_of p) i)
       * ln (Gij (mix_of p) t (fun i => nth i moles 0 / v) i i)) by ring.
    apply Rmult_le_pos; [apply Rmult_le_pos | ].
    - apply (rho_nonneg p t v moles PS i Hi).
    - specialize (Hm i Hi). change (M (mix_of p) i) with (nth i (p_m p) 0). lra.
    - left. apply ln_gt0, Gij_gt1; auto.
  Qed.

  (** one associating component with two site types *)
  Theorem C21_association a : p_assoc_comp p = [a] ->
    0 < nth a (p_na p) 0 -> 0 < nth a (p_nb p) 0 -> nth a (p_na p) 0 + nth a (p_nb p) 0 <= 2 ^ 26 ->
    0 <= nth a (p_epsilon_k_ab p) 0 ->
    a_assoc p (@state_new RNum t v moles) <= 0.
  Proof.
    intros Ha Hna Hnb Hab He. pose proof (wfp_from_records _ _ _ Hp) as W.
    rewrite (assoc_two_site_energy p W Hph t v moles PS a Ha) by auto.
    pose proof (assoc_lt p W a Ha) as Hlt.
    set (X := mix_of p). set (rho := fun i => nth i moles 0 / v).
    change (0 < Na X a) in Hna. change (0 < Nb X a) in Hnb. change (Na X a + Nb X a <= 2 ^ 26) in Hab.
    assert (Hd : 0 <= Delta X t rho a a * rho a).
    { apply Rmult_le_pos; [ | apply (rho_nonneg p t v moles PS); auto].
      unfold Delta. pose proof (Gij_gt1 a a Hlt Hlt) as G.
      destruct (Hph a Hlt) as (_ & Hs & _). change (0 < Sg X a) in Hs.
      assert (HS : 0 < Sij X a a) by (unfold Sij; lra).
      apply Rmult_le_pos; [apply Rmult_le_pos; [apply Rmult_le_pos | ] | ].
      - fold X rho in G. lra.
      - left; apply pow_lt; auto.
      - unfold Kapij. apply Rmult_le_pos; [apply sqrt_pos | ]. apply pow_le. apply Rmult_le_pos; [apply sqrt_pos | ].
        left; apply Rinv_0_lt_compat; auto.
      - assert (0 <= (Eab X a + Eab X a) / 2 / t).
        { apply Rmult_le_pos; [change (0 <= Eab X a) in He; lra | left; apply Rinv_0_lt_compat; apply (ps_t _ _ _ _ PS)]. }
        destruct (Req_dec ((Eab X a + Eab X a) / 2 / t) 0) as [E | E]; [rewrite E, exp_0; lra | ].
        pose proof (exp_ineq1 _ E). lra. }
    assert (B : 0 < xa_code p t v moles a a <= 1 /\ 0 < xb_code p t v moles a a <= 1).
    { unfold xb_code, xa_code. rewrite Nat.eqb_refl. fold X rho. change (nth a moles 0 / v) with (rho a).
      set (d := Delta X t rho a a * rho a) in *. clearbody d.
      destruct (Rlt_dec (/ 67108864) d) as [L | L].
      - rewrite assoc_site_frac_ab_above by auto.
        destruct (frac_ab_law d (Na X a) (Nb X a)) as (B1 & B2 & _); auto; lra.
      - apply Rnot_lt_le in L. rewrite assoc_site_frac_ab_below by auto.
        destruct (Req_dec d 0) as [-> | Hn].
        + rewrite !Rmult_0_l. lra.
        + destruct (frac_ab_expansion d (Na X a) (Nb X a)) as (B1 & B2 & _); try lra.
          assert (d * (Na X a + Nb X a) <= / 67108864 * 2 ^ 26) by (apply Rmult_le_compat; lra). lra. }
    destruct B as [Ba Bb].
    assert (f_assoc_xx X rho (xa_code p t v moles a) (xb_code p t v moles a) <= 0).
    { unfold f_assoc_xx. change (N X) with (List.length (p_m p)). rewrite (Sum_single _ a); auto.
      - pose proof (rho_nonneg p t v moles PS a Hlt) as Hr. fold rho in Hr. 
        pose proof (fx_nonpos _ Ba) as F1. pose proof (fx_nonpos _ Bb) as F2.
        set (A := fx (xa_code _ _ _ _ _ _)) in *. set (B := fx (xb_code _ _ _ _ _ _)) in *. clearbody A B.
        assert (0 <= rho a * (Na X a * - A + Nb X a * - B)); [ | lra].
        apply Rmult_le_pos; auto. apply Rplus_le_le_0_compat; apply Rmult_le_pos; lra.
      - intros j Hj Hn. unfold xb_code, xa_code. apply Nat.eqb_neq in Hn. rewrite Hn, fx_1. ring. }
    pose proof (ps_v _ _ _ _ PS). nra.
  Qed.
End C21.

Example C21_case :
  0 < a_hs sample (@state_new RNum 350 1000 [1; 2; 3]) /\
  a_hc sample (@state_new RNum 350 1000 [1; 2; 3]) <= 0 /\
  a_assoc sample (@state_new RNum 350 1000 [1; 2; 3]) <= 0.
Proof.
  split; [ | split].
  - apply (C21_hard_sphere _ _ _ sample_ok sample_phys _ _ _ sample_state).
  - apply (C21_chain _ _ _ sample_ok sample_phys _ _ _ sample_state).
    intros i Hi. cbn in Hi. destruct i as [ | [ | [ | i]]]; cbn; try lra; lia.
  - apply (C21_association _ _ _ sample_ok sample_phys _ _ _ sample_state 2); try (cbn; lra).
    apply C17_case.
Qed.

(* ----------------------------------------------------------------------------- C35 *)

(** inverse compressibility of the hard-chain reference fluid (Gross & Sadowski 2001, eq. 12) *)
Definition inv_compressibility (m eta : R) : R :=
  1 + m * (8 * eta - 2 * eta ^ 2) / (1 - eta) ^ 4
  + (1 - m) * (20 * eta - 27 * eta ^ 2 + 12 * eta ^ 3 - 2 * eta ^ 4) / ((1 - eta) * (2 - eta)) ^ 2.

Lemma inv_compressibility_ge1 m eta : 0 < m -> 0 <= eta < 1 -> 1 <= inv_compressibility m eta.
Proof.
  intros Hm He. unfold inv_compressibility.
  set (A := (8 * eta - 2 * eta ^ 2) / (1 - eta) ^ 4).
  set (B := (20 * eta - 27 * eta ^ 2 + 12 * eta ^ 3 - 2 * eta ^ 4) / ((1 - eta) * (2 - eta)) ^ 2).
  replace (m * (8 * eta - 2 * eta ^ 2) / (1 - eta) ^ 4) with (m * A) by (unfold A, Rdiv; ring).
  replace ((1 - m) * (20 * eta - 27 * eta ^ 2 + 12 * eta ^ 3 - 2 * eta ^ 4) / ((1 - eta) * (2 - eta)) ^ 2)
    with ((1 - m) * B) by (unfold B, Rdiv; ring).
  assert (D1 : 0 < (1 - eta) ^ 4) by (apply pow_lt; lra).
  assert (D2 : 0 < ((1 - eta) * (2 - eta)) ^ 2) by (apply pow_lt; apply Rmult_lt_0_compat; lra).
  assert (Q : 0 <= 20 - 27 * eta + 12 * eta ^ 2 - 2 * eta ^ 3) by nra.
  assert (HA : 0 <= A).
  { apply Rmult_le_pos; [nra | left; apply Rinv_0_lt_compat; auto]. }
  assert (HB : 0 <= B).
  { apply Rmult_le_pos; [ | left; apply Rinv_0_lt_compat; auto].
    replace (20 * eta - 27 * eta ^ 2 + 12 * eta ^ 3 - 2 * eta ^ 4) with (eta * (20 - 27 * eta + 12 * eta ^ 2 - 2 * eta ^ 3)) by ring.
    apply Rmult_le_pos; lra. }
  assert (HAB : 0 <= A - B).
  { replace (A - B) with (eta * ((8 - 2 * eta) * (2 - eta) ^ 2 - (20 - 27 * eta + 12 * eta ^ 2 - 2 * eta ^ 3) * (1 - eta) ^ 2)
       / ((1 - eta) ^ 4 * (2 - eta) ^ 2)) by (unfold A, B; field; lra).
    apply Rmult_le_pos; [ | left; apply Rinv_0_lt_compat; apply Rmult_lt_0_compat; [auto | apply pow_lt; lra]].
    apply Rmult_le_pos; [lra | ].
    assert (0 <= (1 - eta) ^ 2 <= 1) by (split; [apply pow2_ge_0 | nra]).
    assert (20 - 27 * eta + 12 * eta ^ 2 - 2 * eta ^ 3 <= (8 - 2 * eta) * (2 - eta) ^ 2) by nra.
    nra. }
  destruct (Rle_dec m 1) as [H | H].
  - assert (0 <= m * A) by (apply Rmult_le_pos; lra). assert (0 <= (1 - m) * B) by (apply Rmult_le_pos; lra). lra.
  - assert (0 <= (m - 1) * (A - B)) by (apply Rmult_le_pos; lra). lra.
Qed.

Theorem C35_equation_of_state (m eta : R) : @disp_c1 RNum m eta = / inv_compressibility m eta.
Proof. rewrite disp_c1_spec. unfold inv_compressibility, Rdiv. rewrite Rmult_1_l. reflexivity. Qed.

Theorem C35_functional (m eta : R) : @att_c1 RNum m eta = / inv_compressibility m eta.
Proof.
  unfold att_c1, inv_compressibility. rn. f_equal.
  replace ((eta - 1) ^ 4) with ((1 - eta) ^ 4) by ring.
  replace ((eta - 1) * (eta - 2)) with ((1 - eta) * (2 - eta)) by ring. unfold Rdiv. ring.
Qed.

Theorem C35_pure_functional (m eta : R) : @pure_c1 RNum m eta = / inv_compressibility m eta.
Proof.
  unfold pure_c1, inv_compressibility. rn. f_equal.
  replace ((eta - 1) ^ 4) with ((1 - eta) ^ 4) by ring.
  replace ((eta - 1) * (eta - 2)) with ((1 - eta) * (2 - eta)) by ring. unfold Rdiv. ring.
Qed.

Theorem C35_bounds (m eta : R) : 0 < m -> 0 <= eta < 1 ->
  0 < @disp_c1 RNum m eta <= 1 /\ 0 < @att_c1 RNum m eta <= 1 /\ 0 < @pure_c1 RNum m eta <= 1.
Proof.
  intros Hm He. rewrite C35_equation_of_state, C35_functional, C35_pure_functional.
  pose proof (inv_compressibility_ge1 m eta Hm He) as H.
  assert (0 < / inv_compressibility m eta <= 1).
  { split; [apply Rinv_0_lt_compat; lra | ]. rewrite <- Rinv_1. apply Rinv_le_contravar; lra. }
  tauto.
Qed.

Example C35_case : 0 < @disp_c1 RNum 0.9285 0.4 <= 1 /\ 0 < @att_c1 RNum 3 0.7 <= 1.
Proof. split; apply C35_bounds; lra. Qed.

(* ----------------------------------------------------------------------------- C39 *)

(** the mixture of the publications, read off the records (no reference to the code's arrays);
    component numbers at or above the number of records do not exist *)
Definition published (prs : list (pure_record RNum)) (bin : list (list R)) : mixture :=
  let rec i := pr_model (nth i prs default_pure) in
  let get (f : pcsaft_record RNum -> R) i := if Nat.ltb i (List.length prs) then f (rec i) else 0 in
  {| N := List.length prs;
     M := get (fun r => r_m r); Sg := get (fun r => r_sigma r); Ep := get (fun r => r_epsilon_k r);
     Mu2 := get (fun r => opt_or (r_mu r) 0 ^ 2 / (r_m r * r_sigma r ^ 3 * r_epsilon_k r) * (1e-19 / 1.380649e-23));
     Qu2 := get (fun r => opt_or (r_q r) 0 ^ 2 / (r_m r * r_sigma r ^ 5 * r_epsilon_k r) * (1e-19 / 1.380649e-23));
     Kab := get (fun r => opt_or (r_kappa_ab r) 0); Eab := get (fun r => opt_or (r_epsilon_k_ab r) 0);
     Na := get (fun r => opt_or (r_na r) 1); Nb := get (fun r => opt_or (r_nb r) 1);
     Kij := fun i j => nth j (nth i bin []) 0 |}.

Lemma mix_of_published prs bin p : from_records prs bin = Some p -> mix_of p = published prs bin.
Proof.
  intros Hp. pose proof (from_records_raw_of _ _ _ Hp) as P0.
  assert (G : forall (l : list R) (f : pcsaft_record RNum -> R),
    List.length l = List.length prs ->
    (forall i pr, nth_error prs i = Some pr -> nth i l 0 = f (pr_model pr)) ->
    @ix RNum l = fun i => if Nat.ltb i (List.length prs) then f (pr_model (nth i prs default_pure)) else 0).
  { intros l f Hl H. apply functional_extensionality. intros i. change (@ix RNum l i) with (nth i l 0).
    destruct (Nat.ltb_spec i (List.length prs)) as [Hi | Hi].
    - apply H. apply nth_error_nth'. auto.
    - apply nth_overflow. rewrite Hl. auto. }
  pose proof (C16_pure_values _ _ _ Hp) as V. pose proof (C16_moments _ _ _ Hp) as Mo.
  assert (L : List.length (p_m p) = List.length prs) by (rewrite P0; apply fr_len_m).
  unfold mix_of, published. rewrite L. cbv zeta. f_equal.
  - apply (G _ (fun r => r_m r)); auto. intros i pr H. apply (V i pr H).
  - apply (G _ (fun r => r_sigma r)); [rewrite P0; exact (fr_len_sigma prs bin) | ]. intros i pr H. apply (V i pr H).
  - apply (G _ (fun r => r_epsilon_k r)); [rewrite P0; exact (fr_len_eps prs bin) | ]. intros i pr H. apply (V i pr H).
  - apply (G _ (fun r => opt_or (r_mu r) 0 ^ 2 / (r_m r * r_sigma r ^ 3 * r_epsilon_k r) * (1e-19 / 1.380649e-23)));
      [rewrite P0; exact (fr_len_mu2 prs bin) | ]. intros i pr H. apply (Mo i pr H).
  - apply (G _ (fun r => opt_or (r_q r) 0 ^ 2 / (r_m r * r_sigma r ^ 5 * r_epsilon_k r) * (1e-19 / 1.380649e-23)));
      [rewrite P0; exact (fr_len_q2 prs bin) | ]. intros i pr H. apply (Mo i pr H).
  - apply (G _ (fun r => opt_or (r_kappa_ab r) 0)); [rewrite P0; exact (fr_len_kab prs bin) | ]. intros i pr H. apply (V i pr H).
  - apply (G _ (fun r => opt_or (r_epsilon_k_ab r) 0)); [rewrite P0; cbn; rewrite !map_length; auto | ]. intros i pr H. apply (V i pr H).
  - apply (G _ (fun r => opt_or (r_na r) 1)); [rewrite P0; cbn; rewrite !map_length; auto | ]. intros i pr H. apply (V i pr H).
  - apply (G _ (fun r => opt_or (r_nb r) 1)); [rewrite P0; cbn; rewrite !map_length; auto | ]. intros i pr H. apply (V i pr H).
  - rewrite P0. reflexivity.
Qed.

Section C39.
  Variables (prs : list (pure_record RNum)) (bin : list (list R)) (p : params RNum).
  Hypothesis Hp : from_records prs bin = Some p.
  Hypothesis Hph : phys p.
  Variables (t v : R) (moles : list R).
  Hypothesis PS : phys_state p t v moles.
  Let X := published prs bin.
  Let rho i := nth i moles 0 / v.
  Let s := @state_new RNum t v moles.

  Theorem C39_hard_sphere : a_hs p s = v * f_hs X t rho.
  Proof. unfold X. rewrite <- (mix_of_published _ _ _ Hp). apply hs_textbook; eauto using wfp_from_records. Qed.
  Theorem C39_hard_chain : a_hc p s = v * f_hc X t rho.
  Proof. unfold X. rewrite <- (mix_of_published _ _ _ Hp). apply hc_textbook; eauto using wfp_from_records. Qed.
  Theorem C39_dispersion : a_disp p s = v * f_disp X t rho.
  Proof. unfold X. rewrite <- (mix_of_published _ _ _ Hp). apply disp_textbook; eauto using wfp_from_records. Qed.
  Theorem C39_dipole : a_dipole p s = v * f_dd X t rho.
  Proof. unfold X. rewrite <- (mix_of_published _ _ _ Hp). apply dipole_textbook; eauto using wfp_from_records. Qed.
  (** partial: the diameters of all quadrupolar components must coincide, see
      [C39_quadrupole_refuted] *)
  Theorem C39_quadrupole_partial :
    (forall i j, (i < List.length prs)%nat -> (j < List.length prs)%nat -> Qu2 X i <> 0 -> Qu2 X j <> 0 -> Sg X i = Sg X j) ->
    a_quadrupole p s = v * f_qq X t rho.
  Proof.
    unfold X. rewrite <- (mix_of_published _ _ _ Hp). intros H.
    apply quadrupole_textbook; eauto using wfp_from_records. intros i j Hi Hj.
    apply H; rewrite <- (fr_len_m prs bin), <- (from_records_raw_of _ _ _ Hp); auto.
  Qed.
  Theorem C39_dipole_quadrupole : a_dq p DQ35 s = v * f_dq X t rho 3 5 /\ a_dq p DQ44 s = v * f_dq X t rho 4 4.
  Proof.
    unfold X. rewrite <- (mix_of_published _ _ _ Hp).
    pose proof (wfp_from_records _ _ _ Hp) as W.
    split; [exact (dq_textbook p W Hph t v moles PS DQ35) | exact (dq_textbook p W Hph t v moles PS DQ44)].
  Qed.
  (** one associating component with two types of sites, above the low-density switch: the code's
      site fractions solve the mass-action equations of the publications, and the energy is theirs *)
  Theorem C39_association a : p_assoc_comp p = [a] -> 0 < Na X a -> 0 < Nb X a ->
    / 2 ^ 26 < Delta X t rho a a * rho a ->
    exists xa xb, mass_action X t rho xa xb /\ (forall i, 0 < xa i <= 1 /\ 0 < xb i <= 1) /\
      a_assoc p s = v * f_assoc_xx X rho xa xb.
  Proof.
    unfold X. rewrite <- (mix_of_published _ _ _ Hp). intros Ha Hna Hnb Hd.
    pose proof (wfp_from_records _ _ _ Hp) as W.
    exists (xa_code p t v moles a), (xb_code p t v moles a).
    replace (2 ^ 26) with 67108864 in Hd by ring.
    destruct (assoc_two_site_mass_action p W t v moles a Ha Hna Hnb Hd) as [A B].
    split; [exact A | ]. split; [exact B | ].
    apply assoc_two_site_energy; auto.
  Qed.
End C39.

(** the full equality of the quadrupole contribution with the publication fails *)
Theorem C39_quadrupole_refuted :
  exists prs bin p t v moles, from_records prs bin = Some p /\ phys p /\ phys_state p t v moles /\
    a_quadrupole p (@state_new RNum t v moles) <> v * f_qq (published prs bin) t (fun i => nth i moles 0 / v).
Proof.
  destruct C03_quadrupole_refuted as (prs & bin & p & l & p' & t & v & moles & Hp & HP & Hs & Hph & PS & H).
  destruct (subset_from_records _ _ _ Hs) as (prs' & bin' & Hp').
  assert (Nd : NoDup l).
  { apply (Permutation_NoDup (l := seq 0 (List.length prs))); [symmetry; auto | apply seq_NoDup]. }
  assert (Nz : forall j, (j < List.length (p_m p))%nat -> ~ In j l -> nth j moles 0 = 0).
  { intros j Hj Hn. exfalso. apply Hn. apply (Permutation_in _ (Permutation_sym HP)). apply seq_in.
    rewrite <- (fr_len_m prs bin), <- (from_records_raw_of _ _ _ Hp). auto. }
  pose proof (pick_regrouped _ _ _ _ _ Nd Nz PS) as Rg.
  assert (E : f_qq (mix_of p') t (fun i => nth i (pick moles l) 0 / v) = f_qq (mix_of p) t (fun i => nth i moles 0 / v)).
  { apply (f_qq_lump _ _ t (fun i => nth i l 0%nat)).
    - apply (L_phi _ _ _ _ _ Hp Hs).
    - apply (L_rho _ _ _ _ _ Hp Hs v _ _ Rg).
    - apply (L_m _ _ _ _ _ Hp Hs).
    - apply (L_s _ _ _ _ _ Hp Hs).
    - apply (L_e _ _ _ _ _ Hp Hs).
    - apply (L_q _ _ _ _ _ Hp Hs). }
  rewrite (mix_of_published _ _ _ Hp), (mix_of_published _ _ _ Hp') in E.
  destruct (Req_dec (a_quadrupole p (@state_new RNum t v moles)) (v * f_qq (published prs bin) t (fun i => nth i moles 0 / v))) as [E1 | E1].
  - exists prs', bin', p', t, v, (pick moles l). split; auto. split; [apply (subset_phys _ _ _ _ _ Hp Hs Hph) | ].
    split; [ | rewrite E; congruence].
    apply (pick_phys_state _ _ _ _ _ Hp Hs); auto.
  - exists prs, bin, p, t, v, moles. auto.
Qed.

Example C39_case :
  a_hs sample (@state_new RNum 350 1000 [1; 2; 3])
    = 1000 * f_hs (published sample_prs sample_bin) 350 (fun i => nth i [1; 2; 3] 0 / 1000) /\
  a_quadrupole sample (@state_new RNum 350 1000 [1; 2; 3])
    = 1000 * f_qq (published sample_prs sample_bin) 350 (fun i => nth i [1; 2; 3] 0 / 1000).
Proof.
  split.
  - apply (C39_hard_sphere _ _ _ sample_ok sample_phys _ _ _ sample_state).
  - apply (C39_quadrupole_partial _ _ _ sample_ok sample_phys _ _ _ sample_state).
    rewrite <- (mix_of_published _ _ _ sample_ok). intros i j Hi Hj Qi Qj.
    apply (sample_one_quadrupole i j); auto.
Qed.

Print Assumptions C01_bounds.
Print Assumptions C01_decreasing.
Print Assumptions C20_packing.
Print Assumptions C21_association.
Print Assumptions C21_chain.
Print Assumptions C35_bounds.
Print Assumptions C39_quadrupole_refuted.
Print Assumptions C39_association.
