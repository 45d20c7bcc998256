(** Fundamental measure theory in the bulk, and the specialised functional of one component. *)
From Coq Require Import ZArith QArith Reals Lra Lia List Bool Psatz.
From Verif Require Import Num RNum RSum Tables M_Params F_Params M_Eos M_Dft Spec F_Spec F_SpecPolar
  F_SpecAssoc F_Contrib P_Fmt F_Dft.
Import ListNotations.
Local Open Scope R_scope.

Lemma ndot_zero (a b : list R) : (forall x, In x b -> x = 0) -> @ndot RNum a b = 0.
Proof.
  intros H. unfold ndot. rewrite nsum_R. unfold nmul1. rewrite rsum_map.
  rewrite (rsum_ext _ _ (fun _ => 0)); [apply rsum_zero; auto | ].
  intros [x y] I. apply in_combine_r in I. cbn [fst snd]. rewrite (H y I). rn. ring.
Qed.

Section Fmt.
  Variable p : params RNum.
  Hypothesis W : wfp p.
  Hypothesis Hph : phys p.
  Let X := mix_of p.
  Let n := length (p_m p).
  Variables (t v : R) (moles : list R).
  Hypothesis PS : phys_state p t v moles.
  Let s := @state_new RNum t v moles.
  Let rl : list R := s_rho s.
  Let rho i := nth i moles 0 / v.
  Let z0 := Zeta X t rho 0.
  Let z1 := Zeta X t rho 1.
  Let z2 := Zeta X t rho 2.
  Let z3 := Zeta X t rho 3.

  Definition fmt_density (f3 : R) : R :=
    6 / PI * (3 * z1 * z2 / (1 - z3) - z0 * ln (1 - z3) + z2 ^ 3 * f3).

  Lemma f_hs_f3 : f_hs X t rho = fmt_density (f3_exact z3).
  Proof.
    unfold f_hs, fmt_density, f3_exact. fold z0 z1 z2 z3.
    pose proof (z3_pos p Hph t v moles PS). pose proof (z3_lt1 p t v moles PS).
    fold X rho z3 in H, H0. pose proof PI_RGT_0. field. lra.
  Qed.

  Lemma ext_fmt_spec : ext_fmt_bulk p t rl = fmt_density (@fmt_f3 RNum z3).
  Proof.
    unfold ext_fmt_bulk. cbv zeta.
    assert (E0 : @nsumi RNum n (fun i => (@ix RNum rl i * @ix RNum (p_m p) i)%num) = 6 / PI * z0).
    { rewrite nsumi_R. unfold z0, Zeta. pose proof PI_RGT_0.
      rewrite <- Rmult_assoc. replace (6 / PI * (PI / 6)) with 1 by (field; lra). rewrite Rmult_1_l.
      apply Sum_ext. intros i Hi. rewrite (rl_ix p t v moles PS) by auto.
      change (M X i) with (@ix RNum (p_m p) i). rn. unfold rho. ring. }
    assert (E1 : @nsumi RNum n (fun i => (@ix RNum rl i * @ix RNum (p_m p) i * @ix RNum (seg_radius p t) i)%num) = 3 / PI * z1).
    { rewrite nsumi_R. unfold z1, Zeta. pose proof PI_RGT_0.
      rewrite <- Rmult_assoc. replace (3 / PI * (PI / 6)) with (/ 2) by (field; lra). rewrite <- rsum_scal.
      apply Sum_ext. intros i Hi. rewrite (rl_ix p t v moles PS), (sr_ix p W) by auto.
      change (M X i) with (@ix RNum (p_m p) i). fold X. rn. unfold rho. field. apply Rgt_not_eq, (ps_v _ _ _ _ PS). }
    assert (E2 : assoc_n2 p t rl = 6 * z2) by (apply assoc_n2_spec; auto; apply (ps_len _ _ _ _ PS)).
    assert (E3 : M_Eos.packing p t rl = z3) by (apply packing_eta; auto).
    unfold assoc_n2 in E2. unfold M_Eos.packing in E3.
    fold n. fold n in E2, E3. rewrite E0, E1, E2, E3.
    unfold fmt_density, pi36m1. set (f := @fmt_f3 RNum z3).
    pose proof (z3_lt1 p t v moles PS). fold X rho z3 in H. pose proof PI_RGT_0.
    rn. replace (1 + - z3) with (1 - z3) by ring. field. lra.
  Qed.

  Theorem ext_fmt_exact : 1 / 100000 <= Eta X t rho -> ext_fmt_bulk p t rl = f_hs X t rho.
  Proof.
    intros H. rewrite ext_fmt_spec, f_hs_f3. f_equal. unfold fmt_f3.
    change (@nltb RNum) with Rltb. rewrite (proj2 (Rltb_false _ _)).
    - apply f3_raw_exact. split; [apply (z3_pos p Hph t v moles PS) | apply (z3_lt1 p t v moles PS)].
    - rewrite cutoff_val. apply H.
  Qed.
  Theorem ext_fmt_close : Rabs (ext_fmt_bulk p t rl - f_hs X t rho) <= 6 / PI * Zeta X t rho 2 ^ 3 / 10 ^ 24.
  Proof.
    rewrite ext_fmt_spec, f_hs_f3. unfold fmt_density.
    assert (H : 0 < z3) by apply (z3_pos p Hph t v moles PS).
    assert (H0 : z3 < 1) by apply (z3_lt1 p t v moles PS).
    assert (H1 : 0 < z2) by apply (z2_pos p Hph t v moles PS).
    change (Zeta X t rho 2) with z2.
    pose proof (C32_switch_harmless z3 ltac:(lra)) as B.
    match goal with |- Rabs (?a * (?b + ?c) - ?a * (?b + ?d)) <= _ =>
      replace (a * (b + c) - a * (b + d)) with (a * (c - d)) by ring end.
    rewrite <- Rmult_minus_distr_l. set (f := @fmt_f3 RNum z3) in *.
    assert (0 < z2 ^ 3) by (apply pow_lt; auto).
    assert (0 < 6 / PI) by (apply Rdiv_lt_0_compat; [lra | apply PI_RGT_0]).
    rewrite !Rabs_mult, (Rabs_right (6 / PI)), (Rabs_right (z2 ^ 3)) by lra.
    replace (6 / PI * z2 ^ 3 / 10 ^ 24) with (6 / PI * (z2 ^ 3 * (1 / 10 ^ 24))) by (unfold Rdiv; ring).
    apply Rmult_le_compat_l; [lra | ]. apply Rmult_le_compat_l; [lra | ]. auto.
  Qed.
End Fmt.

Section Pure.
  Variable p : params RNum.
  Hypothesis W : wfp p.
  Hypothesis Hph : phys p.
  Let X := mix_of p.
  Hypothesis L1 : length (p_m p) = 1%nat.
  Variables (t v : R) (moles : list R).
  Hypothesis PS : phys_state p t v moles.
  Let s := @state_new RNum t v moles.
  Let rl : list R := s_rho s.
  Let rho i := nth i moles 0 / v.
  Let r0 := rho 0%nat.
  Let D := Di X t 0.
  Let m := @ix RNum (p_m p) 0.

  Let i0 : (0 < length (p_m p))%nat.
  Proof. rewrite L1. lia. Qed.
  Let Lrl1 : @length R rl = 1%nat.
  Proof. unfold rl, s. rewrite (Lrl p t v moles PS). apply L1. Qed.
  Let Er0 : @ix RNum rl 0 = r0.
  Proof. apply (rl_ix p t v moles PS); auto. Qed.
  Let Ehs : @ix RNum (hs_diameter p t) 0 = D.
  Proof. apply hs_diameter_spec; auto. Qed.
  Let Esr : @ix RNum (seg_radius p t) 0 = D / 2.
  Proof. apply seg_radius_spec; auto. Qed.
  Lemma D0_pos : 0 < D.
  Proof. apply (hs_pos p Hph t v moles PS); auto. Qed.
  Lemma m0_pos : 0 < m.
  Proof. apply Hph; auto. Qed.
  Lemma r0_pos : 0 < r0.
  Proof.
    destruct (ps_nonempty _ _ _ _ PS) as (i & Hi & Hp). rewrite L1 in Hi.
    assert (i = 0)%nat as -> by lia. unfold r0, rho. apply Rdiv_lt_0_compat; auto. apply (ps_v _ _ _ _ PS).
  Qed.
  Lemma NX1 : N X = 1%nat.
  Proof. apply L1. Qed.
  Lemma Sum1 (f : nat -> R) : (Sum i < 1, f i) = f 0%nat.
  Proof. cbn [seq rsum]. ring. Qed.
  Lemma zeta1 k : Zeta X t rho k = PI / 6 * (r0 * m * D ^ k).
  Proof. unfold Zeta. rewrite NX1, Sum1. reflexivity. Qed.

  Let z2 := Zeta X t rho 2.
  Let z3 := Zeta X t rho 3.
  Let z3p : 0 < z3 := z3_pos p Hph t v moles PS.
  Let z3l : z3 < 1 := z3_lt1 p t v moles PS.
  Let z2p : 0 < z2 := z2_pos p Hph t v moles PS.

  Lemma pure_fmt_wd dim : exists Z,
    bulk_wd (pure_fmt_weight_functions p t) dim rl = 6 * z2 :: z3 :: Z /\ forall x, In x Z -> x = 0.
  Proof.
    unfold bulk_wd, pure_fmt_weight_functions. change (@length (car RNum) rl) with (@length R rl).
    rewrite Lrl1. cbn [wi_local wi_comp wi_fmt map].
    cbn [filter is_vec wf_sh negb flat_map map]. rewrite !app_nil_r. cbn [app].
    match goal with |- context [flat_map ?f (seq 0 dim)] => set (Z := flat_map f (seq 0 dim)) end.
    exists Z. split.
    - unfold mk1. cbn [seq map app]. unfold bulk_weight. cbn [wf_prefactor wf_radius wf_sh shape_integral].
      rewrite Er0, Esr. fold m. unfold frac_pi_3.
      f_equal; [ | f_equal]; [unfold z2 | unfold z3]; rewrite zeta1; rn; field.
    - intros x Hx. unfold Z in Hx. apply in_flat_map in Hx. destruct Hx as (k & _ & Hx).
      unfold mk1 in Hx. apply in_map_iff in Hx. destruct Hx as (i & <- & _).
      unfold bulk_weight. cbn [wf_sh shape_integral]. rn. ring.
  Qed.

  Theorem pure_phi_fmt_bulk fv dim : fv <> KierlikRosinberg ->
    pure_phi_fmt fv p t (bulk_wd (pure_fmt_weight_functions p t) dim rl) = Some (ext_fmt_bulk p t rl).
  Proof.
    intros Hf. unfold rl, s. rewrite (ext_fmt_spec p W t v moles PS). fold rho X z3 s rl.
    destruct (pure_fmt_wd dim) as (Z & -> & HZ). unfold pure_phi_fmt.
    change (@ix RNum (6 * z2 :: z3 :: Z) 0) with (6 * z2).
    change (@ix RNum (6 * z2 :: z3 :: Z) 1) with z3.
    change (@skipn (car RNum) 2 (6 * z2 :: z3 :: Z)) with Z. cbv zeta. rewrite Ehs.
    set (f := @fmt_f3 RNum z3).
    assert (HS : forall r a, @pure_fmt_scalars RNum fv r a (6 * z2) Z = Some (a * (6 * z2), (6 * z2) ^ 2)).
    { intros r a. unfold pure_fmt_scalars. rewrite !(ndot_zero _ Z) by auto.
      destruct fv; [ | contradiction | ]; apply (f_equal (@Some (R * R))).
      - f_equal; rn; ring.
      - replace (@ndiv RNum 0 _) with 0 by (rn; unfold Rdiv; ring).
        replace (@nltb RNum n1 0) with false
          by (symmetry; change (@nltb RNum) with Rltb; apply Rltb_false; rn; lra).
        f_equal; rn; ring. }
    rewrite HS. apply (f_equal (@Some R)).
    pose proof D0_pos. pose proof PI_RGT_0. unfold fmt_density, pi36m1. fold X rho.
    change (Zeta X t rho 3) with z3. change (Zeta X t rho 2) with z2.
    clearbody f. rn. replace (1 + - z3) with (1 - z3) by ring.
    replace (Zeta X t rho 0) with (z2 / D ^ 2) by (unfold z2; rewrite !zeta1; field; lra).
    replace (Zeta X t rho 1) with (z2 / D) by (unfold z2; rewrite !zeta1; field; lra).
    field. lra.
  Qed.

  Theorem pure_phi_assoc_bulk dim dim' : p_nassoc p = 1%nat ->
    pure_phi_assoc p t (bulk_wd (pure_fmt_weight_functions p t) dim rl)
    = phi_assoc_one p t (bulk_wd (assoc_weight_functions p t) dim' rl).
  Proof.
    intros Hn. assert (Hc : p_assoc_comp p = [0%nat]).
    { rewrite (w_na _ W) in Hn. destruct (p_assoc_comp p) as [ | a [ | ]] eqn:E; try discriminate.
      f_equal. assert (a < length (p_m p))%nat by (apply (assoc_lt p W a); auto). lia. }
    unfold phi_assoc_one. rewrite Hc. change (ixn [0%nat] 0) with 0%nat. cbv zeta.
    unfold rl, s. rewrite (wd_n2 p W Hph t v moles PS dim'), (wd_n3i p W Hph t v moles PS dim'),
      (wd_xi p W Hph t v moles PS dim'), (wd_rho0 p W Hph t v moles PS dim'). fold s rl.
    replace (assoc_n2 p t rl) with (6 * z2)
      by (symmetry; apply assoc_n2_spec; auto; apply (ps_len _ _ _ _ PS)).
    replace (M_Eos.packing p t rl) with z3 by (symmetry; apply (packing_eta p W); auto).
    rewrite Er0, Esr.
    destruct (pure_fmt_wd dim) as (Z & -> & HZ). unfold pure_phi_assoc.
    change (@ix RNum (6 * z2 :: z3 :: Z) 0) with (6 * z2).
    change (@ix RNum (6 * z2 :: z3 :: Z) 1) with z3.
    change (@skipn (car RNum) 2 (6 * z2 :: z3 :: Z)) with Z. cbv zeta. rewrite Ehs.
    rewrite (ndot_zero Z Z HZ). fold m.
    match goal with |- context [if ?b then n1 else ?y] => replace (if b then n1 else y) with 1 end.
    2:{ match goal with |- _ = if ?b then _ else _ => destruct b end; auto. rn. unfold Rdiv. ring. }
    pose proof D0_pos. pose proof PI_RGT_0. pose proof m0_pos.
    set (E := @nexpm1 RNum _). set (kap := @ix2 RNum (p_kappa_aibj p) 0 0). set (sg := @ix RNum (p_sigma p) 0).
    set (na := @ix RNum (p_na p) 0). set (nb := @ix RNum (p_nb p) 0).
    assert (Ez : z2 = PI / 6 * (r0 * m * D ^ 2)) by (unfold z2; apply zeta1).
    match goal with |- context [@assoc_site_frac_ab RNum ?x na nb] => set (d1 := x) end.
    match goal with |- _ = (if _ then let _ := @assoc_site_frac_ab RNum ?x na nb in _ else _) => set (d2 := x)
     | |- _ = (if _ then (@f_assoc RNum (@assoc_site_frac_ab RNum ?x na nb) * _ + _)%num * _ else _)%num => set (d2 := x) end.
    assert (Ed : d1 = d2).
    { unfold d1, d2. clearbody E kap sg. rn. rewrite Ez. field. repeat split; try lra; nra. }
    rewrite Ed. 
    match goal with |- context [(?c / m * 1)%num] => assert (Er : (c / m * 1)%num = r0) end.
    { clearbody d1 d2. rn. rewrite Ez. field. lra. }
    rewrite Er. clear Er.
    set (A := assoc_site_frac_ab d2 na nb). set (B := assoc_site_frac_a d2 na). clearbody A B.
    match goal with |- context [if ?b then _ else _] => destruct b end.
    - replace ((A - $1) * na / nb + $1)%num with ((A - $1) * (na / nb) + $1)%num by (rn; unfold Rdiv; ring).
      apply Rmult_comm.
    - apply Rmult_comm.
  Qed.

  (* ------------------------------------------------------------------------ chain *)

  Lemma pure_chain_wd dim : bulk_wd (pure_chain_weight_functions p t) dim rl = [r0; r0; z3].
  Proof.
    unfold bulk_wd, pure_chain_weight_functions. change (@length (car RNum) rl) with (@length R rl).
    rewrite Lrl1. cbn [wi_local wi_comp wi_fmt map].
    cbn [filter is_vec wf_scaled wf_sh negb flat_map map]. rewrite !app_nil_r.
    replace rl with [r0] at 1.
    2:{ rewrite <- Er0. destruct rl as [ | a [ | b l]]; try discriminate Lrl1. reflexivity. }
    unfold mk1. cbn [seq map app]. f_equal. f_equal; [ | f_equal].
    - rewrite (scaled_weight (hs_diameter p t)); auto; try discriminate.
      + rewrite Er0. apply Rmult_1_l.
      + rewrite Lhs; auto.
      + rewrite Ehs. apply D0_pos.
    - unfold bulk_weight. cbn [wf_prefactor wf_radius wf_sh shape_integral].
      rewrite (ix_map (K := RNum) _ _ _ 0) by auto. change (nth 0 (p_m p) 0) with m.
      rewrite Er0, Ehs. unfold z3. rewrite zeta1. unfold frac_pi_3. rn. field.
  Qed.
  Theorem phi_pure_chain_bulk dim dim' :
    phi_pure_chain p (bulk_wd (pure_chain_weight_functions p t) dim rl)
    = phi_chain p t (bulk_wd (chain_weight_functions p t) dim' rl).
  Proof.
    unfold rl at 2, s. rewrite (phi_chain_spec p W Hph t v moles PS dim'). fold X rho s rl.
    rewrite pure_chain_wd. unfold phi_pure_chain.
    change (@ix RNum [r0; r0; z3] 0) with r0. change (@ix RNum [r0; r0; z3] 1) with r0.
    change (@ix RNum [r0; r0; z3] 2) with z3. cbv zeta. fold m.
    rewrite lambda_reg_R by (left; apply r0_pos).
    unfold f_hc. rewrite NX1, L1, !Sum1. change (M X 0) with m. fold m. change (rho 0) with r0.
    assert (Ey : @pure_chain_y RNum z3 = Gij X t rho 0 0).
    { unfold pure_chain_y, Gij. fold D z3 z2. pose proof D0_pos.
      replace z2 with (z3 / D) by (unfold z2, z3; rewrite !zeta1; field; lra).
      rn. field. lra. }
    rewrite Ey. pose proof r0_pos. pose proof f_eps_pos.
    rn. rewrite ln_mult; [change (nth 0 moles 0 / v) with r0; ring |  apply (Gii_pos p Hph t v moles PS); auto | lra].
  Qed.

  (* ------------------------------------------------------------------- attraction *)

  Hypothesis K0 : @ix2 RNum (p_k_ij p) 0 0 = 0.

  Lemma Mbar1 : Mbar X rho = m.
  Proof.
    unfold Mbar, Rho. rewrite NX1, !Sum1. change (M X 0) with m. change (rho 0) with r0.
    pose proof r0_pos. field. lra.
  Qed.
  Lemma pure_eta_spec : @pure_eta RNum p t r0 = Eta X t rho.
  Proof.
    unfold pure_eta, Eta. rewrite Ehs, zeta1. fold m. unfold frac_pi_6. rn. field.
  Qed.
  Lemma Eij00 : Eij X 0 0 = Ep X 0.
  Proof.
    unfold Eij, Eij0. change (Kij X 0 0) with (@ix2 RNum (p_k_ij p) 0 0). rewrite K0.
    rewrite sqrt_square; [ring | ]. left. apply Hph; auto.
  Qed.
  Lemma pure_series_R c0 c1 c2 (mm eta : R) : @pure_series RNum c0 c1 c2 mm eta = @disp_series RNum c0 c1 c2 mm eta.
  Proof.
    unfold pure_series, disp_series. apply nsumi_ext. intros i _. unfold cst.
    change (@nlit RNum (nth i c0 0%Q)) with (Rlit (nth i c0 0%Q)).
    change (@nlit RNum (nth i c1 0%Q)) with (Rlit (nth i c1 0%Q)).
    change (@nlit RNum (nth i c2 0%Q)) with (Rlit (nth i c2 0%Q)).
    rewrite run_pow_R.
    set (a := Rlit (nth i c2 0%Q)). set (b := Rlit (nth i c1 0%Q)).
    set (c := Rlit (nth i c0 0%Q)). clearbody a b c. rn. unfold Rdiv. ring.
  Qed.
  Lemma pure_c1_R (mm eta : R) : @pure_c1 RNum mm eta = @disp_c1 RNum mm eta.
  Proof.
    rewrite disp_c1_spec by auto. unfold pure_c1. rn. unfold Rdiv at 3. rewrite Rmult_1_l. f_equal.
    replace ((eta - 1) ^ 4) with ((1 - eta) ^ 4) by ring.
    replace (((eta - 1) * (eta - 2)) ^ 2) with (((1 - eta) * (2 - eta)) ^ 2) by ring.
    unfold Rdiv. ring.
  Qed.
  Theorem phi_pure_disp_spec : @phi_pure_disp RNum p t r0 = f_disp X t rho.
  Proof.
    unfold phi_pure_disp. rewrite pure_eta_spec. fold m.
    rewrite !pure_series_R, pure_c1_R, !disp_series_spec, disp_c1_spec by auto.
    unfold f_disp, C1, power_series, mixsum. rewrite Mbar1, NX1, !Sum1, Eij00, Sij_diag.
    change (rho 0) with r0. change (M X 0) with m.
    change (@ix RNum (p_sigma p) 0) with (Sg X 0). change (@ix RNum (p_epsilon_k p) 0) with (Ep X 0).
    set (S1 := rsum _ _). set (S2 := rsum _ _). set (C := 1 / _). clearbody S1 S2 C.
    rn. unfold Rdiv. ring.
  Qed.
  Lemma nmin2 : @nmin RNum (@ix RNum (p_m p) 0) (@nlit RNum 2) = m2 X 0 0.
  Proof. symmetry. apply (m2_diag p Hph 0%nat). auto. Qed.
  Lemma nmin3 : @nmin RNum (@ix RNum (p_m p) 0) (@nlit RNum 2) = m3 X 0 0 0.
  Proof. symmetry. apply (m3_diag p Hph 0%nat). auto. Qed.
  Lemma Eij000 : Eij0 X 0 0 = Ep X 0.
  Proof. unfold Eij0. apply sqrt_square. left. apply Hph; auto. Qed.

  Lemma pure_J2 a b : (length a <= 5)%nat ->
    (let mm := @nmin RNum (@ix RNum (p_m p) 0) (@nlit RNum 2) in
     let m1 := ((mm - $1) / mm)%num in
     @d_pair_integral_ij RNum m1 (m1 * (mm - $2) / mm)%num (Eta X t rho) a b (@nmul RNum (@nrecip RNum t) (ix (p_epsilon_k p) 0)))
    = J2 X t rho a b 0 0.
  Proof.
    intros La. cbv zeta. rewrite nmin2, d_pair_integral_R.
    change (@ix RNum (p_epsilon_k p) 0) with (Ep X 0). rewrite <- Eij000. unfold J2.
    eapply eq_trans; [ | eapply eq_trans; [apply (pair_integral_R a b (m2 X 0 0) (Eta X t rho) (/ t * Eij0 X 0 0) La) | ]].
    - rewrite frac2_R, frac1_R. unfold q12, q1. rn. f_equal. unfold Rdiv. ring.
    - apply Sum_ext. intros l _. unfold Rdiv. ring.
  Qed.
  Lemma pure_J3 c : (length c <= 5)%nat ->
    (let mm := @nmin RNum (@ix RNum (p_m p) 0) (@nlit RNum 2) in
     let m1 := ((mm - $1) / mm)%num in
     @d_triplet_integral_ijk RNum m1 (m1 * (mm - $2) / mm)%num (Eta X t rho) c)
    = J3 X t rho c 0 0 0.
  Proof.
    intros La. cbv zeta. rewrite nmin3, d_triplet_integral_R. unfold J3.
    eapply eq_trans; [ | apply (triplet_integral_R c (m3 X 0 0 0) (Eta X t rho) La)].
    rewrite frac2_R, frac1_R. unfold q12, q1. rn. f_equal. unfold Rdiv. ring.
  Qed.
  Let s0p : 0 < Sg X 0.
  Proof. apply Hph; auto. Qed.
  Theorem phi_pure_dipole_spec : @phi_pure_dipole RNum p t r0 = f_dd X t rho.
  Proof.
    unfold phi_pure_dipole. rewrite pure_eta_spec. cbv zeta.
    pose proof (pure_J2 AD BD ltac:(cbn; lia)) as E2. pose proof (pure_J3 CD ltac:(cbn; lia)) as E3.
    cbv zeta in E2, E3. rewrite E2, E3. rewrite d_pade_R.
    unfold f_dd, dd2, dd3. rewrite NX1, !Sum1, Sij_diag. change (rho 0) with r0. unfold Wi.
    change (@ix RNum (p_sigma p) 0) with (Sg X 0). change (@ix RNum (p_epsilon_k p) 0) with (Ep X 0).
    change (@ix RNum (p_mu2 p) 0) with (Mu2 X 0). unfold pi_sq_43, frac_pi_3.
    set (j2 := J2 X t rho AD BD 0 0). set (j3 := J3 X t rho CD 0 0 0).
    pose proof (ps_t _ _ _ _ PS).
    f_equal; rn; field; lra.
  Qed.
  Theorem phi_pure_quadrupole_spec : @phi_pure_quadrupole RNum p t r0 = f_qq X t rho.
  Proof.
    unfold phi_pure_quadrupole. rewrite pure_eta_spec. cbv zeta.
    pose proof (pure_J2 AQ BQ ltac:(cbn; lia)) as E2. pose proof (pure_J3 CQ ltac:(cbn; lia)) as E3.
    cbv zeta in E2, E3. rewrite E2, E3. rewrite d_pade_R.
    unfold f_qq, qq2, qq3. rewrite NX1, !Sum1, Sij_diag. change (rho 0) with r0. unfold Wi.
    change (@ix RNum (p_sigma p) 0) with (Sg X 0). change (@ix RNum (p_epsilon_k p) 0) with (Ep X 0).
    change (@ix RNum (p_q2 p) 0) with (Qu2 X 0).
    set (j2 := J2 X t rho AQ BQ 0 0). set (j3 := J3 X t rho CQ 0 0 0).
    pose proof (ps_t _ _ _ _ PS).
    f_equal; rn; field; lra.
  Qed.
  Theorem phi_pure_att_spec dim : phi_pure_att p t (bulk_wd (att_weight_functions psi_dft p t) dim rl)
    = f_disp X t rho + (if Nat.ltb 0 (p_ndipole p) then f_dd X t rho else 0)
      + (if Nat.ltb 0 (p_nquadpole p) then f_qq X t rho else 0).
  Proof.
    unfold rl, s. rewrite (att_wd p W Hph t v moles PS) by (unfold psi_dft; rn; lra). fold s rl.
    unfold phi_pure_att. rewrite Er0, phi_pure_disp_spec, phi_pure_dipole_spec, phi_pure_quadrupole_spec.
    destruct (Nat.ltb 0 (p_ndipole p)), (Nat.ltb 0 (p_nquadpole p)); rn; ring.
  Qed.
End Pure.
