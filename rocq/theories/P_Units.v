(** C54: corresponding states.  The residual Helmholtz energy does not depend on the units of length and energy. *)
From Coq Require Import ZArith QArith Reals Lra Lia String List Bool Psatz FunctionalExtensionality.
From Interval Require Import Tactic.
From Verif Require Import Num RNum RSum Tables M_Params F_Params M_Eos Spec F_Spec F_SpecPolar
  F_SpecAssoc F_Contrib F_Total Samples P_Params F_Gauss F_Limit P_Limit F_Cross P_Assoc2 P_Converge.
Import ListNotations.
Local Open Scope R_scope.
Set Bullet Behavior "Strict Subproofs".
Notation length := List.length.

(** lengths in units smaller by c, energies in units smaller by e *)
Definition scaled (c e : R) (X : mixture) : mixture :=
  mkMix (N X) (M X) (fun i => c * Sg X i) (fun i => e * Ep X i) (Mu2 X) (Qu2 X) (Kab X) (fun i => e * Eab X i) (Na X) (Nb X) (Kij X).

Section Scale.
  Variables (c e : R) (X : mixture) (T : R) (rho : nat -> R).
  Hypotheses (Hc : 0 < c) (He : 0 < e) (HT : 0 < T).
  Hypothesis HS : forall i, (i < N X)%nat -> 0 < Sg X i.
  Hypothesis HE : forall i, (i < N X)%nat -> 0 < Ep X i.
  Let X' := scaled c e X.
  Let r' := fun i => rho i / c ^ 3.
  Let c3 : c ^ 3 <> 0. Proof. apply pow_nonzero. lra. Qed.

  Lemma sc_Sij i j : Sij X' i j = c * Sij X i j.
  Proof. unfold Sij. cbn [X' scaled Sg]. field. Qed.
  Lemma sc_E0 i j : Eij0 X' i j = e * Eij0 X i j.
  Proof. unfold Eij0. cbn [X' scaled Ep]. replace (e * Ep X i * (e * Ep X j)) with (e ^ 2 * (Ep X i * Ep X j)) by ring. rewrite sqrt_mult_alt by nra. rewrite sqrt_pow2 by lra. reflexivity. Qed.
  Lemma sc_Eij i j : Eij X' i j = e * Eij X i j.
  Proof. unfold Eij. rewrite sc_E0. cbn [X' scaled Kij]. ring. Qed.
  Lemma sc_Di i : Di X' (e * T) i = c * Di X T i.
  Proof. unfold Di. cbn [X' scaled Sg Ep]. replace (-3 * (e * Ep X i) / (e * T)) with (-3 * Ep X i / T) by (field; lra). ring. Qed.
  Lemma sc_Zeta k : Zeta X' (e * T) r' k = c ^ k / c ^ 3 * Zeta X T rho k.
  Proof.
    unfold Zeta. change (N X') with (N X). change (M X') with (M X). rewrite (Sum_ext (N X) _ (fun i => c ^ k / c ^ 3 * (rho i * M X i * Di X T i ^ k))).
    - rewrite rsum_scal. ring.
    - intros i _. rewrite sc_Di, Rpow_mult_distr. unfold r', Rdiv. ring.
  Qed.
  Lemma sc_Eta : Eta X' (e * T) r' = Eta X T rho.
  Proof. unfold Eta. rewrite sc_Zeta. field. lra. Qed.
  Lemma sc_Mbar : Mbar X' r' = Mbar X rho.
  Proof.
    unfold Mbar, Rho. change (N X') with (N X). change (M X') with (M X).
    rewrite (Sum_ext (N X) (fun i => r' i * M X i) (fun i => / c ^ 3 * (rho i * M X i))) by (intros i _; unfold r', Rdiv; ring).
    rewrite (Sum_ext (N X) (fun i => r' i) (fun i => / c ^ 3 * rho i)) by (intros i _; unfold r', Rdiv; ring).
    rewrite !rsum_scal. unfold Rdiv. rewrite Rinv_mult, Rinv_inv. set (a := rsum _ _). set (b := / rsum _ _). clearbody a b. field. lra.
  Qed.
  Lemma sc_hs : f_hs X' (e * T) r' = f_hs X T rho / c ^ 3.
  Proof.
    unfold f_hs. rewrite !sc_Zeta. replace (c ^ 3 / c ^ 3) with 1 by (field; lra). rewrite Rmult_1_l.
    set (z0 := Zeta X T rho 0). set (z1 := Zeta X T rho 1). set (z2 := Zeta X T rho 2). set (z3 := Zeta X T rho 3). clearbody z0 z1 z2 z3.
    set (l := ln (1 - z3)). clearbody l. unfold Rdiv. rewrite ?Rinv_mult. set (a := / z3). set (b := / (1 - z3)). set (p := / PI).
    rewrite <- ?pow_inv. fold a b. set (a2 := / z3 ^ 2) in *. set (b2 := / (1 - z3) ^ 2) in *. clearbody a b p a2 b2. field. lra.
  Qed.
  Lemma sc_G i j : Gij X' (e * T) r' i j = Gij X T rho i j.
  Proof.
    unfold Gij. rewrite !sc_Zeta, !sc_Di. cbv zeta. replace (c ^ 3 / c ^ 3) with 1 by (field; lra). rewrite Rmult_1_l.
    set (z2 := Zeta X T rho 2). set (z3 := Zeta X T rho 3). set (d := Di X T i). set (d' := Di X T j). clearbody z2 z3 d d'.
    replace (c * d * (c * d') / (c * d + c * d')) with (c * (d * d' / (d + d'))).
    - set (D := d * d' / (d + d')). unfold Rdiv. rewrite <- ?pow_inv. set (b := / (1 - z3)). clearbody D b. field. lra.
    - replace (c * d + c * d') with (c * (d + d')) by ring. unfold Rdiv. rewrite Rinv_mult. set (q := / (d + d')). clearbody q. field. lra.
  Qed.
  Lemma sc_hc : f_hc X' (e * T) r' = f_hc X T rho / c ^ 3.
  Proof.
    unfold f_hc. change (N X') with (N X). change (M X') with (M X). rewrite (Sum_ext (N X) _ (fun i => / c ^ 3 * (rho i * (M X i - 1) * ln (Gij X T rho i i)))).
    - rewrite rsum_scal. unfold Rdiv. ring.
    - intros i _. rewrite sc_G. unfold r', Rdiv. ring.
  Qed.
  Lemma sc_mixsum k : mixsum X' (e * T) r' k = mixsum X T rho k / c ^ 3.
  Proof.
    unfold mixsum. change (N X') with (N X). change (M X') with (M X). unfold Rdiv at 2. rewrite <- rsum_scal_r. apply Sum_ext; intros i _. rewrite <- rsum_scal_r. apply Sum_ext; intros j _.
    rewrite sc_Eij, sc_Sij. replace (e * Eij X i j / (e * T)) with (Eij X i j / T) by (field; lra). set (q := (Eij X i j / T) ^ k). clearbody q. unfold r'. field. lra.
  Qed.
  Lemma sc_disp : f_disp X' (e * T) r' = f_disp X T rho / c ^ 3.
  Proof.
    unfold f_disp. rewrite !sc_mixsum. assert (P : forall a b d, power_series X' (e * T) r' a b d = power_series X T rho a b d) by (intros; unfold power_series; rewrite sc_Mbar, sc_Eta; reflexivity).
    assert (E : C1 X' (e * T) r' = C1 X T rho) by (unfold C1; rewrite sc_Mbar, sc_Eta; reflexivity). rewrite !P, E, sc_Mbar. unfold Rdiv. ring.
  Qed.
  (** polar terms *)
  Lemma sc_W k i : Wi X' (e * T) k i = c ^ k * Wi X T k i.
  Proof. unfold Wi. cbn [X' scaled Sg Ep]. rewrite Rpow_mult_distr. field. lra. Qed.
  Lemma sc_J2 a b i j : J2 X' (e * T) r' a b i j = J2 X T rho a b i j.
  Proof. unfold J2. rewrite sc_Eta, sc_E0. replace (e * Eij0 X i j / (e * T)) with (Eij0 X i j / T) by (field; lra). reflexivity. Qed.
  Lemma sc_J3 a i j k : J3 X' (e * T) r' a i j k = J3 X T rho a i j k.
  Proof. unfold J3. rewrite sc_Eta. reflexivity. Qed.
  Lemma sc_J3dq i j k : J3dq X' (e * T) r' i j k = J3dq X T rho i j k.
  Proof. unfold J3dq. rewrite sc_Eta. reflexivity. Qed.
  Lemma sc_out (C x y : R) : x = y * / c ^ 3 -> C * x = C * y / c ^ 3.
  Proof. intros ->. unfold Rdiv. ring. Qed.
  Let Sp i j : (i < N X)%nat -> (j < N X)%nat -> Sij X i j <> 0. Proof. intros Hi Hj. specialize (HS i Hi) as A. specialize (HS j Hj) as B. unfold Sij. lra. Qed.
  Ltac pairs := rewrite <- rsum_scal_r; apply Sum_ext; intros i Hi; rewrite <- rsum_scal_r; apply Sum_ext; intros j Hj.
  Lemma sc_dd2 : dd2 X' (e * T) r' = dd2 X T rho / c ^ 3.
  Proof. unfold dd2. change (N X') with (N X). apply sc_out. pairs. rewrite !sc_W, sc_Sij, sc_J2. cbn [X' scaled Mu2]. unfold r'. field. split; [lra | auto]. Qed.
  Lemma sc_dd3 : dd3 X' (e * T) r' = dd3 X T rho / c ^ 3.
  Proof. unfold dd3. change (N X') with (N X). apply sc_out. pairs. rewrite <- rsum_scal_r. apply Sum_ext; intros k Hk. rewrite !sc_W, !sc_Sij, sc_J3. cbn [X' scaled Mu2]. unfold r'. field. repeat split; auto; lra. Qed.
  Lemma sc_qq2 : qq2_code X' (e * T) r' = qq2_code X T rho / c ^ 3.
  Proof.
    unfold qq2_code. change (N X') with (N X). apply sc_out. pairs. rewrite !sc_W, sc_J2. cbn [X' scaled Qu2 Sg]. unfold r'. assert (H : 0 < Sg X (Nat.min i j)) by (apply HS; lia). field. split; lra.
  Qed.
  Lemma sc_qq3 : qq3 X' (e * T) r' = qq3 X T rho / c ^ 3.
  Proof. unfold qq3. change (N X') with (N X). apply sc_out. pairs. rewrite <- rsum_scal_r. apply Sum_ext; intros k Hk. rewrite !sc_W, !sc_Sij, sc_J3. cbn [X' scaled Qu2]. unfold r'. field. repeat split; auto; lra. Qed.
  Lemma sc_dq2 kd kq : (kd + kq = 8)%nat -> dq2 X' (e * T) r' kd kq = dq2 X T rho kd kq / c ^ 3.
  Proof.
    intros K. unfold dq2. change (N X') with (N X). apply sc_out. pairs. rewrite !sc_W, sc_Sij, sc_J2. cbn [X' scaled Mu2 Qu2].
    transitivity (c ^ kd * c ^ kq * (r' i * r' j * Wi X T kd i * Wi X T kq j / (c * Sij X i j) ^ 5 * Mu2 X i * Qu2 X j * J2 X T rho ADQ BDQ i j)); [unfold Rdiv; ring | ].
    rewrite <- pow_add, K. unfold r'. field. split; [lra | auto].
  Qed.
  Lemma sc_dq3 : dq3 X' (e * T) r' = dq3 X T rho / c ^ 3.
  Proof. unfold dq3. change (N X') with (N X). apply sc_out. pairs. rewrite <- rsum_scal_r. apply Sum_ext; intros k Hk. rewrite !sc_W, !sc_Sij, sc_J3dq. cbn [X' scaled Mu2 Qu2]. unfold r'. field. repeat split; auto; lra. Qed.
  Lemma sc_pade a b : pade2 (a / c ^ 3) (b / c ^ 3) = pade2 a b / c ^ 3.
  Proof. unfold pade2. replace (a / c ^ 3 - b / c ^ 3) with (/ c ^ 3 * (a - b)) by (field; lra). unfold Rdiv. rewrite Rinv_mult, Rinv_inv. set (q := / (a - b)). clearbody q. field. lra. Qed.
  (** association strength times density *)
  Lemma sc_Delta i j : (i < N X)%nat -> (j < N X)%nat -> Delta X' (e * T) r' i j = c ^ 3 * Delta X T rho i j.
  Proof.
    intros Hi Hj. unfold Delta, Kapij. rewrite sc_G, !sc_Sij. cbn [X' scaled Sg Kab Eab].
    replace ((e * Eab X i + e * Eab X j) / 2 / (e * T)) with ((Eab X i + Eab X j) / 2 / T) by (field; lra).
    replace (c * Sg X i * (c * Sg X j)) with (c ^ 2 * (Sg X i * Sg X j)) by ring. rewrite (sqrt_mult_alt (c ^ 2) (Sg X i * Sg X j)) by nra. rewrite sqrt_pow2 by lra.
    replace (c * sqrt (Sg X i * Sg X j) / (c * Sij X i j)) with (sqrt (Sg X i * Sg X j) / Sij X i j) by (field; split; [auto | lra]). ring.
  Qed.
End Scale.

(** the same substance in the new units: dipole moments have the unit (length^3 energy)^(1/2), quadrupole moments
    (length^5 energy)^(1/2) *)
Definition rescale_record (c e : R) (r : pcsaft_record RNum) : pcsaft_record RNum :=
  @mkRec RNum (r_m r) (c * r_sigma r) (e * r_epsilon_k r) (option_map (Rmult (sqrt (c ^ 3 * e))) (r_mu r))
    (option_map (Rmult (sqrt (c ^ 5 * e))) (r_q r)) (r_kappa_ab r) (option_map (Rmult e) (r_epsilon_k_ab r)) (r_na r) (r_nb r)
    (r_viscosity r) (r_diffusion r) (r_thermal r).
Definition rescale (c e : R) (pr : pure_record RNum) : pure_record RNum :=
  @mkPure RNum (pr_id pr) (pr_molarweight pr) (rescale_record c e (pr_model pr)) (pr_ideal_gas pr).

Lemma ix_lists (prs : list (pure_record RNum)) (c e : R) (f g : pcsaft_record RNum -> R) (a : R) : (forall r, f (rescale_record c e r) = a * g r) ->
  forall i, @ix RNum (map f (map pr_model (map (rescale c e) prs))) i = a * @ix RNum (map g (map pr_model prs)) i.
Proof.
  intros H. unfold ix. induction prs as [ | r l IH]; intros i.
  - assert (Z : @n0 RNum = 0) by (rn; lra). destruct i; cbn [map nth]; rewrite Z; symmetry; apply Rmult_0_r.
  - destruct i as [ | i]; cbn [map nth]; [apply H | apply IH].
Qed.
Section C54.
  Variables (prs : list (pure_record RNum)) (bin : list (list R)) (p p' : params RNum).
  Variables (c e : R).
  Hypotheses (Hc : 0 < c) (He : 0 < e).
  Hypothesis Hp : from_records prs bin = Some p.
  Hypothesis Hp' : from_records (map (rescale c e) prs) bin = Some p'.
  Hypothesis Hph : phys p.
  Let W := wfp_from_records _ _ _ Hp.
  Let W' := wfp_from_records _ _ _ Hp'.
  Let n := length prs.

  Lemma p_raw : p = from_records_raw prs bin. Proof. apply (from_records_raw_of _ _ _ Hp). Qed.
  Lemma p'_raw : p' = from_records_raw (map (rescale c e) prs) bin. Proof. apply (from_records_raw_of _ _ _ Hp'). Qed.
  Lemma u_m i : @ix RNum (p_m p') i = @ix RNum (p_m p) i.
  Proof. rewrite p_raw, p'_raw. rewrite <- (Rmult_1_l (@ix RNum (p_m (from_records_raw prs bin)) i)). apply (ix_lists prs c e r_m r_m 1). intros r. symmetry. apply Rmult_1_l. Qed.
  Lemma u_sigma i : @ix RNum (p_sigma p') i = c * @ix RNum (p_sigma p) i.
  Proof. rewrite p_raw, p'_raw. apply (ix_lists prs c e r_sigma r_sigma c). reflexivity. Qed.
  Lemma u_eps i : @ix RNum (p_epsilon_k p') i = e * @ix RNum (p_epsilon_k p) i.
  Proof. rewrite p_raw, p'_raw. apply (ix_lists prs c e r_epsilon_k r_epsilon_k e). reflexivity. Qed.
  Lemma u_mu i : @ix RNum (p_mu p') i = sqrt (c ^ 3 * e) * @ix RNum (p_mu p) i.
  Proof. rewrite p_raw, p'_raw. apply (ix_lists prs c e (fun r => unwrap_or (r_mu r) n0) (fun r => unwrap_or (r_mu r) n0)). intros r. cbn [rescale_record r_mu]. destruct (r_mu r); cbn [option_map unwrap_or]; [reflexivity | ]. replace (@n0 RNum) with 0 by (rn; lra). symmetry. apply Rmult_0_r. Qed.
  Lemma u_q i : @ix RNum (p_q p') i = sqrt (c ^ 5 * e) * @ix RNum (p_q p) i.
  Proof. rewrite p_raw, p'_raw. apply (ix_lists prs c e (fun r => unwrap_or (r_q r) n0) (fun r => unwrap_or (r_q r) n0)). intros r. cbn [rescale_record r_q]. destruct (r_q r); cbn [option_map unwrap_or]; [reflexivity | ]. replace (@n0 RNum) with 0 by (rn; lra). symmetry. apply Rmult_0_r. Qed.
  Lemma u_eab i : @ix RNum (p_epsilon_k_ab p') i = e * @ix RNum (p_epsilon_k_ab p) i.
  Proof. rewrite p_raw, p'_raw. apply (ix_lists prs c e (fun r => unwrap_or (r_epsilon_k_ab r) n0) (fun r => unwrap_or (r_epsilon_k_ab r) n0)). intros r. cbn [rescale_record r_epsilon_k_ab]. destruct (r_epsilon_k_ab r); cbn [option_map unwrap_or]; [reflexivity | ]. replace (@n0 RNum) with 0 by (rn; lra). symmetry. apply Rmult_0_r. Qed.
  Lemma map_same (f : pcsaft_record RNum -> R) : (forall r, f (rescale_record c e r) = f r) -> map f (map pr_model (map (rescale c e) prs)) = map f (map pr_model prs).
  Proof. intros H. rewrite !map_map. apply map_ext. intros r. apply H. Qed.
  Lemma u_kab : p_kappa_ab p' = p_kappa_ab p.
  Proof. rewrite p_raw, p'_raw. apply (map_same (fun r => unwrap_or (r_kappa_ab r) n0)). reflexivity. Qed.
  Lemma u_na : p_na p' = p_na p. Proof. rewrite p_raw, p'_raw. apply (map_same (fun r => unwrap_or (r_na r) n1)). reflexivity. Qed.
  Lemma u_nb : p_nb p' = p_nb p. Proof. rewrite p_raw, p'_raw. apply (map_same (fun r => unwrap_or (r_nb r) n1)). reflexivity. Qed.
  Lemma u_len : length (p_m p') = length (p_m p).
  Proof. rewrite p_raw, p'_raw, !fr_len_m. apply map_length. Qed.
  Lemma moment_scale (a x y b k : R) : 0 < a -> sqrt a * x * (sqrt a * x) / (a * y) * b * k = x * x / y * b * k.
  Proof.
    intros Ha. replace (sqrt a * x * (sqrt a * x)) with (sqrt a * sqrt a * (x * x)) by ring. rewrite sqrt_sqrt by lra. unfold Rdiv. rewrite Rinv_mult. set (q := / y). clearbody q. field. lra.
  Qed.
  Let c3e : 0 < c ^ 3 * e. Proof. apply Rmult_lt_0_compat; auto. apply pow_lt; auto. Qed.
  Let c5e : 0 < c ^ 5 * e. Proof. apply Rmult_lt_0_compat; auto. apply pow_lt; auto. Qed.
  Lemma u_mu2 i : @ix RNum (p_mu2 p') i = @ix RNum (p_mu2 p) i.
  Proof.
    destruct (lt_dec i n) as [Hi | Hi].
    - pose proof (u_mu i) as A. pose proof (u_m i) as B. pose proof (u_sigma i) as C. pose proof (u_eps i) as D. revert A B C D. rewrite p_raw, p'_raw. intros A B C D.
      rewrite !fr_mu2 by (rewrite ?map_length; auto). rewrite A, B, C, D. unfold mu2_of. rn.
      match goal with |- ?n / ?d * _ * _ = _ / (?x1 * ?x2 * ?x3 * ?x4 * ?x5) * _ * _ => replace d with ((c ^ 3 * e) * (x1 * x2 * x3 * x4 * x5)) by ring end. apply moment_scale. exact c3e.
    - unfold ix. rewrite !nth_overflow; auto; rewrite ?p_raw, ?p'_raw, ?fr_len_mu2, ?map_length; unfold n in *; lia.
  Qed.
  Lemma u_q2 i : @ix RNum (p_q2 p') i = @ix RNum (p_q2 p) i.
  Proof.
    destruct (lt_dec i n) as [Hi | Hi].
    - pose proof (u_q i) as A. pose proof (u_m i) as B. pose proof (u_sigma i) as C. pose proof (u_eps i) as D. revert A B C D. rewrite p_raw, p'_raw. intros A B C D.
      rewrite !fr_q2 by (rewrite ?map_length; auto). rewrite A, B, C, D. unfold q2_of. rn.
      match goal with |- ?n / ?d * _ * _ = _ / (?x1 * ?x2 * ?x3) * _ * _ => replace d with ((c ^ 5 * e) * (x1 * x2 * x3)) by ring end. apply moment_scale. exact c5e.
    - unfold ix. rewrite !nth_overflow; auto; rewrite ?p_raw, ?p'_raw, ?fr_len_q2, ?map_length; unfold n in *; lia.
  Qed.
  Lemma mix_scaled : mix_of p' = scaled c e (mix_of p).
  Proof.
    unfold mix_of, scaled. cbn [N M Sg Ep Mu2 Qu2 Kab Eab Na Nb Kij]. rewrite u_len, u_kab, u_na, u_nb. f_equal; try (apply functional_extensionality; intros i).
    - apply u_m.
    - apply u_sigma.
    - apply u_eps.
    - apply u_mu2.
    - apply u_q2.
    - apply u_eab.
    - rewrite p_raw, p'_raw. reflexivity.
  Qed.

  (** the same state in the new units *)
  Variables (t v : R) (moles : list R).
  Hypothesis PS : phys_state p t v moles.
  Let st := @state_new RNum t v moles.
  Let st' := @state_new RNum (e * t) (c ^ 3 * v) moles.
  Let X := mix_of p.
  Let rho := fun i => nth i moles 0 / v.
  Let Ht : 0 < t := ps_t _ _ _ _ PS.
  Let Hv : 0 < v := ps_v _ _ _ _ PS.
  Let Hc3 : 0 < c ^ 3. Proof. apply pow_lt; auto. Qed.
  Let HS : forall i, (i < N X)%nat -> 0 < Sg X i. Proof. intros i Hi. destruct (Hph i Hi) as (_ & A & _). exact A. Qed.
  Lemma phys' : phys p'.
  Proof.
    intros i Hi. rewrite u_len in Hi. destruct (Hph i Hi) as (A & B & C). rewrite u_m, u_sigma, u_eps. split; [exact A | ]. split; apply Rmult_lt_0_compat; auto.
  Qed.
  Lemma rho' : (fun i => nth i moles 0 / (c ^ 3 * v)) = (fun i => rho i / c ^ 3).
  Proof. apply functional_extensionality. intros i. unfold rho. field. split; [ | pose proof Hc]; lra. Qed.
  Lemma PS' : phys_state p' (e * t) (c ^ 3 * v) moles.
  Proof.
    pose proof PS as PS0. destruct PS0 as [A B C D F G]. constructor; rewrite ?u_len; auto.
    - apply Rmult_lt_0_compat; auto.
    - apply Rmult_lt_0_compat; auto.
    - rewrite rho', mix_scaled. rewrite (sc_Eta c e (mix_of p) t rho Hc He Ht). exact G.
  Qed.
  Lemma back (x : R) : c ^ 3 * v * (x / c ^ 3) = v * x. Proof. field. lra. Qed.
  Ltac units H H' := unfold st, st'; rewrite H, H', rho', mix_scaled; fold rho X.
  Theorem C54_hard_sphere : a_hs p' st' = a_hs p st.
  Proof. units (hs_textbook p W Hph t v moles PS) (hs_textbook p' W' phys' (e * t) (c ^ 3 * v) moles PS'). rewrite (sc_hs c e X t rho Hc He Ht). apply back. Qed.
  Theorem C54_hard_chain : a_hc p' st' = a_hc p st.
  Proof. units (hc_textbook p W Hph t v moles PS) (hc_textbook p' W' phys' (e * t) (c ^ 3 * v) moles PS'). rewrite (sc_hc c e X t rho Hc He Ht). apply back. Qed.
  Theorem C54_dispersion : a_disp p' st' = a_disp p st.
  Proof. units (disp_textbook p W t v moles PS) (disp_textbook p' W' (e * t) (c ^ 3 * v) moles PS'). rewrite (sc_disp c e X t rho Hc He Ht). apply back. Qed.
  Theorem C54_dipole : a_dipole p' st' = a_dipole p st.
  Proof.
    units (dipole_textbook p W Hph t v moles PS) (dipole_textbook p' W' phys' (e * t) (c ^ 3 * v) moles PS'). unfold f_dd.
    rewrite (sc_dd2 c e X t rho Hc He Ht HS), (sc_dd3 c e X t rho Hc He Ht HS), sc_pade by auto. apply back.
  Qed.
  Theorem C54_quadrupole : a_quadrupole p' st' = a_quadrupole p st.
  Proof.
    units (quadrupole_code p W Hph t v moles PS) (quadrupole_code p' W' phys' (e * t) (c ^ 3 * v) moles PS').
    rewrite (sc_qq2 c e X t rho Hc He Ht HS), (sc_qq3 c e X t rho Hc He Ht HS), sc_pade by auto. apply back.
  Qed.
  Theorem C54_dipole_quadrupole var : a_dq p' var st' = a_dq p var st.
  Proof.
    units (dq_textbook p W Hph t v moles PS var) (dq_textbook p' W' phys' (e * t) (c ^ 3 * v) moles PS' var). unfold f_dq.
    rewrite (sc_dq2 c e X t rho Hc He Ht HS) by (destruct var; reflexivity). rewrite (sc_dq3 c e X t rho Hc He Ht HS), sc_pade by auto. apply back.
  Qed.
  Lemma u_comp : p_assoc_comp p' = p_assoc_comp p.
  Proof. rewrite (w_ass _ W), (w_ass _ W'), u_kab, u_len. reflexivity. Qed.
  Theorem C54_association a : p_assoc_comp p = [a] -> a_assoc p' st' = a_assoc p st.
  Proof.
    intros Ha. assert (Ha' : p_assoc_comp p' = [a]) by (rewrite u_comp; exact Ha).
    assert (La : (a < length (p_m p))%nat).
    { assert (E : In a (p_assoc_comp p)) by (rewrite Ha; left; reflexivity). rewrite (w_ass _ W) in E. apply filter_In in E. destruct E as [E _]. apply in_seq in E. lia. }
    unfold a_assoc. rewrite Ha, Ha'. change (ixn [a] 0) with a. cbv zeta.
    change (s_t st') with (e * t). change (s_t st) with t. unfold st, st'.
    rewrite (assoc_deltarho p W Hph t v moles PS a Ha), (assoc_deltarho p' W' phys' (e * t) (c ^ 3 * v) moles PS' a Ha').
    rewrite mix_scaled, rho'. rewrite (sc_Delta c e (mix_of p) t rho Hc He Ht HS a a La La). rewrite u_na, u_nb.
    change (s_moles (@state_new RNum (e * t) (c ^ 3 * v) moles)) with (s_moles (@state_new RNum t v moles)).
    replace (c ^ 3 * Delta (mix_of p) t rho a a * (nth a moles 0 / (c ^ 3 * v))) with (Delta (mix_of p) t rho a a * (nth a moles 0 / v)) by (field; split; [lra | pose proof Hc; lra]).
    reflexivity.
  Qed.
  (** Law of corresponding states: same reduced residual Helmholtz energy. *)
  Theorem C54_residual lu o : (p_nassoc p <= 1)%nat ->
    residual lu (with_options p' o) st' = residual lu (with_options p o) st.
  Proof.
    intros H1. rewrite !residual_total.
    assert (A : assoc_term lu o p' st' = assoc_term lu o p st).
    { unfold assoc_term. rewrite (w_na _ W), (w_na _ W'), u_comp. rewrite (w_na _ W) in H1.
      destruct (p_assoc_comp p) as [ | a [ | b l]] eqn:E; cbn [List.length]; [reflexivity | rewrite (C54_association a E); reflexivity | cbn in H1; lia]. }
    rewrite A, C54_hard_sphere, C54_hard_chain, C54_dispersion, C54_dipole, C54_quadrupole, C54_dipole_quadrupole. reflexivity.
  Qed.
  (** the largest density handed to the solvers is a density in the new units *)
  Theorem C54_max_density o : @compute_max_density RNum (with_options p' o) moles = @compute_max_density RNum (with_options p o) moles / c ^ 3.
  Proof.
    unfold compute_max_density, with_options. cbn [e_params e_options]. rewrite u_len, !nsumi_R. rn.
    match goal with |- _ / ?a = _ / ?b / _ => replace a with (c ^ 3 * b) end.
    - unfold Rdiv. rewrite Rinv_mult. match goal with |- ?x * (?y * ?z) = _ => set (Z := z) end. clearbody Z. field. lra.
    - rewrite <- rsum_scal. apply Sum_ext. intros i _. rewrite u_m, u_sigma. ring.
  Qed.
End C54.

(** dimethyl ether + carbon dioxide + water: lengths in units ten times smaller (picometres times ten, say), energies in
    units of 1/8.314 *)
Example C54_case : exists p', from_records (map (rescale 10 8.314) sample_prs) sample_bin = Some p' /\
  residual (fun _ _ => None) (with_options p' default_options) (@state_new RNum (8.314 * 350) (10 ^ 3 * 1000) [1; 2; 3])
  = residual (fun _ _ => None) (with_options sample default_options) (@state_new RNum 350 1000 [1; 2; 3]).
Proof.
  eexists. split; [reflexivity | ]. apply (C54_residual sample_prs sample_bin sample _ 10 8.314); try lra.
  - exact sample_ok.
  - reflexivity.
  - exact sample_phys.
  - exact sample_state.
  - change (p_nassoc sample) with (length (p_assoc_comp sample)). rewrite (proj2 (proj2 C17_case)). cbn. lia.
Qed.

(** Several associating components: below a number density of 2.2e-16 the code returns no association energy, and that
    number depends on the units.  Water and a copy of it at liquid-like density, with lengths in units a million times
    smaller: the association energy disappears. *)
Lemma cross_dilute lu it tol p t v moles : 0 < v -> rsum moles (fun x => x) * 2 ^ 52 < v ->
  a_cross_assoc lu it tol p (@state_new RNum t v moles) = Some 0.
Proof.
  intros Hv H. unfold a_cross_assoc, cross_association.
  replace (@nltb RNum (nsum (s_rho (@state_new RNum t v moles))) f_eps) with true.
  - cbn. f_equal. rn. ring.
  - symmetry. change (@nltb RNum) with Rltb. apply Rltb_true. rewrite f_eps_R, nsum_R.
    change (s_rho (@state_new RNum t v moles)) with (map (fun n : R => n / v) moles). rewrite rsum_map. unfold Rdiv. rewrite rsum_scal_r.
    apply Rmult_lt_reg_r with v; auto. rewrite Rmult_assoc, Rinv_l, Rmult_1_r by lra. lra.
Qed.
Lemma ww_energy a : close_to_law ww 350 1000 [1; 1] (tol_error ww 1000 [1; 1] (/ 10 ^ 10)) a -> a < 0.
Proof.
  intros H. pose proof (ww_Delta_bounds 1000 ltac:(lra)) as HD. unfold close_to_law in H. cbv zeta in H.
  set (rho := fun i => nth i [1; 1] 0 / 1000) in *. set (D := Delta (mix_of ww) 350 rho 0 0) in *.
  set (d := D / 1000). assert (Pd : / 1000 < d < 10) by (unfold d; lra). assert (Dd : 2 * D / 1000 = 2 * d) by (unfold d; field).
  set (x := (sqrt (1 + 8 * d) - 1) / (4 * d)).
  assert (S0 : sqrt (1 + 8 * d) * sqrt (1 + 8 * d) = 1 + 8 * d) by (apply sqrt_sqrt; lra).
  assert (S1 : 1 < sqrt (1 + 8 * d)) by (rewrite <- sqrt_1 at 1; apply sqrt_lt_1_alt; lra).
  assert (Ex : x * (1 + 2 * d * x) = 1).
  { unfold x. set (q := sqrt (1 + 8 * d)) in *. clearbody q. replace ((q - 1) / (4 * d) * (1 + 2 * d * ((q - 1) / (4 * d)))) with ((q * q - 1) / (8 * d)) by (field; lra). rewrite S0. field. lra. }
  assert (Px : 0 < x) by (apply Rdiv_lt_0_compat; lra). clearbody x d. 
  assert (Lx : x <= 999 / 1000) by (destruct (Rle_lt_dec x (999 / 1000)); auto; exfalso; assert (0 < d * (x * x)) by (apply Rmult_lt_0_compat; nra); nra).
  specialize (H (fun _ => x) (fun _ => x)).
  assert (MA : mass_action (mix_of ww) 350 rho (fun _ => x) (fun _ => x)).
  { intros i Hi. 
    assert (E12 : (Sum j < N (mix_of ww), rho j * Nb (mix_of ww) j * Delta (mix_of ww) 350 rho i j) = 2 * D / 1000 /\
      (Sum j < N (mix_of ww), rho j * Na (mix_of ww) j * Delta (mix_of ww) 350 rho i j) = 2 * D / 1000) by exact (ww_bonds 1000 i ltac:(lra) Hi).
    destruct E12 as [E1 E2]. split.
    - rewrite (Sum_ext _ _ (fun j => x * (rho j * Nb (mix_of ww) j * Delta (mix_of ww) 350 rho i j))) by (intros; ring). rewrite rsum_scal, E1, Dd. transitivity (x * (1 + 2 * d * x)); [ring | exact Ex].
    - rewrite (Sum_ext _ _ (fun j => x * (rho j * Na (mix_of ww) j * Delta (mix_of ww) 350 rho i j))) by (intros; ring). rewrite rsum_scal, E2, Dd. transitivity (x * (1 + 2 * d * x)); [ring | exact Ex]. }
  specialize (H MA ltac:(intros; lra)).
  assert (F : fx x <= - / 2000).
  { unfold fx. pose proof (exp_ineq1_le (ln x)) as L. rewrite exp_ln in L by auto. lra. }
  assert (V : 1000 * f_assoc_xx (mix_of ww) rho (fun _ => x) (fun _ => x) = 4 * fx x).
  { unfold f_assoc_xx. cbn [N mix_of]. change (length (p_m ww)) with 2%nat. cbn [rsum seq]. change (Na (mix_of ww) 0) with 1. change (Na (mix_of ww) 1) with 1.
    change (Nb (mix_of ww) 0) with 1. change (Nb (mix_of ww) 1) with 1. unfold rho. cbn [nth]. field. }
  rewrite V in H.
  assert (Er : tol_error ww 1000 [1; 1] (/ 10 ^ 10) < / 1000).
  { unfold tol_error. change (N (mix_of ww)) with 2%nat. cbn [rsum seq nth]. change (Na (mix_of ww) 0) with 1. change (Na (mix_of ww) 1) with 1.
    change (Nb (mix_of ww) 0) with 1. change (Nb (mix_of ww) 1) with 1. interval. }
  match type of H with Rabs ?y <= _ => pose proof (Rle_abs y) end. lra.
Qed.
Theorem C54_several_refuted : exists prs bin p p' c e t v moles r r', 0 < c /\ 0 < e /\
  from_records prs bin = Some p /\ from_records (map (rescale c e) prs) bin = Some p' /\ phys p /\ assoc_phys p /\ phys_state p t v moles /\
  residual gauss_lu (with_options p (@mkOptions RNum 0.5 50 (/ 10 ^ 10) DQ35)) (@state_new RNum t v moles) = Some r /\
  residual gauss_lu (with_options p' (@mkOptions RNum 0.5 50 (/ 10 ^ 10) DQ35)) (@state_new RNum (e * t) (c ^ 3 * v) moles) = Some r' /\ r < r'.
Proof.
  destruct C13_equal_case as (a & Ea & Ca). apply ww_energy in Ca.
  set (prs := [pr_water; pr_water]). set (p' := from_records_raw (map (rescale (10 ^ 6) 1) prs) (zeros 2)).
  assert (Hp' : from_records (map (rescale (10 ^ 6) 1) prs) (zeros 2) = Some p') by reflexivity.
  assert (PS : phys_state ww 350 1000 [1; 1]) by (apply ww_state; lra).
  assert (c0 : 0 < 10 ^ 6) by lra. assert (e0 : 0 < 1) by lra.
  exists prs, (zeros 2), ww, p', (10 ^ 6), 1, 350, 1000, [1; 1].
  do 2 eexists. split; [exact c0 | ]. split; [exact e0 | ]. split; [exact ww_ok | ]. split; [exact Hp' | ]. split; [exact ww_phys | ]. split; [exact ww_assoc | ]. split; [exact PS | ].
  rewrite !residual_total. set (o := @mkOptions RNum 0.5 50 (/ 10 ^ 10) DQ35).
  assert (A1 : assoc_term gauss_lu o ww (@state_new RNum 350 1000 [1; 1]) = Some a) by (unfold assoc_term; rewrite ww_nassoc; exact Ea).
  assert (N' : p_nassoc p' = 2%nat).
  { rewrite (w_na _ (wfp_from_records _ _ _ Hp')), (u_comp prs (zeros 2) ww p' (10 ^ 6) 1 ww_ok Hp'), ww_comp. reflexivity. }
  assert (A2 : assoc_term gauss_lu o p' (@state_new RNum (1 * 350) ((10 ^ 6) ^ 3 * 1000) [1; 1]) = Some 0).
  { unfold assoc_term. rewrite N'. apply cross_dilute; [lra | ]. cbn [rsum]. lra. }
  rewrite A1, A2. split; [reflexivity | ]. split; [reflexivity | ].
  rewrite (C54_hard_sphere prs (zeros 2) ww p' (10 ^ 6) 1 c0 e0 ww_ok Hp' ww_phys 350 1000 [1; 1] PS), (C54_hard_chain prs (zeros 2) ww p' (10 ^ 6) 1 c0 e0 ww_ok Hp' ww_phys 350 1000 [1; 1] PS),
    (C54_dispersion prs (zeros 2) ww p' (10 ^ 6) 1 c0 e0 ww_ok Hp' 350 1000 [1; 1] PS), (C54_dipole prs (zeros 2) ww p' (10 ^ 6) 1 c0 e0 ww_ok Hp' ww_phys 350 1000 [1; 1] PS),
    (C54_quadrupole prs (zeros 2) ww p' (10 ^ 6) 1 c0 e0 ww_ok Hp' ww_phys 350 1000 [1; 1] PS), (C54_dipole_quadrupole prs (zeros 2) ww p' (10 ^ 6) 1 c0 e0 ww_ok Hp' ww_phys 350 1000 [1; 1] PS).
  apply Rplus_lt_compat_l. exact Ca.
Qed.
Print Assumptions C54_residual.
Print Assumptions C54_max_density.
Print Assumptions C54_several_refuted.
