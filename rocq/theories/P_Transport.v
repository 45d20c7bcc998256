(** C24-C28, C34: transport references and correlations, QSPR ideal gas. *)
From Coq Require Import ZArith QArith Reals Lra Lia List Bool Permutation Sorted ClassicalDescription.
From Interval Require Import Tactic.
From Verif Require Import Num Tables RNum RSum M_Params F_Params M_Eos M_Transport Spec F_Spec F_Contrib F_Lump F_Lump2 Samples F_Total P_Params P_Select.
Import ListNotations.
Local Open Scope R_scope.

(* ------------------------------------------------------------------------------ C24/C25 *)

Section C24.
  Variables (prs : list (pure_record RNum)) (bin : list (list R)) (p : params RNum) (o : options RNum).
  Hypothesis Hp : from_records prs bin = Some p.
  Notation e := (with_options p o).

  Lemma comps : components e = length prs.
  Proof. rewrite (from_records_raw_of _ _ _ Hp). reflexivity. Qed.
  Lemma len_m : length (p_m p) = length prs.
  Proof. rewrite (from_records_raw_of _ _ _ Hp). cbn. rewrite !map_length. reflexivity. Qed.

  (** without coefficients for every component there is no value *)
  Theorem C24_viscosity_panics s_res x :
    viscosity_correlation e s_res x = @TPanic RNum <-> exists pr, In pr prs /\ r_viscosity (pr_model pr) = None.
  Proof.
    destruct (C24_coefficients_available _ _ _ Hp) as ((A & _) & _). rewrite <- A.
    unfold viscosity_correlation. cbn [with_options e_params]. destruct (p_viscosity p); split; intros; congruence.
  Qed.
  Theorem C24_pure_correlations_panic s_res x : length prs = 1%nat ->
    (diffusion_correlation e s_res x = @TPanic RNum <-> exists pr, In pr prs /\ r_diffusion (pr_model pr) = None) /\
    (thermal_conductivity_correlation e s_res x = @TPanic RNum <-> exists pr, In pr prs /\ r_thermal (pr_model pr) = None).
  Proof.
    intros H1. destruct (C24_coefficients_available _ _ _ Hp) as (_ & (A & _) & (B & _)). rewrite <- A, <- B.
    unfold diffusion_correlation, thermal_conductivity_correlation. rewrite comps, H1. cbn [Nat.eqb negb with_options e_params].
    split; [destruct (p_diffusion p) | destruct (p_thermal p)]; split; intros; congruence.
  Qed.

  (** the restriction to pure components precedes everything else *)
  Theorem C25_mixtures_rejected entropy t v moles s_res x : length prs <> 1%nat ->
    diffusion_reference e t v moles = TErr (IncompatibleComponents (length prs) 1) /\
    diffusion_correlation e s_res x = @TErr RNum (IncompatibleComponents (length prs) 1) /\
    thermal_conductivity_reference entropy e t v moles = TErr (IncompatibleComponents (length prs) 1) /\
    thermal_conductivity_correlation e s_res x = @TErr RNum (IncompatibleComponents (length prs) 1).
  Proof.
    intros H. unfold diffusion_reference, diffusion_correlation, thermal_conductivity_reference, thermal_conductivity_correlation.
    rewrite comps. apply Nat.eqb_neq in H. rewrite H. auto.
  Qed.
  (** and applies to nothing else *)
  Theorem C25_pure_accepted entropy t v moles s_res x n m : length prs = 1%nat ->
    diffusion_reference e t v moles <> TErr (IncompatibleComponents n m) /\
    diffusion_correlation e s_res x <> @TErr RNum (IncompatibleComponents n m) /\
    thermal_conductivity_reference entropy e t v moles <> TErr (IncompatibleComponents n m) /\
    thermal_conductivity_correlation e s_res x <> @TErr RNum (IncompatibleComponents n m) /\
    viscosity_reference e t v moles <> TErr (IncompatibleComponents n m).
  Proof.
    intros H. unfold diffusion_reference, diffusion_correlation, thermal_conductivity_reference, thermal_conductivity_correlation.
    rewrite comps, H. cbn [Nat.eqb negb with_options e_params]. split; [discriminate | ].
    split; [destruct (p_diffusion p); discriminate | ].
    split; [destruct (entropy _ _ _ _); discriminate | ]. split; [destruct (p_thermal p); discriminate | discriminate].
  Qed.
End C24.

(** the correlation polynomials of a pure component *)
Definition viscosity_polynomial (c : R * R * R * R) (s : R) : R :=
  let '(a, b, c, d) := c in a + b * s + c * s ^ 2 + d * s ^ 3.
Definition diffusion_polynomial (c : R * R * R * R * R) (s : R) : R :=
  let '(a, b, c, d, e) := c in a + b * s - c * (1 - exp s) * s ^ 2 - d * s ^ 4 - e * s ^ 8.
Definition thermal_polynomial (c : R * R * R * R) (s : R) : R :=
  let '(a, b, c, d) := c in a + b * s + c * (1 - exp s) + d * s ^ 2.

Section PureCorrelation.
  Variables (pr : pure_record RNum) (bin : list (list R)) (p : params RNum) (o : options RNum).
  Hypothesis Hp : from_records [pr] bin = Some p.
  Hypothesis Hm : 0 < r_m (pr_model pr).
  Notation e := (with_options p o).
  Notation m := (r_m (pr_model pr)).
  (** coefficients of the record are applied to the residual entropy per segment *)
  Theorem C24_pure_correlations s_res :
    (forall c, r_viscosity (pr_model pr) = Some c ->
       viscosity_correlation e s_res [1] = @TOk RNum (viscosity_polynomial c (s_res / m))) /\
    (forall c, r_diffusion (pr_model pr) = Some c ->
       diffusion_correlation e s_res [1] = @TOk RNum (diffusion_polynomial c (s_res / m))) /\
    (forall c, r_thermal (pr_model pr) = Some c ->
       thermal_conductivity_correlation e s_res [1] = @TOk RNum (thermal_polynomial c (s_res / m))).
  Proof.
    rewrite (from_records_raw_of _ _ _ Hp). split; [ | split].
    - intros [[[a b] c] d] E. unfold viscosity_correlation. cbn [with_options e_params p_viscosity from_records_raw p_m map length].
      unfold coeff_matrix. cbn [map]. rewrite E. cbn. f_equal. field. lra.
    - intros [[[[a b] c] d] f] E. unfold diffusion_correlation. cbn [with_options e_params components p_pure_records p_diffusion from_records_raw p_m map length Nat.eqb negb].
      unfold coeff_matrix. cbn [map]. rewrite E. cbn. f_equal.
      replace (s_res / (0 + 1 * m)) with (s_res / m) by (field; lra). toR. field. lra.
    - intros [[[a b] c] d] E. unfold thermal_conductivity_correlation. cbn [with_options e_params components p_pure_records p_thermal from_records_raw p_m map length Nat.eqb negb].
      unfold coeff_matrix. cbn [map]. rewrite E. cbn. f_equal.
      replace (s_res / (0 + 1 * m)) with (s_res / m) by (field; lra). toR. field. lra.
  Qed.
End PureCorrelation.

(* ---------------------------------------------------------------------------------- C27 *)

(** collision integrals of Neufeld, Janzen and Aziz *)
Definition Omega11 (t : R) : R :=
  1.06036 * Rpower t (- 0.15610) + 0.19300 * exp (- 0.47635 * t) + 1.03587 * exp (- 1.52996 * t) + 1.76474 * exp (- 3.89411 * t).
Definition Omega22 (t : R) : R :=
  1.16145 * Rpower t (- 0.14874) + 0.52487 * exp (- 0.77320 * t) + 2.16178 * exp (- 2.43787 * t)
  - 0.0006435 * Rpower t 0.14874 * sin (18.0323 * Rpower t (- 0.76830) - 7.27371).

Lemma omega11_R t : 0 < t -> @omega11 RNum t = Omega11 t.
Proof.
  intros Ht. unfold omega11, Omega11. rn. unfold Rpowf. destruct (Rlt_dec 0 t); [ | lra].
  reflexivity.
Qed.
Lemma omega22_R t : 0 < t -> @omega22 RNum t = Omega22 t.
Proof.
  intros Ht. unfold omega22, Omega22. rn. unfold Rpowf. destruct (Rlt_dec 0 t); [ | lra]. lits.
  reflexivity.
Qed.

Theorem C27_omega11_positive t : 0 < t -> 0 < @omega11 RNum t.
Proof.
  intros Ht. rewrite omega11_R by auto. unfold Omega11, Rpower.
  pose proof (exp_pos (- 0.15610 * ln t)). pose proof (exp_pos (- 0.47635 * t)). pose proof (exp_pos (- 1.52996 * t)). pose proof (exp_pos (- 3.89411 * t)). lra.
Qed.
Theorem C27_omega11_decreasing t t' : 0 < t < t' -> @omega11 RNum t' < @omega11 RNum t.
Proof.
  intros Ht. rewrite !omega11_R by lra. unfold Omega11, Rpower.
  assert (ln t < ln t') by (apply ln_increasing; lra).
  assert (exp (- 0.15610 * ln t') < exp (- 0.15610 * ln t)) by (apply exp_increasing; lra).
  assert (exp (- 0.47635 * t') < exp (- 0.47635 * t)) by (apply exp_increasing; lra).
  assert (exp (- 1.52996 * t') < exp (- 1.52996 * t)) by (apply exp_increasing; lra).
  assert (exp (- 3.89411 * t') < exp (- 3.89411 * t)) by (apply exp_increasing; lra). lra.
Qed.

(** positive at every temperature: below 1e9 the correction term is dominated by the first term,
    above it has a negative sine *)
Theorem C27_omega22_positive t : 0 < t -> 0 < @omega22 RNum t.
Proof.
  intros Ht. rewrite omega22_R by auto. unfold Omega22, Rpower.
  pose proof (exp_pos (- 0.14874 * ln t)) as P1. pose proof (exp_pos (- 0.77320 * t)). pose proof (exp_pos (- 2.43787 * t)).
  pose proof (exp_pos (0.14874 * ln t)) as P2.
  destruct (Rle_lt_dec t 1e9) as [Hs | Hl].
  - assert (Hl : ln t <= 21) by (destruct (Req_dec t 1e9) as [-> | ]; [ interval | apply Rle_trans with (ln 1e9); [left; apply ln_increasing; lra | interval]]).
    assert (E : exp (0.14874 * ln t) <= 600 * exp (- 0.14874 * ln t)).
    { apply Rmult_le_reg_r with (exp (0.14874 * ln t)); auto. rewrite Rmult_assoc, <- !exp_plus.
      replace (- 0.14874 * ln t + 0.14874 * ln t) with 0 by lra. rewrite exp_0.
      apply Rle_trans with (exp (0.29748 * 21)); [ | interval].
      destruct (Req_dec (ln t) 21) as [-> | ]; [right; f_equal; lra | left; apply exp_increasing; lra]. }
    pose proof (SIN_bound (18.0323 * exp (- 0.76830 * ln t) - 7.27371)) as [_ S]. nra.
  - assert (Hl' : 20 <= ln t) by (apply Rle_trans with (ln 1e9); [interval | left; apply ln_increasing; lra]).
    assert (E : 0 < exp (- 0.76830 * ln t) <= exp (- 15)).
    { split; [apply exp_pos | ]. left. apply exp_increasing. lra. }
    set (z := exp (- 0.76830 * ln t)) in *.
    assert (sin (18.0323 * z - 7.27371) < 0).
    { assert (Ez : exp (-15) <= 1e-6) by interval. assert (0 <= z <= 1e-6) by lra. interval. }
    nra.
Qed.

(** Chapman-Enskog viscosity of a pure component in Pa s: 5/16 sqrt(M kB T / (NA pi)) / (sigma^2 Omega22) *)
Definition chapman_enskog (mw sigma eps t : R) : R :=
  5 / 16 * sqrt (mw * 1e-3 * 1.380649e-23 / 6.02214076e23 * t / PI) / Omega22 (t / eps) / (sigma * 1e-10) ^ 2.

Lemma chapman_enskog_pos mw sigma eps t : 0 < mw -> 0 < sigma -> 0 < eps -> 0 < t -> 0 < chapman_enskog mw sigma eps t.
Proof.
  intros Hw Hs He Ht. unfold chapman_enskog. pose proof PI_RGT_0.
  apply Rdiv_lt_0_compat; [ | apply pow_lt; lra].
  apply Rdiv_lt_0_compat; [ | rewrite <- omega22_R by (apply Rdiv_lt_0_compat; auto); apply C27_omega22_positive; apply Rdiv_lt_0_compat; auto].
  apply Rmult_lt_0_compat; [lra | ]. apply sqrt_lt_R0. apply Rdiv_lt_0_compat; auto. nra.
Qed.

Lemma gram_lit : @gram_per_mol RNum = 1e-3. Proof. unfold gram_per_mol. rn. lits. lra. Qed.
Lemma angstrom_lit : @angstrom RNum = 1e-10. Proof. unfold angstrom. rn. lits. lra. Qed.
Lemma kb_lit : @si_kb RNum = 1.380649e-23. Proof. unfold si_kb. rn. lits. lra. Qed.
Lemma nav_lit : @si_nav RNum = 6.02214076e23.
Proof.
  unfold si_nav. match goal with |- @nlit RNum ?q = _ => let v := eval vm_compute in q in change q with v end. rn. lits. lra.
Qed.

Section Physical.
  Variables (prs : list (pure_record RNum)) (bin : list (list R)) (p : params RNum) (o : options RNum).
  Hypothesis Hp : from_records prs bin = Some p.
  Hypothesis Hph : forall pr, In pr prs -> physical_record (pr_model pr) /\ 0 < pr_molarweight pr.
  Notation e := (with_options p o).

  Lemma visc_ce_R t i pr : 0 < t -> nth_error prs i = Some pr ->
    @visc_ce RNum p t i = chapman_enskog (pr_molarweight pr) (r_sigma (pr_model pr)) (r_epsilon_k (pr_model pr)) t.
  Proof.
    intros Ht E. destruct (C16_pure_values _ _ _ Hp i pr E) as (_ & Es & Ee & _ & _ & _ & _ & _ & _ & Ew).
    destruct (Hph pr (nth_error_In _ _ E)) as ((Pm & Ps & Pe) & Pw).
    unfold visc_ce. change (@ix RNum (p_epsilon_k p) i) with (nth i (p_epsilon_k p) 0).
    change (@ix RNum (p_sigma p) i) with (nth i (p_sigma p) 0). change (@ix RNum (p_molarweight p) i) with (nth i (p_molarweight p) 0).
    rewrite Es, Ee, Ew. change (@ndiv RNum) with Rdiv. rewrite omega22_R by (apply Rdiv_lt_0_compat; auto).
    rewrite gram_lit, kb_lit, nav_lit, angstrom_lit. reflexivity.
  Qed.

  (** reference values of pure components are positive *)
  Theorem C27_diffusion_reference pr t v n : prs = [pr] -> 0 < t -> 0 < v -> 0 < n ->
    exists d, diffusion_reference e t v [n] = @TOk RNum d /\ 0 < d.
  Proof.
    intros -> Ht Hv Hn. destruct (C16_pure_values _ _ _ Hp 0%nat pr eq_refl) as (_ & Es & Ee & _ & _ & _ & _ & _ & _ & Ew).
    destruct (Hph pr (or_introl eq_refl)) as ((Pm & Ps & Pe) & Pw).
    unfold diffusion_reference. rewrite (comps _ _ _ _ Hp). cbn [length Nat.eqb negb with_options e_params].
    eexists. split; [reflexivity | ].
    change (@ix RNum (p_epsilon_k p) 0) with (nth 0 (p_epsilon_k p) 0).
    change (@ix RNum (p_sigma p) 0) with (nth 0 (p_sigma p) 0). change (@ix RNum (p_molarweight p) 0) with (nth 0 (p_molarweight p) 0).
    rewrite Es, Ee, Ew. change (@ndiv RNum) with Rdiv. change (@nmul RNum) with Rmult. change (@nsqrt RNum) with sqrt. rewrite nsum_R. cbn [rsum].
    pose proof (C27_omega11_positive _ (Rdiv_lt_0_compat _ _ Ht Pe)) as P11. pose proof PI_RGT_0.
    assert (L : forall a b : R, 0 < a -> 0 < b -> 0 < a / b) by (intros; apply Rdiv_lt_0_compat; auto).
    rewrite gram_lit, nav_lit, angstrom_lit. unfold si_rgas. change (@npi RNum) with PI. change (@npowi RNum) with pow. rn.
    apply Rmult_lt_0_compat.
    - apply L; [apply L; [apply L; [lra | apply pow_lt; apply Rmult_lt_0_compat; [auto | lra]] | auto] | ].
      apply Rmult_lt_0_compat; [apply L; [lra | auto] | lra].
    - apply sqrt_lt_R0. apply L; [apply L; [nra | auto] | nra].
  Qed.

  Theorem C27_thermal_conductivity_chapman_enskog pr t : In pr prs -> 0 < t ->
    let r := pr_model pr in
    0 < @chapman_enskog_thermal_conductivity RNum t (pr_molarweight pr) (r_m r) (r_sigma r) (r_epsilon_k r).
  Proof.
    intros I Ht r. destruct (Hph pr I) as ((Pm & Ps & Pe) & Pw). fold r in Pm, Ps, Pe.
    unfold chapman_enskog_thermal_conductivity.
    pose proof (C27_omega22_positive _ (Rdiv_lt_0_compat _ _ Ht Pe)) as P22.
    change (@ndiv RNum) with Rdiv. change (@nmul RNum) with Rmult. change (@nsqrt RNum) with sqrt. change (@npowi RNum) with pow.
    rn. assert (L : forall a b : R, 0 < a -> 0 < b -> 0 < a / b) by (intros; apply Rdiv_lt_0_compat; auto).
    apply L; auto. apply L; [ | apply pow_lt; auto]. apply Rmult_lt_0_compat; [lra | ]. apply sqrt_lt_R0. apply L; [nra | auto].
  Qed.
End Physical.

(* ---------------------------------------------------------------------------------- C26 *)

(** Wilke's mixing rule *)
Definition wilke_rule (n : nat) (eta mw x : nat -> R) : R :=
  Sum i < n, x i * eta i /
    (Sum j < n, x j * (1 + sqrt (eta i / eta j) * Rpower (mw j / mw i) (1 / 4)) ^ 2 / sqrt (8 * (1 + mw i / mw j))).

Section Push.
  Variables (n n' : nat) (phi : nat -> nat) (w w' : nat -> R).
  Hypothesis Hphi : forall i, (i < n)%nat -> (phi i < n')%nat.
  Hypothesis Hw : forall j, (j < n')%nat -> w' j = Sum i < n, if Nat.eqb (phi i) j then w i else 0.
  Lemma push_sum (f g : nat -> R) : (forall i, (i < n)%nat -> f i = w i * g (phi i)) ->
    (Sum i < n, f i) = Sum j < n', w' j * g j.
  Proof.
    intros Hf. rewrite (Sum_ext _ f (fun i => w i * g (phi i))) by auto.
    rewrite (Sum_ext n' (fun j => w' j * g j) (fun j => Sum i < n, (if Nat.eqb (phi i) j then w i else 0) * g j)).
    2:{ intros j Hj. rewrite Hw, rsum_scal_r by auto. auto. }
    rewrite rsum_swap. apply Sum_ext; intros i Hi.
    rewrite (Sum_single n' (phi i)); auto.
    - rewrite Nat.eqb_refl. auto.
    - intros j Hj Hn. destruct (Nat.eqb_spec (phi i) j); [congruence | ring].
  Qed.
  Lemma wilke_push eta mw eta' mw' :
    (forall i, (i < n)%nat -> eta i = eta' (phi i) /\ mw i = mw' (phi i)) ->
    wilke_rule n eta mw w = wilke_rule n' eta' mw' w'.
  Proof.
    intros H. unfold wilke_rule.
    rewrite (Sum_ext n' _ (fun i => w' i * (eta' i / (Sum j < n', w' j * ((1 + sqrt (eta' i / eta' j) * Rpower (mw' j / mw' i) (1 / 4)) ^ 2 / sqrt (8 * (1 + mw' i / mw' j))))))).
    2:{ intros i Hi. unfold Rdiv. rewrite Rmult_assoc. do 3 f_equal. apply Sum_ext. intros; ring. }
    apply push_sum. intros i Hi. destruct (H i Hi) as [-> ->]. unfold Rdiv. rewrite Rmult_assoc. do 3 f_equal.
    apply push_sum. intros j Hj. destruct (H j Hj) as [-> ->]. ring.
  Qed.
End Push.

(** pure values of the records of a mixture *)
Definition rec_of (prs : list (pure_record RNum)) (i : nat) : pure_record RNum := nth i prs default_pure.
Definition eta_of prs t i : R :=
  let pr := rec_of prs i in chapman_enskog (pr_molarweight pr) (r_sigma (pr_model pr)) (r_epsilon_k (pr_model pr)) t.
Definition mw_of prs i : R := pr_molarweight (rec_of prs i).
(** mole fractions *)
Definition frac (moles : list R) (i : nat) : R := nth i moles 0 / rsum moles (fun x => x).

Section C26.
  Variables (prs : list (pure_record RNum)) (bin : list (list R)) (p : params RNum) (o : options RNum).
  Hypothesis Hp : from_records prs bin = Some p.
  Hypothesis Hph : forall pr, In pr prs -> physical_record (pr_model pr) /\ 0 < pr_molarweight pr.
  Notation e := (with_options p o).

  Lemma rec_in i : (i < length prs)%nat -> nth_error prs i = Some (rec_of prs i) /\ In (rec_of prs i) prs.
  Proof. intros H. split; [apply nth_error_nth'; auto | apply nth_In; auto]. Qed.
  Lemma eta_pos t i : 0 < t -> (i < length prs)%nat -> 0 < eta_of prs t i.
  Proof. intros Ht Hi. destruct (Hph _ (proj2 (rec_in i Hi))) as ((A & B & C) & D). apply chapman_enskog_pos; auto. Qed.
  Lemma mw_pos i : (i < length prs)%nat -> 0 < mw_of prs i.
  Proof. intros Hi. apply (Hph _ (proj2 (rec_in i Hi))). Qed.

  (** the reference is Wilke's rule applied to the Chapman-Enskog values of the pure components *)
  Theorem C26_wilke t v moles : 0 < t ->
    viscosity_reference e t v moles = @TOk RNum (wilke_rule (length prs) (eta_of prs t) (mw_of prs) (frac moles)).
  Proof.
    intros Ht. unfold viscosity_reference. rewrite (comps _ _ _ _ Hp). cbn [with_options e_params]. f_equal.
    unfold wilke, wilke_rule. rewrite nsumi_R. apply Sum_ext. intros i Hi.
    assert (V : forall j, (j < length prs)%nat -> @visc_ce RNum p t j = eta_of prs t j /\ @ix RNum (p_molarweight p) j = mw_of prs j).
    { intros j Hj. destruct (rec_in j Hj) as [E _]. split; [apply (visc_ce_R _ _ _ Hp Hph t j _ Ht E) | ].
      apply (C16_pure_values _ _ _ Hp j _ E). }
    destruct (V i Hi) as [-> ->]. rewrite nsumi_R, nsum_R.
    change (@ix RNum moles i) with (nth i moles 0). fold (frac moles i). 
    change (eta_of prs t i * frac moles i / (Sum i0 < length prs, @nmul RNum (frac moles i0) (@npowi RNum (1 + sqrt (eta_of prs t i / @visc_ce RNum p t i0) * Rpowf (@ix RNum (p_molarweight p) i0 / mw_of prs i) (1 / 4)) 2) / sqrt (8 * (1 + mw_of prs i / @ix RNum (p_molarweight p) i0)))
      = frac moles i * eta_of prs t i / (Sum j < length prs, frac moles j * (1 + sqrt (eta_of prs t i / eta_of prs t j) * Rpower (mw_of prs j / mw_of prs i) (1 / 4)) ^ 2 / sqrt (8 * (1 + mw_of prs i / mw_of prs j)))).
    rewrite (Rmult_comm (eta_of prs t i)). match goal with |- ?a / ?x = ?a / ?y => enough (Q : x = y) by (rewrite Q; reflexivity) end. apply Sum_ext. intros j Hj.
    destruct (V j Hj) as [-> ->]. unfold Rpowf. destruct (Rlt_dec _ _) as [_ | N]; [reflexivity | ].
    exfalso. apply N. apply Rdiv_lt_0_compat; apply mw_pos; auto.
  Qed.

  (** positive for every composition *)
  Theorem C26_positive t v moles : 0 < t -> length moles = length prs ->
    (forall i, (i < length prs)%nat -> 0 <= nth i moles 0) -> 0 < rsum moles (fun x => x) ->
    exists eta, viscosity_reference e t v moles = @TOk RNum eta /\ 0 < eta.
  Proof.
    intros Ht Hl Hn Hs. rewrite C26_wilke by auto. eexists; split; [reflexivity | ].
    assert (X : forall i, (i < length prs)%nat -> 0 <= frac moles i).
    { intros i Hi. unfold frac. apply Rmult_le_pos; auto. left. apply Rinv_0_lt_compat. auto. }
    assert (Pos : exists k, (k < length prs)%nat /\ 0 < frac moles k).
    { rewrite (rsum_nth moles 0 (fun x => x)) in Hs. rewrite Hl in Hs.
      destruct (Classical_Prop.classic (exists k, (k < length prs)%nat /\ 0 < frac moles k)) as [ | N]; auto.
      exfalso. assert (Z : (Sum i < length prs, nth i moles 0) = 0); [ | lra].
      apply rsum_zero. intros i Hi. apply seq_in in Hi. destruct (Hn i Hi) as [Pi | <-]; auto.
      exfalso. apply N. exists i. split; auto. unfold frac. apply Rdiv_lt_0_compat; auto.
      rewrite (rsum_nth moles 0 (fun x => x)), Hl. auto. }
    destruct Pos as (k & Hk & Pk).
    assert (Term : forall i j, (i < length prs)%nat -> (j < length prs)%nat ->
      0 < (1 + sqrt (eta_of prs t i / eta_of prs t j) * Rpower (mw_of prs j / mw_of prs i) (1 / 4)) ^ 2 / sqrt (8 * (1 + mw_of prs i / mw_of prs j))).
    { intros i j Hi Hj. pose proof (mw_pos i Hi). pose proof (mw_pos j Hj).
      assert (0 < mw_of prs i / mw_of prs j) by (apply Rdiv_lt_0_compat; auto).
      apply Rdiv_lt_0_compat; [ | apply sqrt_lt_R0; lra]. apply pow_lt.
      assert (0 <= sqrt (eta_of prs t i / eta_of prs t j)) by apply sqrt_pos.
      assert (0 < Rpower (mw_of prs j / mw_of prs i) (1 / 4)) by apply exp_pos. nra. }
    assert (D : forall i, (i < length prs)%nat -> 0 < Sum j < length prs, frac moles j * (1 + sqrt (eta_of prs t i / eta_of prs t j) * Rpower (mw_of prs j / mw_of prs i) (1 / 4)) ^ 2 / sqrt (8 * (1 + mw_of prs i / mw_of prs j))).
    { intros i Hi. apply (rsum_pos _ _ k).
      - intros j Hj. apply seq_in in Hj. unfold Rdiv. rewrite Rmult_assoc. apply Rmult_le_pos; auto. left. apply Term; auto.
      - apply in_seq. lia.
      - unfold Rdiv. rewrite Rmult_assoc. apply Rmult_lt_0_compat; auto. apply Term; auto. }
    unfold wilke_rule. apply (rsum_pos _ _ k).
    - intros i Hi. apply seq_in in Hi. apply Rmult_le_pos; [ | left; apply Rinv_0_lt_compat; auto].
      apply Rmult_le_pos; auto. left. apply eta_pos; auto.
    - apply in_seq. lia.
    - apply Rdiv_lt_0_compat; auto. apply Rmult_lt_0_compat; auto. apply eta_pos; auto.
  Qed.

  (** independent of the total amount *)
  Theorem C26_intensive t v v' moles k : 0 < t -> k <> 0 ->
    viscosity_reference e t v' (map (Rmult k) moles) = viscosity_reference e t v moles.
  Proof.
    intros Ht Hk. rewrite !C26_wilke by auto. f_equal.
    assert (E : forall i, frac (map (Rmult k) moles) i = frac moles i).
    { intros i. unfold frac. rewrite rsum_map, rsum_scal.
      replace (nth i (map (Rmult k) moles) 0) with (k * nth i moles 0).
      - destruct (Req_dec (rsum moles (fun x => x)) 0) as [-> | N]; [ | field; auto].
        unfold Rdiv. rewrite Rmult_0_r, Rinv_0. ring.
      - rewrite <- (map_nth (Rmult k)). f_equal. ring. }
    unfold wilke_rule. apply Sum_ext. intros i Hi. rewrite E. f_equal. apply Sum_ext. intros j Hj. rewrite E. auto.
  Qed.

  (** a mixture of components with the same properties has the pure value at every composition *)
  Theorem C26_identical t v moles pr0 : 0 < t -> length moles = length prs -> rsum moles (fun x => x) <> 0 ->
    (forall pr, In pr prs -> pr_molarweight pr = pr_molarweight pr0 /\ r_sigma (pr_model pr) = r_sigma (pr_model pr0)
        /\ r_epsilon_k (pr_model pr) = r_epsilon_k (pr_model pr0)) ->
    viscosity_reference e t v moles =
      @TOk RNum (chapman_enskog (pr_molarweight pr0) (r_sigma (pr_model pr0)) (r_epsilon_k (pr_model pr0)) t).
  Proof.
    intros Ht Hl Hs Heq. rewrite C26_wilke by auto. f_equal.
    set (c := chapman_enskog _ _ _ _).
    assert (E : forall i, (i < length prs)%nat -> eta_of prs t i = c /\ mw_of prs i = pr_molarweight pr0).
    { intros i Hi. destruct (Heq _ (proj2 (rec_in i Hi))) as (A & B & C). unfold eta_of, mw_of, c. rewrite A, B, C. auto. }
    assert (T1 : (Sum j < length prs, frac moles j) = 1).
    { unfold frac, Rdiv. rewrite rsum_scal_r. rewrite <- Hl at 1. pose proof (rsum_nth moles 0 (fun x => x)) as Q. cbn beta in Q. rewrite <- Q. field. auto. }
    assert (Hpos : (0 < length prs)%nat).
    { destruct prs; cbn in *; [ | lia]. exfalso. destruct moles; cbn in *; [auto | discriminate]. }
    assert (Pc : 0 < c) by (destruct (E 0%nat Hpos) as [<- _]; apply eta_pos; auto).
    assert (Pw : 0 < pr_molarweight pr0) by (destruct (E 0%nat Hpos) as [_ <-]; apply mw_pos; auto).
    unfold wilke_rule. rewrite (Sum_ext _ _ (fun i => frac moles i * c)).
    - rewrite rsum_scal_r. match goal with |- ?a * c = c => replace a with 1 by (symmetry; exact T1) end. ring.
    - intros i Hi. destruct (E i Hi) as [-> ->].
      rewrite (Sum_ext _ _ (fun j => frac moles j)); [rewrite T1; field | ].
      intros j Hj. destruct (E j Hj) as [-> ->].
      replace (c / c) with 1 by (field; lra). replace (pr_molarweight pr0 / pr_molarweight pr0) with 1 by (field; lra).
      rewrite sqrt_1. replace (Rpower 1 (1 / 4)) with 1 by (unfold Rpower; rewrite ln_1, Rmult_0_r, exp_0; auto).
      replace (8 * (1 + 1)) with (4 * 4) by ring. rewrite sqrt_square by lra. field.
  Qed.
End C26.

(** pure component *)
Theorem C26_pure pr bin p o t v n : from_records [pr] bin = Some p -> physical_record (pr_model pr) -> 0 < pr_molarweight pr ->
  0 < t -> n <> 0 ->
  viscosity_reference (with_options p o) t v [n] =
    @TOk RNum (chapman_enskog (pr_molarweight pr) (r_sigma (pr_model pr)) (r_epsilon_k (pr_model pr)) t).
Proof.
  intros Hp Hph Hw Ht Hn. apply (C26_identical [pr] bin p o Hp); auto.
  - intros q [<- | []]. auto.
  - cbn. lra.
  - intros q [<- | []]. auto.
Qed.

(** regrouping: relabelled, absent and repeated components *)
Section C26_regroup.
  Variables (prs : list (pure_record RNum)) (bin : list (list R)) (p p' : params RNum) (l : list nat).
  Hypothesis Hp' : from_records prs bin = Some p'.
  Hypothesis Hp : subset p' l = Some p.
  Hypothesis Hph : forall pr, In pr prs -> physical_record (pr_model pr) /\ 0 < pr_molarweight pr.
  Variables (moles moles' : list R).
  Hypothesis Hreg : regrouped l (length prs) moles moles'.

  Lemma sub_records : exists r bin', from_records r bin' = Some p /\ selects prs l r.
  Proof.
    assert (H : match subset_records prs l with Some r => from_records r (subset_binary (p_k_ij p') l) | None => None end = Some p).
    { rewrite <- Hp. rewrite (from_records_raw_of _ _ _ Hp'). reflexivity. }
    clear Hp. destruct (subset_records prs l) as [r | ] eqn:E; [ | discriminate].
    exists r. eexists. split; [exact H | ]. apply subset_records_selects. exact E.
  Qed.
  Lemma sub_nth r i : selects prs l r -> (i < length l)%nat ->
    (nth i l 0 < length prs)%nat /\ rec_of r i = rec_of prs (nth i l 0%nat) /\ length r = length l.
  Proof.
    intros [L S] Hi. assert (E : nth_error l i = Some (nth i l 0%nat)) by (apply nth_error_nth'; auto).
    destruct (S i _ E) as [A B]. assert (Hk : (nth i l 0 < length prs)%nat) by (apply nth_error_Some; auto).
    split; auto. split; auto. unfold rec_of.
    destruct (nth_error prs (nth i l 0%nat)) as [pr | ] eqn:F; [ | congruence].
    rewrite (nth_error_nth _ _ default_pure A), (nth_error_nth _ _ default_pure F). auto.
  Qed.

  Lemma reg_total : rsum moles (fun x => x) = rsum moles' (fun x => x).
  Proof.
    destruct Hreg as (L & L' & E). rewrite (rsum_nth moles 0 (fun x => x)), (rsum_nth moles' 0 (fun x => x)), L, L'.
    destruct sub_records as (r & bin' & _ & S).
    rewrite (push_sum (length l) (length prs) (fun i => nth i l 0%nat) (fun i => nth i moles 0) (fun i => nth i moles' 0)
      (fun i Hi => proj1 (sub_nth r i S Hi)) E _ (fun _ => 1)).
    - apply Sum_ext. intros; ring.
    - intros; ring.
  Qed.

  Theorem C26_regrouping o o' t v v' : 0 < t ->
    viscosity_reference (with_options p o) t v moles = viscosity_reference (with_options p' o') t v' moles'.
  Proof.
    intros Ht. destruct sub_records as (r & bin' & Hr & S).
    assert (Hphr : forall pr, In pr r -> physical_record (pr_model pr) /\ 0 < pr_molarweight pr).
    { intros pr I. destruct (In_nth r pr default_pure I) as (i & Hi & <-). destruct (S) as [L _]. rewrite L in Hi.
      destruct (sub_nth r i S Hi) as (A & B & _). fold (rec_of r i). rewrite B. apply Hph. apply rec_in. auto. }
    rewrite (C26_wilke r bin' p o Hr Hphr) by auto. rewrite (C26_wilke prs bin p' o' Hp' Hph) by auto. f_equal.
    destruct (S) as [L _]. rewrite L.
    apply (wilke_push (length l) (length prs) (fun i => nth i l 0%nat)).
    - intros i Hi. apply (sub_nth r i S Hi).
    - intros j Hj. unfold frac. rewrite reg_total. destruct Hreg as (_ & _ & E). rewrite (E j Hj).
      unfold Rdiv. rewrite <- rsum_scal_r. apply Sum_ext. intros i Hi. destruct (Nat.eqb _ _); ring.
    - intros i Hi. destruct (sub_nth r i S Hi) as (A & B & _). unfold eta_of, mw_of. rewrite B. auto.
  Qed.

  (** viscosity correlation of regrouped mole fractions *)
  Theorem C26_correlation_regrouping o o' s_res : p_viscosity p' <> None ->
    viscosity_correlation (with_options p o) s_res moles = viscosity_correlation (with_options p' o') s_res moles'.
  Proof.
    intros Hv. destruct sub_records as (r & bin' & Hr & S). pose proof (proj1 S) as L.
    destruct (C24_coefficients_available _ _ _ Hp') as ((A' & B') & _).
    destruct (C24_coefficients_available _ _ _ Hr) as ((A & B) & _).
    unfold viscosity_correlation. cbn [with_options e_params].
    destruct (p_viscosity p') as [co' | ]; [ | congruence]. destruct (B' co' eq_refl) as (_ & _ & C'). clear B'.
    destruct (p_viscosity p) as [co | ].
    2:{ exfalso. destruct (proj1 A eq_refl) as (pr & I & N). destruct (In_nth r pr default_pure I) as (i & Hi & E). rewrite L in Hi.
        destruct (sub_nth r i S Hi) as (Q & R1 & _). destruct (C' _ _ (proj1 (rec_in prs _ Q))) as (a & Ea & _).
        fold (rec_of r i) in E. rewrite R1 in E. rewrite E in Ea. congruence. }
    destruct (B co eq_refl) as (_ & _ & C). clear B.
    assert (Ec : forall k i, (k < 4)%nat -> (i < length l)%nat -> @ix2 RNum co k i = @ix2 RNum co' k (nth i l 0%nat)).
    { intros k i Hk Hi. destruct (sub_nth r i S Hi) as (Q & R1 & _).
      destruct (C' _ _ (proj1 (rec_in prs _ Q))) as (a' & Ea' & F').
      destruct (C i (rec_of r i)) as (a & Ea & F); [apply rec_in; rewrite L; auto | ].
      rewrite R1 in Ea. assert (a = a') by congruence. subst a'.
      transitivity (nth k (l4 a) 0); [apply (F k Hk) | symmetry; apply (F' k Hk)]. }
    assert (Em : forall i, (i < length l)%nat -> @ix RNum (p_m p) i = @ix RNum (p_m p') (nth i l 0%nat)).
    { intros i Hi. destruct (sub_nth r i S Hi) as (Q & R1 & _).
      transitivity (r_m (pr_model (rec_of prs (nth i l 0%nat)))).
      - rewrite <- R1. apply (C16_pure_values _ _ _ Hr i _). apply rec_in. rewrite L; auto.
      - symmetry. apply (C16_pure_values _ _ _ Hp' _ _). apply rec_in; auto. }
    assert (Ln : length (p_m p) = length l) by (rewrite (len_m _ _ _ Hr); auto).
    assert (Ln' : length (p_m p') = length prs) by (apply (len_m _ _ _ Hp')).
    rewrite Ln, Ln'. destruct Hreg as (_ & _ & E).
    pose proof (push_sum (length l) (length prs) (fun i => nth i l 0%nat) (fun i => nth i moles 0) (fun i => nth i moles' 0)
      (fun i Hi => proj1 (sub_nth r i S Hi)) E) as P.
    assert (EM : @nsumi RNum (length l) (fun i => @ix RNum moles i * @ix RNum (p_m p) i)
               = @nsumi RNum (length prs) (fun i => @ix RNum moles' i * @ix RNum (p_m p') i)).
    { rewrite !nsumi_R. apply (P _ (fun i => @ix RNum (p_m p') i)). intros i Hi. rewrite Em by auto. reflexivity. }
    change (@nmul RNum) with Rmult in *. change (@nadd RNum) with Rplus in *. rewrite EM. set (M := @nsumi RNum (length prs) _ : R) in *.
    assert (C0 : forall k, (k < 4)%nat -> @coeff_row RNum co k (length l) (@ix RNum moles) = @coeff_row RNum co' k (length prs) (@ix RNum moles')).
    { intros k Hk. unfold coeff_row. rewrite !nsumi_R. change (@nmul RNum) with Rmult.
      eapply eq_trans; [apply (P _ (fun i => @ix2 RNum co' k i)) | apply Sum_ext; intros; apply Rmult_comm].
      intros i Hi. cbn beta. rewrite Ec by auto. apply Rmult_comm. }
    assert (C1 : forall k, (k < 4)%nat -> @coeff_row RNum co k (length l) (fun i => @ix RNum moles i * @ix RNum (p_m p) i / M)
       = @coeff_row RNum co' k (length prs) (fun i => @ix RNum moles' i * @ix RNum (p_m p') i / M)).
    { intros k Hk. unfold coeff_row. rewrite !nsumi_R. change (@nmul RNum) with Rmult. unfold Rdiv.
      eapply eq_trans; [apply (P _ (fun i => @ix2 RNum co' k i * (@ix RNum (p_m p') i * / M))) | apply Sum_ext; intros j Hj]; [intros i Hi | ]; cbn beta.
      2:{ change (@ix RNum moles' j) with (nth j moles' 0). ring. }
      - rewrite Ec, Em by auto. change (@ix RNum moles i) with (nth i moles 0). ring. }
    change (@ndiv RNum) with Rdiv in *.
    rewrite (C0 0%nat), (C1 1%nat), (C1 2%nat), (C1 3%nat) by lia. reflexivity.
  Qed.
End C26_regroup.

(** relabelled mixtures, and absent components that are left out *)
Theorem C26_relabelling prs bin (p p' : params RNum) l o t v moles :
  from_records prs bin = Some p -> subset p l = Some p' ->
  (forall pr, In pr prs -> physical_record (pr_model pr) /\ 0 < pr_molarweight pr) ->
  0 < t -> length moles = length prs -> NoDup l ->
  (forall j, (j < length prs)%nat -> ~ In j l -> nth j moles 0 = 0) ->
  viscosity_reference (with_options p' o) t v (pick moles l) = viscosity_reference (with_options p o) t v moles /\
  forall s_res, p_viscosity p <> None ->
    viscosity_correlation (with_options p' o) s_res (pick moles l) = viscosity_correlation (with_options p o) s_res moles.
Proof.
  intros Hp Hp' Hph Ht Hl Hd Hz. pose proof (regrouped_pick l (length prs) moles Hd Hl Hz) as Hr. split.
  - apply (C26_regrouping prs bin p' p l Hp Hp' Hph _ _ Hr); auto.
  - intros s_res Hv. apply (C26_correlation_regrouping prs bin p' p l Hp Hp' _ _ Hr); auto.
Qed.

(** mixtures of copies: every copy carries the same record *)
Theorem C26_correlation_identical (pr : pure_record RNum) bin p o c n bin' p' o' (s_res : R) (x : list R) :
  from_records [pr] bin = Some p -> 0 < r_m (pr_model pr) -> r_viscosity (pr_model pr) = Some c ->
  from_records (repeat pr n) bin' = Some p' -> length x = n -> rsum x (fun y => y) = 1 ->
  viscosity_correlation (with_options p' o') s_res x = @TOk RNum (viscosity_polynomial c (s_res / r_m (pr_model pr))) /\
  viscosity_correlation (with_options p o) s_res [1] = @TOk RNum (viscosity_polynomial c (s_res / r_m (pr_model pr))).
Proof.
  intros Hp Hm Hc Hp' Hx Hs. split; [ | apply (C24_pure_correlations pr bin p o Hp Hm s_res); auto].
  assert (Hx' : (Sum i < n, nth i x 0) = 1) by (rewrite <- Hx; rewrite <- Hs; symmetry; apply (rsum_nth x 0 (fun y => y))).
  assert (Nr : forall i, (i < n)%nat -> nth_error (repeat pr n) i = Some pr) by (intros; apply nth_error_repeat; auto).
  destruct (C24_coefficients_available _ _ _ Hp') as ((A & B) & _).
  unfold viscosity_correlation. cbn [with_options e_params].
  destruct (p_viscosity p') as [co | ].
  2:{ exfalso. destruct (proj1 A eq_refl) as (q & I & N). apply repeat_spec in I. subst q. congruence. }
  destruct (B co eq_refl) as (_ & _ & C). clear B A.
  assert (Ln : length (p_m p') = n) by (rewrite (len_m _ _ _ Hp'), repeat_length; auto). rewrite Ln. f_equal.
  assert (Ec : forall k i, (k < 4)%nat -> (i < n)%nat -> @ix2 RNum co k i = nth k (@l4 RNum c) 0).
  { intros k i Hk Hi. destruct (C i pr (Nr i Hi)) as (a & Ea & F). rewrite Hc in Ea. injection Ea as <-. apply (F k Hk). }
  assert (Em : forall i, (i < n)%nat -> @ix RNum (p_m p') i = r_m (pr_model pr)).
  { intros i Hi. apply (C16_pure_values _ _ _ Hp' i _ (Nr i Hi)). }
  assert (EM : @nsumi RNum n (fun i => @ix RNum x i * @ix RNum (p_m p') i) = r_m (pr_model pr)).
  { rewrite nsumi_R. rewrite (Sum_ext _ _ (fun i => nth i x 0 * r_m (pr_model pr))).
    - rewrite rsum_scal_r. transitivity (1 * r_m (pr_model pr)); [f_equal; exact Hx' | apply Rmult_1_l].
    - intros i Hi. rewrite Em by auto. reflexivity. }
  change (@nmul RNum) with Rmult in *. rewrite EM. change (@ndiv RNum) with Rdiv in *.
  assert (C0 : forall k (w : nat -> R), (k < 4)%nat -> (forall i, (i < n)%nat -> w i = nth i x 0) ->
     @coeff_row RNum co k n w = nth k (@l4 RNum c) 0).
  { intros k w Hk Hw. unfold coeff_row. rewrite nsumi_R. change (@nmul RNum) with Rmult.
    rewrite (Sum_ext _ _ (fun i => nth k (@l4 RNum c) 0 * nth i x 0)).
    - rewrite rsum_scal. match goal with |- ?a * ?b = ?a => transitivity (a * 1); [f_equal; exact Hx' | apply Rmult_1_r] end.
    - intros i Hi. rewrite Ec, Hw by auto. reflexivity. }
  rewrite !C0; try lia.
  - destruct c as [[[a b] c] d]. reflexivity.
  - intros i Hi. rewrite Em by auto. change (@ix RNum x i) with (nth i x 0). field. lra.
  - intros i Hi. rewrite Em by auto. change (@ix RNum x i) with (nth i x 0). field. lra.
  - intros i Hi. rewrite Em by auto. change (@ix RNum x i) with (nth i x 0). field. lra.
  - reflexivity.
Qed.

(* ---------------------------------------------------------------------------------- C28 *)

Section C28.
  Variables (pr : pure_record RNum) (bin : list (list R)) (p : params RNum).
  Hypothesis Hp : from_records [pr] bin = Some p.
  Hypothesis Hph : physical_record (pr_model pr).

  Lemma one_phys : phys p.
  Proof.
    intros i Hi. rewrite (len_m _ _ _ Hp) in Hi. cbn in Hi. assert (i = 0)%nat by lia. subst i.
    destruct (C16_pure_values _ _ _ Hp 0%nat pr eq_refl) as (Em & Es & Ee & _). destruct Hph as (A & B & C).
    change (0 < nth 0 (p_m p) 0 /\ 0 < nth 0 (p_sigma p) 0 /\ 0 < nth 0 (p_epsilon_k p) 0).
    rewrite Em, Es, Ee. auto.
  Qed.
  Lemma one_nassoc : (p_nassoc p <= 1)%nat.
  Proof.
    destruct (C17_index_sets _ _ _ Hp) as (_ & _ & (_ & D & I) & _ & _ & E); [intros q [<- | []]; auto | ].
    rewrite E. change 1%nat with (length [0%nat]). apply NoDup_incl_length; auto.
    intros i Hi. apply I in Hi. destruct Hi as (q & Q & _). destruct i as [ | i]; [left; auto | destruct i; discriminate].
  Qed.

  (** none of the options changes the residual energy of a pure component *)
  Theorem C28_residual_independent_of_options lu o o' t v moles : phys_state p t v moles ->
    residual lu (with_options p o) (@state_new RNum t v moles) = residual lu (with_options p o') (@state_new RNum t v moles).
  Proof.
    intros PS. rewrite !C19_residual_is_sum. pose proof one_nassoc as Hn.
    assert (E : forall a b, a_dq p a (@state_new RNum t v moles) = a_dq p b (@state_new RNum t v moles)).
    { assert (E0 : a_dq p DQ35 (@state_new RNum t v moles) = a_dq p DQ44 (@state_new RNum t v moles)).
      { apply (C37_variants_coincide _ _ _ t v moles Hp one_phys PS). rewrite (len_m _ _ _ Hp). intros i j Hi Hj _ _.
        cbn in Hi, Hj. assert (i = j) by lia. subst; auto. }
      intros [ | ] [ | ]; auto. }
    rewrite (E (o_dq o) (o_dq o')). destruct (p_nassoc p) as [ | [ | k]]; [auto | auto | lia].
  Qed.

  (** an entropy of the equation of state that is determined by its residual energy *)
  Definition determined_by_residual (entropy : eos RNum -> R -> R -> list R -> option R) : Prop :=
    forall e e', e_params e = e_params e' ->
      (forall lu t v moles, phys_state (e_params e) t v moles ->
         residual lu e (@state_new RNum t v moles) = residual lu e' (@state_new RNum t v moles)) ->
      forall t v moles, entropy e t v moles = entropy e' t v moles.

  (** reference thermal conductivity as a function of the residual entropy *)
  Definition thermal_reference (t s : R) : R :=
    let r := pr_model pr in
    let tr := t / r_epsilon_k r in
    0.083235 * sqrt (t * r_m r / pr_molarweight pr) / r_sigma r ^ 2 / Omega22 tr
    + (-0.0167141 * tr / r_m r + 0.0470581 * (tr / r_m r) ^ 2) * (r_m r * r_m r * r_sigma r ^ 3 * r_epsilon_k r) * 1e-5
      * exp (- (s / r_m r) / -0.5).

  (** the reference uses the entropy of the equation of state it is asked for, options included *)
  Theorem C28_options_respected entropy o t v moles : determined_by_residual entropy -> 0 < t ->
    thermal_conductivity_reference entropy (with_options p o) t v moles =
    match entropy (with_options p o) t v moles with
    | Some s => @TOk RNum (thermal_reference t s)
    | None => TErr IterationFailed
    end.
  Proof.
    intros He Ht. unfold thermal_conductivity_reference. rewrite (comps _ _ _ _ Hp). cbn [length Nat.eqb negb with_options e_params].
    rewrite (He (with_options p o) (eos_new p) eq_refl).
    2:{ intros lu t' v' m' PS. apply C28_residual_independent_of_options. exact PS. }
    destruct (entropy (eos_new p) t v moles) as [s | ]; auto. f_equal.
    destruct (C16_pure_values _ _ _ Hp 0%nat pr eq_refl) as (Em & Es & Ee & _ & _ & _ & _ & _ & _ & Ew).
    change (@ix RNum (p_epsilon_k p) 0) with (nth 0 (p_epsilon_k p) 0). change (@ix RNum (p_m p) 0) with (nth 0 (p_m p) 0).
    change (@ix RNum (p_sigma p) 0) with (nth 0 (p_sigma p) 0). change (@ix RNum (p_molarweight p) 0) with (nth 0 (p_molarweight p) 0).
    rewrite Em, Es, Ee, Ew. unfold chapman_enskog_thermal_conductivity. change (@ndiv RNum) with Rdiv.
    destruct Hph as (A & B & C). rewrite omega22_R by (apply Rdiv_lt_0_compat; auto). unfold thermal_reference. 
    set (w := Omega22 _). rn. lits. reflexivity.
  Qed.

  (** positive above 0.3552 m epsilon, whatever the entropy *)
  Theorem C27_thermal_conductivity_reference t s : 0 < pr_molarweight pr ->
    0.3552 * r_m (pr_model pr) * r_epsilon_k (pr_model pr) <= t -> 0 < thermal_reference t s.
  Proof.
    intros Hw H. destruct Hph as (A & B & C). unfold thermal_reference.
    set (m := r_m (pr_model pr)) in *. set (sg := r_sigma (pr_model pr)) in *. set (ep := r_epsilon_k (pr_model pr)) in *.
    assert (Pme : 0 < m * ep) by (apply Rmult_lt_0_compat; auto). assert (Ht : 0 < t) by nra.
    assert (L : forall a b : R, 0 < a -> 0 < b -> 0 < a / b) by (intros; apply Rdiv_lt_0_compat; auto).
    apply Rplus_lt_le_0_compat.
    - apply L; [ | rewrite <- omega22_R by auto; apply C27_omega22_positive; auto].
      apply L; [ | apply pow_lt; auto]. apply Rmult_lt_0_compat; [lra | ]. apply sqrt_lt_R0. apply L; nra.
    - apply Rmult_le_pos; [ | left; apply exp_pos]. apply Rmult_le_pos; [ | lra]. apply Rmult_le_pos.
      + set (u := t / ep / m). replace (-0.0167141 * (t / ep) / m) with (-0.0167141 * u) by (unfold u; field; lra).
        assert (Hu : 0.3552 <= u).
        { unfold u. apply Rmult_le_reg_r with (m * ep); auto. replace (t / ep / m * (m * ep)) with t by (field; lra). lra. }
        nra.
      + left. apply Rmult_lt_0_compat; auto. apply Rmult_lt_0_compat; [apply Rmult_lt_0_compat; auto | apply pow_lt; auto].
  Qed.
End C28.

(* ---------------------------------------------------------------------------------- C34 *)

(** QSPR correlation of one component: isobaric heat capacities at 300 K and 400 K from the coefficients, linear
    interpolation, integration *)
Definition qspr_value (c300 c400 : list R) (r : pcsaft_record RNum) (t : R) : R :=
  let c l k := nth k l 0 in
  let e := r_epsilon_k r / t in
  let s3 := r_sigma r ^ 3 in
  let p1 := e * r_m r in
  let p2 := s3 * r_m r in
  let p4 := (exp (opt_or (r_epsilon_k_ab r) 0 / t) - 1) * p2 * s3 * opt_or (r_kappa_ab r) 0 in
  let cp l tr := (p1 * c l 0%nat / tr + p2 * c l 1%nat + e * p2 * c l 2%nat / tr + p4 * c l 3%nat / tr
                  + p2 * opt_or (r_q r) 0 * c l 4%nat + c l 5%nat) / 1000 in
  let b := (cp c400 400 - cp c300 300) / 100 in
  let a := cp c300 300 - b * 300 in
  (a * (t - 298.15 - t * ln (t / 298.15)) - b * (t - 298.15) ^ 2 / 2) / (t * (6.022140857 * 1.38064852))
  + ln (t * 1.38064852e-23 / (1e5 * 1e-30)).

Inductive qspr_class := NonPolar | Polar | Associating.
Definition lits_of (l : list Q) : list R := map Rlit l.
Definition class_coeffs (k : qspr_class) : list R * list R :=
  match k with
  | NonPolar => (lits_of NA_NP_300, lits_of NA_NP_400)
  | Polar => (lits_of NA_P_300, lits_of NA_P_400)
  | Associating => (lits_of AP_300, lits_of AP_400)
  end.
Definition qspr_of (k : qspr_class) (r : pcsaft_record RNum) (t : R) : R :=
  qspr_value (fst (class_coeffs k)) (snd (class_coeffs k)) r t.

(** the class of a mixture *)
Definition mixture_class (prs : list (pure_record RNum)) (k : qspr_class) : Prop :=
  let assoc (pr : pure_record RNum) := opt_or (r_kappa_ab (pr_model pr)) 0 <> 0 in
  let polar (pr : pure_record RNum) := opt_or (r_mu (pr_model pr)) 0 <> 0 \/ opt_or (r_q (pr_model pr)) 0 <> 0 in
  match k with
  | Associating => exists pr, In pr prs /\ assoc pr
  | Polar => (forall pr, In pr prs -> ~ assoc pr) /\ exists pr, In pr prs /\ polar pr
  | NonPolar => forall pr, In pr prs -> ~ assoc pr /\ ~ polar pr
  end.

Section C34.
  Variables (prs : list (pure_record RNum)) (bin : list (list R)) (p : params RNum).
  Hypothesis Hp : from_records prs bin = Some p.
  Hypothesis Hph : forall pr, In pr prs -> physical_record (pr_model pr).

  Lemma index_set_empty l q : index_set prs l q -> length l = 0%nat <-> forall pr, In pr prs -> ~ q (pr_model pr).
  Proof.
    intros (_ & _ & I). split.
    - intros L pr Hi Q. destruct l; [ | discriminate]. destruct (In_nth_error _ _ Hi) as (i & E).
      destruct (proj2 (I i)); eauto.
    - intros H. destruct l as [ | i l]; auto. exfalso. destruct (proj1 (I i) (or_introl eq_refl)) as (pr & E & Q).
      apply (H pr); auto. apply (nth_error_In _ _ E).
  Qed.
  Lemma index_set_some l q : index_set prs l q -> length l <> 0%nat -> exists pr, In pr prs /\ q (pr_model pr).
  Proof.
    intros (_ & _ & I) L. destruct l as [ | i l]; [exfalso; apply L; reflexivity | ]. destruct (proj1 (I i) (or_introl eq_refl)) as (pr & E & Q).
    exists pr. split; auto. apply (nth_error_In _ _ E).
  Qed.

  Lemma qspr_coeffs_class k : mixture_class prs k ->
    qspr_coeffs p = match k with NonPolar => (NA_NP_300, NA_NP_400) | Polar => (NA_P_300, NA_P_400) | Associating => (AP_300, AP_400) end.
  Proof.
    destruct (C17_index_sets _ _ _ Hp Hph) as (Id & Iq & Ia & Nd & Nq & Na). unfold qspr_coeffs. rewrite Nd, Nq, Na.
    pose proof (index_set_empty _ _ Id) as Ed. pose proof (index_set_empty _ _ Iq) as Eq. pose proof (index_set_empty _ _ Ia) as Ea.
    destruct k; cbn.
    - intros H. rewrite (proj2 Ea), (proj2 Ed), (proj2 Eq); auto; intros pr I; destruct (H pr I); tauto.
    - intros (H & pr & I & Q). rewrite (proj2 Ea H).
      destruct (length (p_dipole_comp p)) eqn:Ld; [ | reflexivity].
      destruct (length (p_quadpole_comp p)) eqn:Lq; [ | reflexivity]. exfalso.
      destruct Q; [apply (proj1 Ed eq_refl pr I) | apply (proj1 Eq eq_refl pr I)]; auto.
    - intros (pr & I & Q). destruct (length (p_assoc_comp p)); [ | reflexivity]. exfalso. apply (proj1 Ea eq_refl pr I). auto.
  Qed.

  (** every mixture has exactly one class *)
  Theorem C34_one_class : exists k, mixture_class prs k /\ forall k', mixture_class prs k' -> k' = k.
  Proof.
    assert (U : forall k k', mixture_class prs k -> mixture_class prs k' -> k = k').
    { assert (V1 : mixture_class prs NonPolar -> mixture_class prs Polar -> False).
      { intros H (_ & pr & I & Q). destruct (H pr I). auto. }
      assert (V2 : mixture_class prs NonPolar -> mixture_class prs Associating -> False).
      { intros H (pr & I & Q). destruct (H pr I). auto. }
      assert (V3 : mixture_class prs Polar -> mixture_class prs Associating -> False).
      { intros (H & _) (pr & I & Q). apply (H pr I Q). }
      intros [ | | ] [ | | ] H H'; auto; exfalso; eauto. }
    assert (E : exists k, mixture_class prs k).
    { destruct (C17_index_sets _ _ _ Hp Hph) as (Id & Iq & Ia & _).
      pose proof (index_set_empty _ _ Id) as Ed. pose proof (index_set_empty _ _ Iq) as Eq. pose proof (index_set_empty _ _ Ia) as Ea.
      destruct (Nat.eq_dec (length (p_assoc_comp p)) 0) as [Za | Na]; [ | exists Associating; apply (index_set_some _ _ Ia Na)].
      destruct (Nat.eq_dec (length (p_dipole_comp p)) 0) as [Zd | Nd];
        [ | exists Polar; split; [apply Ea; auto | destruct (index_set_some _ _ Id Nd) as (pr & ? & ?); exists pr; auto]].
      destruct (Nat.eq_dec (length (p_quadpole_comp p)) 0) as [Zq | Nq];
        [ | exists Polar; split; [apply Ea; auto | destruct (index_set_some _ _ Iq Nq) as (pr & ? & ?); exists pr; auto]].
      exists NonPolar. intros pr I. split; [apply Ea; auto | ]. intros [Q | Q]; [apply (proj1 Ed Zd pr I) | apply (proj1 Eq Zq pr I)]; auto. }
    destruct E as (k & H). exists k. split; auto.
  Qed.

  (** the de Broglie term of a component: own record, class of the mixture *)
  Theorem C34_correlation k t : mixture_class prs k -> 0 < t ->
    @de_broglie_wavelength RNum p t (length prs) = map (fun pr => qspr_of k (pr_model pr) t) prs.
  Proof.
    intros Hk Ht. apply nth_ext with (d := 0) (d' := 0); [unfold de_broglie_wavelength; rewrite mk1_length, map_length; auto | ].
    unfold de_broglie_wavelength. rewrite mk1_length. intros i Hi.
    assert (E : nth_error prs i = Some (rec_of prs i)) by (apply nth_error_nth'; auto).
    transitivity (@qspr_lambda RNum p t i); [apply (@nth_mk1 R); auto | ].
    transitivity (qspr_of k (pr_model (rec_of prs i)) t).
    2:{ symmetry. apply nth_error_nth. rewrite nth_error_map, E. reflexivity. }
    destruct (C16_pure_values _ _ _ Hp i _ E) as (Em & Es & Ee & _ & Eq & Ek & Eea & _).
    unfold qspr_lambda. rewrite (qspr_coeffs_class k Hk).
    change (@ix RNum (p_epsilon_k p) i) with (nth i (p_epsilon_k p) 0). change (@ix RNum (p_m p) i) with (nth i (p_m p) 0).
    change (@ix RNum (p_sigma p) i) with (nth i (p_sigma p) 0). change (@ix RNum (p_q p) i) with (nth i (p_q p) 0).
    change (@ix RNum (p_kappa_ab p) i) with (nth i (p_kappa_ab p) 0). change (@ix RNum (p_epsilon_k_ab p) i) with (nth i (p_epsilon_k_ab p) 0).
    rewrite Em, Es, Ee, Eq, Ek, Eea.
    set (r := pr_model (rec_of prs i)).
    assert (G : forall c300 c400 : list Q,
      (let epsilon_kt := / t * r_epsilon_k r in
       let sigma3 := r_sigma r ^ 3 in
       let p1 := epsilon_kt * r_m r in let p2 := sigma3 * r_m r in let p3 := epsilon_kt * p2 in
       let p4 := (exp (/ t * opt_or (r_epsilon_k_ab r) 0) - 1) * p2 * sigma3 * opt_or (r_kappa_ab r) 0 in
       let p5 := p2 * opt_or (r_q r) 0 in
       let icpc300 := @qspr_icpc RNum c300 300 p1 p2 p3 p4 p5 1 in
       let icpc400 := @qspr_icpc RNum c400 400 p1 p2 p3 p4 p5 1 in
       let b := (icpc400 - icpc300) / (400 - 300) in
       let a := icpc300 - b * 300 in
       let k := a * (t - 298.15 - t * ln (t / 298.15)) - b * (t - 298.15) ^ 2 * 0.5 in
       k / (t * (6.022140857 * 1.38064852)) + ln (t * @q_kb RNum / (@q_p0 RNum * @q_a3 RNum))) = qspr_value (lits_of c300) (lits_of c400) r t).
    { intros c300 c400. unfold qspr_value, qspr_icpc.
      assert (C : forall (c : list Q) j, @cst RNum c j = nth j (lits_of c) 0).
      { intros c j. unfold cst, lits_of. rewrite <- (map_nth Rlit c 0%Q). reflexivity. }
      rewrite !C. cbv zeta. change (@nlit RNum 0.001%Q) with 0.001. change (@nmul RNum) with Rmult. change (@ndiv RNum) with Rdiv. change (@nadd RNum) with Rplus.
      replace (opt_or (r_epsilon_k_ab r) 0 / t) with (/ t * opt_or (r_epsilon_k_ab r) 0) by (unfold Rdiv; ring).
      assert (E1 : t * @q_kb RNum / (@q_p0 RNum * @q_a3 RNum) = t * 1.38064852e-23 / (1e5 * 1e-30)).
      { assert (K1 : @q_kb RNum = 1.38064852e-23) by (unfold q_kb; rn; lits; lra).
        assert (K2 : @q_p0 RNum = 1e5) by (unfold q_p0; match goal with |- @nlit RNum ?q = _ => let v := eval vm_compute in q in change q with v end; rn; lits; lra).
        assert (K3 : @q_a3 RNum = 1e-30) by (unfold q_a3; rn; lits; lra). rewrite K1, K2, K3. reflexivity. }
      rewrite E1. f_equal. generalize (nth 0 (lits_of c300) 0) (nth 1 (lits_of c300) 0) (nth 2 (lits_of c300) 0) (nth 3 (lits_of c300) 0) (nth 4 (lits_of c300) 0) (nth 5 (lits_of c300) 0).
      generalize (nth 0 (lits_of c400) 0) (nth 1 (lits_of c400) 0) (nth 2 (lits_of c400) 0) (nth 3 (lits_of c400) 0) (nth 4 (lits_of c400) 0) (nth 5 (lits_of c400) 0).
      intros. replace 0.5 with (/ 2) by lra. replace 0.001 with (/ 1000) by lra. replace (400 - 300) with 100 by lra. unfold Rdiv. ring. }
    destruct k; apply G.
  Qed.

  (** same ideal value for every component at the reference temperature *)
  Theorem C34_reference_temperature :
    @de_broglie_wavelength RNum p (@q_t0 RNum) (length prs) =
    map (fun _ => ln (298.15 * 1.38064852e-23 / (1e5 * 1e-30))) prs.
  Proof.
    destruct C34_one_class as (k & Hk & _). change (@q_t0 RNum) with 298.15. rewrite (C34_correlation k) by (auto; lra).
    apply map_ext. intros pr. unfold qspr_of, qspr_value. cbv zeta.
    replace (298.15 / 298.15) with 1 by lra. rewrite ln_1.
    match goal with |- (?a * ?b - ?c * ?d / 2) / ?e + ?f = ?f => replace b with 0 by ring; replace d with 0 by ring end.
    unfold Rdiv. ring.
  Qed.

  (** Joback records are used iff every component has one *)
  Theorem C34_model_choice o :
    (e_ideal_gas (with_options p o) = IG_QSPR <-> exists pr, In pr prs /\ pr_ideal_gas pr = None) /\
    forall l, e_ideal_gas (with_options p o) = IG_Joback l -> map pr_ideal_gas prs = map Some l.
  Proof.
    assert (E : p_joback p = collect_opt (map pr_ideal_gas prs)) by (rewrite (from_records_raw_of _ _ _ Hp); reflexivity).
    unfold with_options. cbn [e_ideal_gas]. rewrite E. destruct (collect_opt (map pr_ideal_gas prs)) as [l | ] eqn:C.
    - apply collect_opt_spec in C. split.
      + split; [discriminate | ]. intros (pr & I & N). exfalso. apply (in_map pr_ideal_gas) in I. rewrite C, N in I.
        apply in_map_iff in I. destruct I as (x & X & _). discriminate.
      + intros l' H. injection H as <-. auto.
    - split; [ | discriminate]. split; auto. intros _.
      destruct (Classical_Prop.classic (exists pr, In pr prs /\ pr_ideal_gas pr = None)) as [ | N]; auto. exfalso.
      assert (X : exists l, map pr_ideal_gas prs = map Some l).
      { clear -N. induction prs as [ | pr l IH]; [exists []; auto | ].
        destruct IH as (l' & E); [intros (q & I & Q); apply N; exists q; split; auto; right; auto | ].
        destruct (pr_ideal_gas pr) as [j | ] eqn:J; [ | exfalso; apply N; exists pr; split; [left; auto | auto]].
        exists (j :: l'). cbn. rewrite J, E. auto. }
      destruct X as (l & X). assert (Y : collect_opt (map pr_ideal_gas prs) = Some l) by (apply collect_opt_spec; auto). congruence.
  Qed.
End C34.

(* ------------------------------------------------------------------------- non-vacuity *)

Definition gas : list (pure_record RNum) := [pr_propane; pr_butane].
Definition gas_p : params RNum := from_records_raw gas (zeros 2).
Lemma gas_ok : from_records gas (zeros 2) = Some gas_p. Proof. reflexivity. Qed.
Lemma gas_phys : forall pr, In pr gas -> physical_record (pr_model pr) /\ 0 < pr_molarweight pr.
Proof. intros pr [<- | [<- | []]]; cbn; unfold physical_record; cbn; lra. Qed.
Definition prop_p : params RNum := from_records_raw [pr_propane] (zeros 1).
Lemma prop_ok : from_records [pr_propane] (zeros 1) = Some prop_p. Proof. reflexivity. Qed.

(** propane: correlations available, reference values; propane + butane: no coefficients, mixture rejected *)
Example C24_case o :
  viscosity_correlation (with_options prop_p o) (-2) [1] =
    @TOk RNum (viscosity_polynomial (-0.8013, -1.9972, -0.2907, -0.0467) (-2 / 2.001829)) /\
  viscosity_correlation (with_options gas_p o) (-2) [0.5; 0.5] = @TPanic RNum /\
  diffusion_correlation (with_options gas_p o) (-2) [0.5; 0.5] = @TErr RNum (IncompatibleComponents 2 1) /\
  exists d, diffusion_reference (with_options prop_p o) 300 1 [2] = @TOk RNum d /\ 0 < d.
Proof.
  split; [apply (C24_pure_correlations pr_propane _ _ o prop_ok); [cbn; lra | reflexivity] | ].
  split; [apply (C24_viscosity_panics _ _ _ o gas_ok); exists pr_butane; split; [right; left; auto | reflexivity] | ].
  split; [exact (proj1 (proj2 (C25_mixtures_rejected _ _ _ o gas_ok (fun _ _ _ _ => None) 1 1 [] (-2) [0.5; 0.5] ltac:(cbn; lia)))) | ].
  apply (C27_diffusion_reference [pr_propane] (zeros 1) prop_p o prop_ok) with (pr := pr_propane); auto; try lra.
  intros pr [<- | []]; cbn; unfold physical_record; cbn; lra.
Qed.

Example C26_case o : exists eta eta',
  viscosity_reference (with_options gas_p o) 300 1 [2; 3] = @TOk RNum eta /\ 0 < eta /\
  viscosity_reference (with_options gas_p o) 300 1 [4; 6] = @TOk RNum eta /\
  viscosity_reference (with_options prop_p o) 300 1 [2] = @TOk RNum eta' /\ 0 < eta' /\
  viscosity_reference (with_options gas_p o) 300 1 [2; 0] = @TOk RNum eta'.
Proof.
  destruct (C26_positive _ _ _ o gas_ok gas_phys 300 1 [2; 3]) as (eta & E & P); try lra; auto.
  { intros [ | [ | i]] Hi; cbn in *; try lra; lia. } { cbn. lra. }
  pose proof (C26_pure pr_propane (zeros 1) prop_p o 300 1 2 prop_ok) as Q.
  exists eta. eexists. split; [exact E | ]. split; [exact P | ]. split.
  { rewrite <- E. rewrite <- (C26_intensive _ _ _ o gas_ok gas_phys 300 1 1 [2; 3] 2) by lra. f_equal; cbn; repeat (f_equal; try lra). }
  split; [apply Q; try (unfold physical_record; cbn); lra | ]. split; [apply chapman_enskog_pos; cbn; lra | ].
  rewrite <- Q; try (unfold physical_record; cbn); try lra.
  assert (S : subset gas_p [0%nat] = Some prop_p) by reflexivity.
  symmetry. change [2] with (pick [2; 0] [0%nat]).
  apply (C26_relabelling gas (zeros 2) gas_p prop_p [0%nat] o 300 1 [2; 0] gas_ok S gas_phys); try lra; auto.
  { constructor; [auto | constructor]. }
  intros [ | [ | j]] Hj N; cbn in *; try lia; auto.
Qed.

(** a functional determined by the residual: the residual itself, at physical states *)
Example C28_case o :
  let entropy := fun e t v moles =>
    if ClassicalDescription.excluded_middle_informative (phys_state (e_params e) t v moles)
    then @residual RNum (fun _ _ => None) e (@state_new RNum t v moles) else None in
  determined_by_residual entropy /\
  exists s, entropy (with_options prop_p o) 300 1000 [1] = Some s /\
    thermal_conductivity_reference entropy (with_options prop_p o) 300 1000 [1] = @TOk RNum (thermal_reference pr_propane 300 s).
Proof.
  intros entropy. assert (Ph : physical_record (pr_model pr_propane)) by (unfold physical_record; cbn; lra).
  assert (PS : phys_state prop_p 300 1000 [1]).
  { apply phys_state_intro; try lra; try reflexivity.
    - exact (one_phys pr_propane (zeros 1) prop_p prop_ok Ph).
    - intros i Hi. cbn in Hi. destruct i; cbn; try lra; lia.
    - exists 0%nat. cbn. split; [lia | lra].
    - cbn. lra. }
  assert (D : determined_by_residual entropy).
  { intros e e' E H t v moles. unfold entropy. rewrite <- E.
    destruct (ClassicalDescription.excluded_middle_informative _) as [P | ]; auto. }
  split; auto.
  assert (X : exists s, entropy (with_options prop_p o) 300 1000 [1] = Some s).
  { unfold entropy. cbn [with_options e_params]. destruct (ClassicalDescription.excluded_middle_informative _) as [P | ]; [ | contradiction].
    rewrite C19_residual_is_sum. pose proof (one_nassoc pr_propane (zeros 1) prop_p prop_ok Ph) as N.
    destruct (p_nassoc prop_p) as [ | [ | k]]; [eauto | eauto | lia]. }
  destruct X as (s & X). exists s. split; auto.
  rewrite (C28_options_respected pr_propane (zeros 1) prop_p prop_ok Ph entropy o 300 1000 [1] D) by lra. rewrite X. reflexivity.
Qed.

(** the ideal-gas term of a component depends on the other components, even absent ones:
    propane alone is non-polar, in a mixture with water it is treated with the associating coefficients *)
Theorem C34_other_components_refuted : exists prs bin p prs' bin' p' pr t,
  from_records prs bin = Some p /\ from_records prs' bin' = Some p' /\
  (forall q, In q prs' -> physical_record (pr_model q)) /\ 0 < t /\
  nth_error prs 0 = Some pr /\ nth_error prs' 0 = Some pr /\
  nth 0 (@de_broglie_wavelength RNum p t (length prs)) 0 <> nth 0 (@de_broglie_wavelength RNum p' t (length prs')) 0.
Proof.
  exists [pr_propane], (zeros 1), prop_p, [pr_propane; pr_water], (zeros 2), (from_records_raw [pr_propane; pr_water] (zeros 2)), pr_propane, 400.
  assert (Ph : forall q, In q [pr_propane; pr_water] -> physical_record (pr_model q)).
  { intros q [<- | [<- | []]]; unfold physical_record; cbn; lra. }
  assert (Ph1 : forall q, In q [pr_propane] -> physical_record (pr_model q)) by (intros q [<- | []]; apply Ph; left; auto).
  split; [reflexivity | ]. split; [reflexivity | ]. split; [exact Ph | ]. split; [lra | ]. split; [reflexivity | ]. split; [reflexivity | ].
  assert (K1 : mixture_class [pr_propane] NonPolar).
  { intros q [<- | []]. cbn. split; [lra | ]. intros [C | C]; lra. }
  assert (K2 : mixture_class [pr_propane; pr_water] Associating).
  { exists pr_water. split; [right; left; auto | ]. cbn. lra. }
  assert (T : 0 < 400) by lra.
  rewrite (C34_correlation [pr_propane] (zeros 1) prop_p prop_ok Ph1 NonPolar 400 K1 T).
  rewrite (C34_correlation [pr_propane; pr_water] (zeros 2) _ eq_refl Ph Associating 400 K2 T).
  cbn [map nth]. unfold qspr_of, qspr_value, class_coeffs, lits_of. unfold NA_NP_300, NA_NP_400, AP_300, AP_400.
  cbn [map nth fst snd pr_propane pr_model r_epsilon_k r_m r_sigma r_epsilon_k_ab r_kappa_ab r_q opt_or]. cbv zeta.
  lits.
  apply Rlt_not_eq. apply Rlt_trans with 10.45; interval.
Qed.

Example C34_case : exists p k, from_records sample_prs sample_bin = Some p /\ mixture_class sample_prs k /\ k = Associating.
Proof.
  exists sample, Associating. split; [reflexivity | ]. split; auto.
  exists pr_water. split; [right; right; left; auto | cbn; lra].
Qed.

Print Assumptions C24_viscosity_panics.
Print Assumptions C24_pure_correlations_panic.
Print Assumptions C24_pure_correlations.
Print Assumptions C25_mixtures_rejected.
Print Assumptions C25_pure_accepted.
Print Assumptions C26_wilke.
Print Assumptions C26_positive.
Print Assumptions C26_intensive.
Print Assumptions C26_identical.
Print Assumptions C26_pure.
Print Assumptions C26_regrouping.
Print Assumptions C26_relabelling.
Print Assumptions C26_correlation_regrouping.
Print Assumptions C26_correlation_identical.
Print Assumptions C27_omega11_positive.
Print Assumptions C27_omega11_decreasing.
Print Assumptions C27_omega22_positive.
Print Assumptions C27_diffusion_reference.
Print Assumptions C27_thermal_conductivity_chapman_enskog.
Print Assumptions C27_thermal_conductivity_reference.
Print Assumptions C28_residual_independent_of_options.
Print Assumptions C28_options_respected.
Print Assumptions C34_one_class.
Print Assumptions C34_correlation.
Print Assumptions C34_reference_temperature.
Print Assumptions C34_model_choice.
Print Assumptions C34_other_components_refuted.
