(** C51: the association energy as a maximum; stronger or more bonds never raise it. *)
From Coq Require Import ZArith QArith Reals Lra Lia String List Bool Arith Permutation.
From Coquelicot Require Import Coquelicot.
From Interval Require Import Tactic.
From Verif Require Import Num RNum RSum Tables M_Params F_Params M_Eos Spec F_Spec F_SpecPolar
  F_SpecAssoc F_Contrib F_Lump F_Total F_Lump2 F_XParams Samples P_Params P_Select P_Basic P_Lump
  F_Newton F_MassAction F_MassAction2 F_Gauss F_NewtonR F_Cross P_Assoc P_Assoc2 P_Cross P_Converge P_Split.
Import ListNotations.
Local Open Scope R_scope.
Set Bullet Behavior "Strict Subproofs".
Notation length := List.length.

(* ------------------------------------------------------------------ the functional of the fractions *)

(** The energy density of any distribution of unbonded fractions (Michelsen and Hendriks 2001): the
    entropy of the sites and the bonds they form. *)
Definition trial (X : mixture) (T : R) (rho xa xb : nat -> R) : R :=
  (Sum i < N X, rho i * (Na X i * (ln (xa i) - xa i + 1) + Nb X i * (ln (xb i) - xb i + 1)))
  - Sum i < N X, Sum j < N X, rho i * Na X i * (rho j * Nb X j) * Delta X T rho i j * xa i * xb j.

Lemma Delta_sym X T rho i j : Delta X T rho i j = Delta X T rho j i.
Proof.
  unfold Delta, Kapij, Gij, Sij. rewrite (Rmult_comm (Kab X j)), (Rmult_comm (Sg X j)), (Rplus_comm (Sg X j)), (Rplus_comm (Eab X j)),
    (Rmult_comm (Di X T j)), (Rplus_comm (Di X T j)). reflexivity.
Qed.

Section Maximum.
  Variables (X : mixture) (T : R) (rho : nat -> R).
  Hypothesis Dn : forall i j, (i < N X)%nat -> (j < N X)%nat -> 0 <= Delta X T rho i j.
  Hypothesis Rn : forall i, (i < N X)%nat -> 0 <= rho i.
  Hypothesis Sn : forall i, (i < N X)%nat -> 0 <= Na X i /\ 0 <= Nb X i.
  Notation D := (Delta X T rho).
  Definition positive (xa xb : nat -> R) : Prop := forall i, (i < N X)%nat -> 0 < xa i /\ 0 < xb i.

  Lemma bonds_balance xa xb : mass_action X T rho xa xb ->
    (Sum i < N X, Sum j < N X, rho i * Na X i * (rho j * Nb X j) * D i j * xa i * xb j) = Sum i < N X, rho i * Na X i * (1 - xa i).
  Proof.
    intros H. apply Sum_ext. intros i Hi. destruct (H i Hi) as [E _].
    transitivity (rho i * Na X i * (xa i * Sum j < N X, rho j * Nb X j * xb j * D i j)).
    - rewrite <- rsum_scal, <- rsum_scal. apply Sum_ext. intros j Hj. ring.
    - f_equal. lra.
  Qed.
  Lemma bonds_balance_b xa xb : mass_action X T rho xa xb ->
    (Sum i < N X, Sum j < N X, rho i * Na X i * (rho j * Nb X j) * D i j * xa i * xb j) = Sum j < N X, rho j * Nb X j * (1 - xb j).
  Proof.
    intros H. rewrite rsum_swap. apply Sum_ext. intros j Hj. destruct (H j Hj) as [_ E].
    transitivity (rho j * Nb X j * (xb j * Sum i < N X, rho i * Na X i * xa i * D j i)).
    - rewrite <- rsum_scal, <- rsum_scal. apply Sum_ext. intros i Hi. rewrite (Delta_sym X T rho j i). ring.
    - f_equal. lra.
  Qed.

  (** on the solution of the mass-action law the trial energy is the association energy *)
  Lemma trial_law xa xb : mass_action X T rho xa xb -> trial X T rho xa xb = f_assoc_xx X rho xa xb.
  Proof.
    intros H. unfold trial, f_assoc_xx.
    pose proof (bonds_balance xa xb H) as B1. pose proof (bonds_balance_b xa xb H) as B2.
    set (S := Sum i < N X, Sum j < N X, _) in *.
    assert (E : S = / 2 * (Sum i < N X, rho i * (Na X i * (1 - xa i) + Nb X i * (1 - xb i)))).
    { rewrite <- (rsum_ext _ (fun i => rho i * Na X i * (1 - xa i) + rho i * Nb X i * (1 - xb i))) by (intros; ring).
      rewrite rsum_plus. lra. }
    rewrite E, <- rsum_scal, <- rsum_minus. apply Sum_ext. intros i Hi. unfold fx. field.
  Qed.

  Lemma trial_le xa xb ya yb : mass_action X T rho xa xb -> positive xa xb -> positive ya yb ->
    trial X T rho ya yb <= trial X T rho xa xb.
  Proof.
    intros H Px Py. set (s i := ln (ya i) - ln (xa i)). set (u i := ln (yb i) - ln (xb i)).
    assert (Es : forall i, (i < N X)%nat -> ya i = xa i * exp (s i) /\ yb i = xb i * exp (u i)).
    { intros i Hi. destruct (Px i Hi) as [P1 P2]. destruct (Py i Hi) as [P3 P4]. unfold s, u, Rminus.
      rewrite !exp_plus, !exp_Ropp, !exp_ln by auto. split; field; lra. }
    assert (Z : (Sum i < N X, rho i * (Na X i * (s i * (1 - xa i)) + Nb X i * (u i * (1 - xb i))))
      - (Sum i < N X, Sum j < N X, rho i * Na X i * (rho j * Nb X j) * D i j * xa i * xb j * (s i + u j)) = 0).
    { assert (E1 : (Sum i < N X, Sum j < N X, rho i * Na X i * (rho j * Nb X j) * D i j * xa i * xb j * (s i + u j))
        = (Sum i < N X, rho i * Na X i * s i * (1 - xa i)) + Sum i < N X, rho i * Nb X i * u i * (1 - xb i)).
      { transitivity ((Sum i < N X, Sum j < N X, rho i * Na X i * (rho j * Nb X j) * D i j * xa i * xb j * s i)
          + Sum i < N X, Sum j < N X, rho i * Na X i * (rho j * Nb X j) * D i j * xa i * xb j * u j).
        - rewrite <- rsum_plus. apply Sum_ext. intros i Hi. rewrite <- rsum_plus. apply Sum_ext. intros j Hj. ring.
        - f_equal.
          + apply Sum_ext. intros i Hi. destruct (H i Hi) as [E _].
            transitivity (rho i * Na X i * s i * (xa i * Sum j < N X, rho j * Nb X j * xb j * D i j)).
            * rewrite <- rsum_scal, <- rsum_scal. apply Sum_ext. intros j Hj. ring.
            * f_equal. lra.
          + rewrite rsum_swap. apply Sum_ext. intros j Hj. destruct (H j Hj) as [_ E].
            transitivity (rho j * Nb X j * u j * (xb j * Sum i < N X, rho i * Na X i * xa i * D j i)).
            * rewrite <- rsum_scal, <- rsum_scal. apply Sum_ext. intros i Hi. rewrite (Delta_sym X T rho j i). ring.
            * f_equal. lra. }
      rewrite E1, <- rsum_plus, <- rsum_minus. apply rsum_zero. intros i _. ring. }
    unfold trial.
    assert (A1 : (Sum i < N X, rho i * (Na X i * (ln (ya i) - ya i + 1) + Nb X i * (ln (yb i) - yb i + 1)))
      <= (Sum i < N X, rho i * (Na X i * (ln (xa i) - xa i + 1) + Nb X i * (ln (xb i) - xb i + 1)))
       + Sum i < N X, rho i * (Na X i * (s i * (1 - xa i)) + Nb X i * (u i * (1 - xb i)))).
    { rewrite <- rsum_plus. apply rsum_le. intros i Hi. apply seq_in in Hi. rewrite <- Rmult_plus_distr_l.
      apply Rmult_le_compat_l; [auto | ]. destruct (Sn i Hi) as [S1 S2]. destruct (Px i Hi) as [P1 P2]. destruct (Es i Hi) as [E1 E2].
      pose proof (exp_ineq1_le (s i)) as I1. pose proof (exp_ineq1_le (u i)) as I2.
      assert (L1 : ln (ya i) = ln (xa i) + s i) by (unfold s; ring). assert (L2 : ln (yb i) = ln (xb i) + u i) by (unfold u; ring).
      rewrite L1, L2, E1, E2.
      assert (xa i * (1 + s i) <= xa i * exp (s i)) by (apply Rmult_le_compat_l; lra).
      assert (xb i * (1 + u i) <= xb i * exp (u i)) by (apply Rmult_le_compat_l; lra).
      assert (Na X i * (ln (xa i) + s i - xa i * exp (s i) + 1) <= Na X i * (ln (xa i) - xa i + 1 + s i * (1 - xa i))) by (apply Rmult_le_compat_l; lra).
      assert (Nb X i * (ln (xb i) + u i - xb i * exp (u i) + 1) <= Nb X i * (ln (xb i) - xb i + 1 + u i * (1 - xb i))) by (apply Rmult_le_compat_l; lra).
      lra. }
    assert (A2 : (Sum i < N X, Sum j < N X, rho i * Na X i * (rho j * Nb X j) * D i j * xa i * xb j)
      + (Sum i < N X, Sum j < N X, rho i * Na X i * (rho j * Nb X j) * D i j * xa i * xb j * (s i + u j))
      <= Sum i < N X, Sum j < N X, rho i * Na X i * (rho j * Nb X j) * D i j * ya i * yb j).
    { rewrite <- rsum_plus. apply rsum_le. intros i Hi. apply seq_in in Hi. rewrite <- rsum_plus. apply rsum_le. intros j Hj. apply seq_in in Hj.
      destruct (Es i Hi) as [E1 _]. destruct (Es j Hj) as [_ E2]. rewrite E1, E2.
      set (w := rho i * Na X i * (rho j * Nb X j) * D i j * xa i * xb j).
      replace (rho i * Na X i * (rho j * Nb X j) * D i j * (xa i * exp (s i)) * (xb j * exp (u j))) with (w * exp (s i + u j)) by (unfold w; rewrite exp_plus; ring).
      assert (0 <= w).
      { unfold w. destruct (Sn i Hi). destruct (Sn j Hj). destruct (Px i Hi). destruct (Px j Hj). pose proof (Rn i Hi). pose proof (Rn j Hj). generalize (Dn i j Hi Hj).
        generalize (D i j); intros dd Hdd; repeat apply Rmult_le_pos; lra. }
      assert (w * (1 + (s i + u j)) <= w * exp (s i + u j)) by (apply Rmult_le_compat_l; [auto | apply exp_ineq1_le]). lra. }
    lra.
  Qed.
End Maximum.

(** The unbonded fractions of the mass-action law maximise the trial energy, and the maximum is the
    association energy. *)
Theorem C51_maximum prs bin p t v moles xa xb : from_records prs bin = Some p -> phys p -> assoc_phys p -> phys_state p t v moles ->
  let X := published prs bin in let rho i := nth i moles 0 / v in
  mass_action X t rho xa xb -> (forall i, (i < N X)%nat -> 0 < xa i /\ 0 < xb i) ->
  trial X t rho xa xb = f_assoc_xx X rho xa xb /\
  forall ya yb, (forall i, (i < N X)%nat -> 0 < ya i /\ 0 < yb i) -> trial X t rho ya yb <= f_assoc_xx X rho xa xb.
Proof.
  intros Hp Hph Hap PS X rho. unfold X. rewrite <- (mix_of_published _ _ _ Hp). intros M P.
  pose proof (trial_law (mix_of p) t rho xa xb M) as E. split; [exact E | ]. intros ya yb Py. rewrite <- E.
  apply trial_le; auto.
  - intros i j Hi Hj. apply (Delta_nonneg p Hph Hap t v moles PS); auto.
  - intros i Hi. apply Rmult_le_pos; [apply (ps_nonneg _ _ _ _ PS); auto | left; apply Rinv_0_lt_compat, (ps_v _ _ _ _ PS)].
  - intros i Hi. destruct (Hap i Hi) as (_ & _ & A & B). split; [exact A | exact B].
Qed.

(* ------------------------------------------------------------------ comparing two mixtures *)

(** the second record describes the same substance with sites that bond at least as strongly and
    are at least as many; transport coefficients and names do not matter *)
Definition at_least_as_associating (a b : pure_record RNum) : Prop :=
  let r := pr_model a in let r' := pr_model b in
  r_m r' = r_m r /\ r_sigma r' = r_sigma r /\ r_epsilon_k r' = r_epsilon_k r /\ r_mu r' = r_mu r /\ r_q r' = r_q r /\
  opt_or (r_kappa_ab r) 0 <= opt_or (r_kappa_ab r') 0 /\ opt_or (r_epsilon_k_ab r) 0 <= opt_or (r_epsilon_k_ab r') 0 /\
  opt_or (r_na r) 1 <= opt_or (r_na r') 1 /\ opt_or (r_nb r) 1 <= opt_or (r_nb r') 1.

Section Compare.
  Variables (prs prs' : list (pure_record RNum)) (bin : list (list R)) (p p' : params RNum).
  Hypothesis Hp : from_records prs bin = Some p.
  Hypothesis Hp' : from_records prs' bin = Some p'.
  Hypothesis Hs : Forall2 at_least_as_associating prs prs'.
  Hypothesis Hph : phys p.
  Hypothesis Hap : assoc_phys p.

  Lemma cmp_len : length prs' = length prs.
  Proof. clear -Hs. induction Hs; cbn [List.length]; auto. Qed.
  Lemma cmp_map {A} (f : pcsaft_record RNum -> A) :
    (forall a b, at_least_as_associating a b -> f (pr_model b) = f (pr_model a)) ->
    map f (map pr_model prs') = map f (map pr_model prs).
  Proof. intros H. clear -Hs H. induction Hs; cbn [map]; auto. rewrite IHf0; auto. rewrite (H _ _ H0). reflexivity. Qed.
  Lemma cmp_nth i : (i < length prs)%nat -> at_least_as_associating (nth i prs default_pure) (nth i prs' default_pure).
  Proof.
    clear -Hs. revert i. induction Hs as [ | a b l l' H Hf IH]; cbn [length nth]; intros [ | i] Hi; try lia; auto. apply IH; auto. lia.
  Qed.

  Lemma cmp_m : p_m p' = p_m p. Proof. rewrite (from_records_raw_of _ _ _ Hp), (from_records_raw_of _ _ _ Hp'). apply cmp_map. intros a b H. apply H. Qed.
  Lemma cmp_sigma : p_sigma p' = p_sigma p. Proof. rewrite (from_records_raw_of _ _ _ Hp), (from_records_raw_of _ _ _ Hp'). apply cmp_map. intros a b H. apply H. Qed.
  Lemma cmp_eps : p_epsilon_k p' = p_epsilon_k p. Proof. rewrite (from_records_raw_of _ _ _ Hp), (from_records_raw_of _ _ _ Hp'). apply cmp_map. intros a b H. apply H. Qed.
  Lemma cmp_mu : p_mu p' = p_mu p.
  Proof. rewrite (from_records_raw_of _ _ _ Hp), (from_records_raw_of _ _ _ Hp'). apply (cmp_map (fun r => unwrap_or (r_mu r) n0)). intros a b H. destruct H as (_ & _ & _ & -> & _). reflexivity. Qed.
  Lemma cmp_q : p_q p' = p_q p.
  Proof. rewrite (from_records_raw_of _ _ _ Hp), (from_records_raw_of _ _ _ Hp'). apply (cmp_map (fun r => unwrap_or (r_q r) n0)). intros a b H. destruct H as (_ & _ & _ & _ & -> & _). reflexivity. Qed.
  Lemma raw_mu2 l : p_mu2 (@from_records_raw RNum l bin) = mk1 (length l) (fun i => mu2_of (ix (p_mu (@from_records_raw RNum l bin)) i) (ix (p_m (@from_records_raw RNum l bin)) i) (ix (p_sigma (@from_records_raw RNum l bin)) i) (ix (p_epsilon_k (@from_records_raw RNum l bin)) i)).
  Proof. reflexivity. Qed.
  Lemma raw_q2 l : p_q2 (@from_records_raw RNum l bin) = mk1 (length l) (fun i => q2_of (ix (p_q (@from_records_raw RNum l bin)) i) (ix (p_m (@from_records_raw RNum l bin)) i) (ix (p_sigma (@from_records_raw RNum l bin)) i) (ix (p_epsilon_k (@from_records_raw RNum l bin)) i)).
  Proof. reflexivity. Qed.
  Lemma cmp_mu2 : p_mu2 p' = p_mu2 p.
  Proof.
    pose proof cmp_m as A. pose proof cmp_sigma as B. pose proof cmp_eps as C. pose proof cmp_mu as E.
    rewrite (from_records_raw_of _ _ _ Hp), (from_records_raw_of _ _ _ Hp') in *. rewrite !raw_mu2, A, B, C, E, cmp_len. reflexivity.
  Qed.
  Lemma cmp_q2 : p_q2 p' = p_q2 p.
  Proof.
    pose proof cmp_m as A. pose proof cmp_sigma as B. pose proof cmp_eps as C. pose proof cmp_q as E.
    rewrite (from_records_raw_of _ _ _ Hp), (from_records_raw_of _ _ _ Hp') in *. rewrite !raw_q2, A, B, C, E, cmp_len. reflexivity.
  Qed.
  (** the second parameter set is the first with the association parameters replaced *)
  Definition replaced : params RNum :=
    {| p_molarweight := p_molarweight p'; p_m := p_m p; p_sigma := p_sigma p; p_epsilon_k := p_epsilon_k p;
       p_mu := p_mu p; p_q := p_q p; p_mu2 := p_mu2 p; p_q2 := p_q2 p;
       p_kappa_ab := p_kappa_ab p'; p_epsilon_k_ab := p_epsilon_k_ab p'; p_na := p_na p'; p_nb := p_nb p';
       p_kappa_aibj := p_kappa_aibj p'; p_epsilon_k_aibj := p_epsilon_k_aibj p';
       p_k_ij := p_k_ij p; p_sigma_ij := p_sigma_ij p; p_epsilon_k_ij := p_epsilon_k_ij p; p_e_k_ij := p_e_k_ij p;
       p_ndipole := p_ndipole p; p_nquadpole := p_nquadpole p; p_nassoc := p_nassoc p';
       p_dipole_comp := p_dipole_comp p; p_quadpole_comp := p_quadpole_comp p; p_assoc_comp := p_assoc_comp p';
       p_viscosity := p_viscosity p'; p_diffusion := p_diffusion p'; p_thermal := p_thermal p';
       p_pure_records := p_pure_records p'; p_binary_records := p_binary_records p'; p_joback := p_joback p' |}.
  Lemma cmp_replaced : p' = replaced.
  Proof.
    pose proof cmp_m as A. pose proof cmp_sigma as B. pose proof cmp_eps as C. pose proof cmp_mu as E. pose proof cmp_q as F.
    pose proof cmp_mu2 as G. pose proof cmp_q2 as H. pose proof cmp_len as L.
    apply params_ext; unfold replaced;
      cbn [p_molarweight p_m p_sigma p_epsilon_k p_mu p_q p_mu2 p_q2 p_kappa_ab p_epsilon_k_ab p_na p_nb p_kappa_aibj p_epsilon_k_aibj p_k_ij p_sigma_ij
        p_epsilon_k_ij p_e_k_ij p_ndipole p_nquadpole p_nassoc p_dipole_comp p_quadpole_comp p_assoc_comp p_viscosity p_diffusion p_thermal p_pure_records p_binary_records p_joback];
      auto.
    - rewrite (from_records_raw_of _ _ _ Hp), (from_records_raw_of _ _ _ Hp'). reflexivity.
    - rewrite (from_records_raw_of _ _ _ Hp), (from_records_raw_of _ _ _ Hp') in *.
      change (@mk2 R (length prs') (length prs') (fun i j => @nmul RNum (nlit 0.5%Q) (@nadd RNum (ix (p_sigma (@from_records_raw RNum prs' bin)) i) (ix (p_sigma (@from_records_raw RNum prs' bin)) j)))
        = @mk2 R (length prs) (length prs) (fun i j => @nmul RNum (nlit 0.5%Q) (@nadd RNum (ix (p_sigma (@from_records_raw RNum prs bin)) i) (ix (p_sigma (@from_records_raw RNum prs bin)) j)))).
      rewrite B, L. reflexivity.
    - rewrite (from_records_raw_of _ _ _ Hp), (from_records_raw_of _ _ _ Hp') in *.
      change (@mk2 R (length prs') (length prs') (fun i j => @nmul RNum (@nsub RNum (nlit 1%Q) (@ix2 RNum bin i j)) (@nsqrt RNum (@nmul RNum (ix (p_epsilon_k (@from_records_raw RNum prs' bin)) i) (ix (p_epsilon_k (@from_records_raw RNum prs' bin)) j))))
        = @mk2 R (length prs) (length prs) (fun i j => @nmul RNum (@nsub RNum (nlit 1%Q) (@ix2 RNum bin i j)) (@nsqrt RNum (@nmul RNum (ix (p_epsilon_k (@from_records_raw RNum prs bin)) i) (ix (p_epsilon_k (@from_records_raw RNum prs bin)) j))))).
      rewrite C, L. reflexivity.
    - rewrite (from_records_raw_of _ _ _ Hp), (from_records_raw_of _ _ _ Hp') in *.
      change (@mk2 R (length prs') (length prs') (fun i j => @nsqrt RNum (@nmul RNum (ix (p_epsilon_k (@from_records_raw RNum prs' bin)) i) (ix (p_epsilon_k (@from_records_raw RNum prs' bin)) j)))
        = @mk2 R (length prs) (length prs) (fun i j => @nsqrt RNum (@nmul RNum (ix (p_epsilon_k (@from_records_raw RNum prs bin)) i) (ix (p_epsilon_k (@from_records_raw RNum prs bin)) j)))).
      rewrite C, L. reflexivity.
    - rewrite (from_records_raw_of _ _ _ Hp), (from_records_raw_of _ _ _ Hp') in *.
      change (length (nonzero_comp (p_mu2 (@from_records_raw RNum prs' bin))) = length (nonzero_comp (p_mu2 (@from_records_raw RNum prs bin)))). rewrite G. reflexivity.
    - rewrite (from_records_raw_of _ _ _ Hp), (from_records_raw_of _ _ _ Hp') in *.
      change (length (nonzero_comp (p_q2 (@from_records_raw RNum prs' bin))) = length (nonzero_comp (p_q2 (@from_records_raw RNum prs bin)))). rewrite H. reflexivity.
    - rewrite (from_records_raw_of _ _ _ Hp), (from_records_raw_of _ _ _ Hp') in *.
      change (nonzero_comp (p_mu2 (@from_records_raw RNum prs' bin)) = nonzero_comp (p_mu2 (@from_records_raw RNum prs bin))). rewrite G. reflexivity.
    - rewrite (from_records_raw_of _ _ _ Hp), (from_records_raw_of _ _ _ Hp') in *.
      change (nonzero_comp (p_q2 (@from_records_raw RNum prs' bin)) = nonzero_comp (p_q2 (@from_records_raw RNum prs bin))). rewrite H. reflexivity.
  Qed.
  Lemma cmp_others o s : a_hs p' s = a_hs p s /\ a_hc p' s = a_hc p s /\ a_disp p' s = a_disp p s /\ a_dipole p' s = a_dipole p s /\
    a_quadrupole p' s = a_quadrupole p s /\ a_dq p' o s = a_dq p o s.
  Proof. rewrite cmp_replaced. repeat split. Qed.

  Notation X := (mix_of p).
  Notation X' := (mix_of p').
  Lemma ix_map_nth (f : pcsaft_record RNum -> R) l i : (i < length l)%nat -> @ix RNum (map f (map pr_model l)) i = f (pr_model (nth i l default_pure)).
  Proof.
    intros Hi. unfold ix. rewrite map_map. rewrite (nth_indep _ _ (f (pr_model default_pure))) by (rewrite map_length; auto).
    apply (map_nth (fun r => f (pr_model r))).
  Qed.
  Lemma cmp_N : length (p_m p) = length prs.
  Proof. rewrite (from_records_raw_of _ _ _ Hp). apply (eq_trans (map_length _ _)), map_length. Qed.
  Lemma cmp_fields i : (i < length (p_m p))%nat ->
    Kab X i <= Kab X' i /\ Eab X i <= Eab X' i /\ Na X i <= Na X' i /\ Nb X i <= Nb X' i.
  Proof.
    intros Hi. rewrite cmp_N in Hi. pose proof (cmp_nth i Hi) as H. assert (Hi' : (i < length prs')%nat) by (rewrite cmp_len; auto).
    cbn [mix_of Kab Eab Na Nb]. rewrite (from_records_raw_of _ _ _ Hp), (from_records_raw_of _ _ _ Hp').
    cbn [p_kappa_ab p_epsilon_k_ab p_na p_nb from_records_raw].
    change (@ix RNum (map (fun r : pcsaft_record RNum => opt_or (r_kappa_ab r) 0) (map pr_model prs)) i <= @ix RNum (map (fun r : pcsaft_record RNum => opt_or (r_kappa_ab r) 0) (map pr_model prs')) i /\
      @ix RNum (map (fun r : pcsaft_record RNum => opt_or (r_epsilon_k_ab r) 0) (map pr_model prs)) i <= @ix RNum (map (fun r : pcsaft_record RNum => opt_or (r_epsilon_k_ab r) 0) (map pr_model prs')) i /\
      @ix RNum (map (fun r : pcsaft_record RNum => opt_or (r_na r) 1) (map pr_model prs)) i <= @ix RNum (map (fun r : pcsaft_record RNum => opt_or (r_na r) 1) (map pr_model prs')) i /\
      @ix RNum (map (fun r : pcsaft_record RNum => opt_or (r_nb r) 1) (map pr_model prs)) i <= @ix RNum (map (fun r : pcsaft_record RNum => opt_or (r_nb r) 1) (map pr_model prs')) i).
    rewrite !ix_map_nth by auto. destruct H as (_ & _ & _ & _ & _ & H). exact H.
  Qed.
  Lemma cmp_phys : phys p'.
  Proof. intros i Hi. rewrite cmp_m in Hi |- *. rewrite cmp_sigma, cmp_eps. apply Hph; auto. Qed.
  Lemma cmp_assoc_phys : assoc_phys p'.
  Proof.
    intros i Hi. rewrite cmp_m in Hi. destruct (Hap i Hi) as (A & B & C & D). destruct (cmp_fields i Hi) as (A' & B' & C' & D').
    cbn [mix_of Kab Eab Na Nb] in A', B', C', D'. lra.
  Qed.
  Lemma cmp_Di t i : Di X' t i = Di X t i.
  Proof. unfold Di. cbn [mix_of Sg Ep]. rewrite cmp_sigma, cmp_eps. reflexivity. Qed.
  Lemma cmp_Zeta t rho k : Zeta X' t rho k = Zeta X t rho k.
  Proof.
    unfold Zeta. cbn [mix_of N M]. rewrite cmp_m. f_equal. apply Sum_ext. intros i Hi. rewrite cmp_Di. reflexivity.
  Qed.
  Lemma cmp_Gij t rho i j : Gij X' t rho i j = Gij X t rho i j.
  Proof. unfold Gij. rewrite !cmp_Di, !cmp_Zeta. reflexivity. Qed.
  Variables (t v : R) (moles : list R).
  Hypothesis PS : phys_state p t v moles.
  Notation rho := (fun i => nth i moles 0 / v).
  Lemma cmp_state : phys_state p' t v moles.
  Proof.
    destruct PS as [A B C D E F]. constructor; auto.
    - rewrite cmp_m; auto.
    - rewrite cmp_m; auto.
    - rewrite cmp_m; auto.
    - unfold Eta. rewrite cmp_Zeta. exact F.
  Qed.
  Lemma cmp_Delta i j : (i < length (p_m p))%nat -> (j < length (p_m p))%nat -> Delta X t rho i j <= Delta X' t rho i j.
  Proof.
    intros Hi Hj. unfold Delta. rewrite cmp_Gij.
    pose proof (Gij_gt1 p Hph t v moles PS i j Hi Hj) as G.
    destruct (Hph i Hi) as (_ & Si & _). destruct (Hph j Hj) as (_ & Sj & _).
    destruct (Hap i Hi) as (Ki & Ei & _). destruct (Hap j Hj) as (Kj & Ej & _).
    destruct (cmp_fields i Hi) as (A1 & B1 & _). destruct (cmp_fields j Hj) as (A2 & B2 & _).
    assert (St : 0 < t) by apply (ps_t _ _ _ _ PS).
    assert (ES : Sij X' i j = Sij X i j) by (unfold Sij; cbn [mix_of Sg]; rewrite cmp_sigma; reflexivity).
    assert (Sp : 0 < Sij X i j) by (unfold Sij; mx; lra).
    change (0 <= Kab X i) in Ki. change (0 <= Kab X j) in Kj. change (0 <= Eab X i) in Ei. change (0 <= Eab X j) in Ej.
    assert (EK : 0 <= Kapij X i j <= Kapij X' i j).
    { unfold Kapij. rewrite ES. assert (E2 : sqrt (Sg X' i * Sg X' j) = sqrt (Sg X i * Sg X j)) by (cbn [mix_of Sg]; rewrite cmp_sigma; reflexivity). rewrite E2.
      set (c := (sqrt (Sg X i * Sg X j) / Sij X i j) ^ 3).
      assert (0 <= c) by (apply pow_le, Rmult_le_pos; [apply sqrt_pos | left; apply Rinv_0_lt_compat; auto]).
      split; [apply Rmult_le_pos; [apply sqrt_pos | auto] | ]. apply Rmult_le_compat_r; auto. apply sqrt_le_1_alt. apply Rmult_le_compat; auto. }
    rewrite ES. set (g := Gij X t rho i j * Sij X i j ^ 3).
    assert (0 <= g) by (apply Rmult_le_pos; [lra | apply pow_le; lra]).
    assert (E0 : 0 <= (Eab X i + Eab X j) / 2 / t <= (Eab X' i + Eab X' j) / 2 / t).
    { split; [apply Rmult_le_pos; [lra | left; apply Rinv_0_lt_compat; auto] | ]. apply Rmult_le_compat_r; [left; apply Rinv_0_lt_compat; auto | lra]. }
    apply Rmult_le_compat.
    - apply Rmult_le_pos; tauto.
    - pose proof (exp_ineq1_le ((Eab X i + Eab X j) / 2 / t)). lra.
    - apply Rmult_le_compat_l; tauto.
    - assert (exp ((Eab X i + Eab X j) / 2 / t) <= exp ((Eab X' i + Eab X' j) / 2 / t)); [ | lra].
      destruct (proj2 E0) as [L | L]; [left; apply exp_increasing; auto | rewrite L; lra].
  Qed.
  Lemma cmp_rho i : (i < length (p_m p))%nat -> 0 <= rho i.
  Proof. intros Hi. apply Rmult_le_pos; [apply (ps_nonneg _ _ _ _ PS); auto | left; apply Rinv_0_lt_compat, (ps_v _ _ _ _ PS)]. Qed.
  Lemma cmp_trial ya yb : (forall i, (i < N X)%nat -> 0 < ya i /\ 0 < yb i) -> trial X' t rho ya yb <= trial X t rho ya yb.
  Proof.
    intros P. unfold trial. assert (EN : N X' = N X) by (cbn [mix_of N]; rewrite cmp_m; reflexivity). rewrite EN.
    assert (L : forall y, 0 < y -> ln y - y + 1 <= 0).
    { intros y Hy. pose proof (exp_ineq1_le (ln y)) as E. rewrite exp_ln in E by auto. lra. }
    assert (A1 : (Sum i < N X, rho i * (Na X' i * (ln (ya i) - ya i + 1) + Nb X' i * (ln (yb i) - yb i + 1)))
      <= Sum i < N X, rho i * (Na X i * (ln (ya i) - ya i + 1) + Nb X i * (ln (yb i) - yb i + 1))).
    { apply rsum_le. intros i Hi. apply seq_in in Hi. apply Rmult_le_compat_l; [apply cmp_rho; auto | ].
      destruct (cmp_fields i Hi) as (_ & _ & C & D). destruct (P i Hi) as [P1 P2]. pose proof (L _ P1). pose proof (L _ P2).
      set (f := ln (ya i) - ya i + 1) in *. set (g := ln (yb i) - yb i + 1) in *. nra. }
    assert (A2 : (Sum i < N X, Sum j < N X, rho i * Na X i * (rho j * Nb X j) * Delta X t rho i j * ya i * yb j)
      <= Sum i < N X, Sum j < N X, rho i * Na X' i * (rho j * Nb X' j) * Delta X' t rho i j * ya i * yb j).
    { apply rsum_le. intros i Hi. apply seq_in in Hi. apply rsum_le. intros j Hj. apply seq_in in Hj.
      destruct (cmp_fields i Hi) as (_ & _ & C & _). destruct (cmp_fields j Hj) as (_ & _ & _ & D).
      destruct (Hap i Hi) as (_ & _ & C0 & _). destruct (Hap j Hj) as (_ & _ & _ & D0).
      change (0 <= Na X i) in C0. change (0 <= Nb X j) in D0.
      destruct (P i Hi) as [P1 _]. destruct (P j Hj) as [_ P2].
      pose proof (cmp_rho i Hi) as Ri. pose proof (cmp_rho j Hj) as Rj. cbv beta in Ri, Rj.
      pose proof (cmp_Delta i j Hi Hj) as Dl. pose proof (Delta_nonneg p Hph Hap t v moles PS i j Hi Hj) as Dn.
      revert Dl Dn. generalize (Delta X t rho i j) (Delta X' t rho i j). intros d d' Dl Dn.
      apply Rmult_le_compat_r; [lra | ]. apply Rmult_le_compat_r; [lra | ].
      apply Rmult_le_compat; auto.
      - apply Rmult_le_pos; apply Rmult_le_pos; auto.
      - apply Rmult_le_compat; try (apply Rmult_le_pos; auto); apply Rmult_le_compat_l; auto. }
    lra.
  Qed.

  (** More or stronger sites: the association energy of the mass-action law does not rise. *)
  Theorem C51_stronger xa xb xa' xb' :
    let Y := published prs bin in let Y' := published prs' bin in
    mass_action Y t rho xa xb -> (forall i, (i < N Y)%nat -> 0 < xa i /\ 0 < xb i) ->
    mass_action Y' t rho xa' xb' -> (forall i, (i < N Y')%nat -> 0 < xa' i /\ 0 < xb' i) ->
    f_assoc_xx Y' rho xa' xb' <= f_assoc_xx Y rho xa xb.
  Proof.
    intros Y Y' M P M' P'.
    destruct (C51_maximum prs bin p t v moles xa xb Hp Hph Hap PS M P) as [_ B].
    destruct (C51_maximum prs' bin p' t v moles xa' xb' Hp' cmp_phys cmp_assoc_phys cmp_state M' P') as [E' _].
    eapply Rle_trans; [right; symmetry; exact E' | ]. eapply Rle_trans; [ | apply (B xa' xb')].
    - rewrite <- (mix_of_published _ _ _ Hp), <- (mix_of_published _ _ _ Hp'). apply cmp_trial.
      intros i Hi. apply P'. unfold Y', published. cbn [N]. rewrite cmp_len, <- cmp_N. exact Hi.
    - intros i Hi. apply P'. unfold Y', published. cbn [N]. rewrite cmp_len. exact Hi.
  Qed.

  (** The same for what the equation of state returns, up to the error it makes in solving the law. *)
  Theorem C51_association lu o a a' : lu_exact lu -> assoc_regular p t v moles o -> assoc_regular p' t v moles o ->
    assoc_term lu o p (@state_new RNum t v moles) = Some a -> assoc_term lu o p' (@state_new RNum t v moles) = Some a' ->
    a' <= a + (assoc_error p v moles o + assoc_error p' v moles o).
  Proof.
    intros Hlu R R' Ha Ha'.
    pose proof (C13_association_term lu o prs bin p t v moles a Hlu Hp Hph Hap PS R Ha) as C.
    pose proof (C13_association_term lu o prs' bin p' t v moles a' Hlu Hp' cmp_phys cmp_assoc_phys cmp_state R' Ha') as C'.
    destruct (law_exists p Hph Hap t v moles PS) as (xa & xb & M & B).
    destruct (law_exists p' cmp_phys cmp_assoc_phys t v moles cmp_state) as (xa' & xb' & M' & B').
    pose proof (C xa xb M B) as E. pose proof (C' xa' xb' M' B') as E'. cbv beta zeta in E, E'.
    assert (S : f_assoc_xx X' rho xa' xb' <= f_assoc_xx X rho xa xb).
    { rewrite (mix_of_published _ _ _ Hp), (mix_of_published _ _ _ Hp'). apply C51_stronger.
      - rewrite <- (mix_of_published _ _ _ Hp). exact M.
      - rewrite <- (mix_of_published _ _ _ Hp). intros i Hi. destruct (B i Hi). lra.
      - rewrite <- (mix_of_published _ _ _ Hp'). exact M'.
      - rewrite <- (mix_of_published _ _ _ Hp'). intros i Hi. destruct (B' i Hi). lra. }
    pose proof (ps_v _ _ _ _ PS) as Hv.
    assert (v * f_assoc_xx X' rho xa' xb' <= v * f_assoc_xx X rho xa xb) by (apply Rmult_le_compat_l; lra).
    apply Rabs_le_between in E. apply Rabs_le_between in E'. lra.
  Qed.
  (** The other contributions do not change, so the residual Helmholtz energy does not rise either. *)
  Theorem C51_residual lu o r r' : lu_exact lu -> assoc_regular p t v moles o -> assoc_regular p' t v moles o ->
    residual lu (with_options p o) (@state_new RNum t v moles) = Some r ->
    residual lu (with_options p' o) (@state_new RNum t v moles) = Some r' ->
    r' <= r + (assoc_error p v moles o + assoc_error p' v moles o).
  Proof.
    intros Hlu R R' Hr Hr'. rewrite residual_total in Hr, Hr'.
    destruct (assoc_term lu o p (@state_new RNum t v moles)) as [a | ] eqn:Ea; [ | discriminate].
    destruct (assoc_term lu o p' (@state_new RNum t v moles)) as [a' | ] eqn:Ea'; [ | discriminate].
    pose proof (C51_association lu o a a' Hlu R R' Ea Ea') as H.
    destruct (cmp_others (o_dq o) (@state_new RNum t v moles)) as (E1 & E2 & E3 & E4 & E5 & E6).
    rewrite E1, E2, E3, E4, E5, E6 in Hr'.
    apply Some_inj in Hr, Hr'. subst r r'.
    match goal with |- ?b + a' <= ?b + a + _ => generalize b end. change (car RNum) with R. intros b. lra.
  Qed.
  (** With one associating component above the low-density switch the comparison is exact. *)
  Theorem C51_one_component a : p_assoc_comp p = [a] -> p_assoc_comp p' = [a] -> 0 < Na X a -> 0 < Nb X a ->
    / 2 ^ 26 < Delta X t rho a a * rho a ->
    a_assoc p' (@state_new RNum t v moles) <= a_assoc p (@state_new RNum t v moles).
  Proof.
    intros Ha Ha' Na1 Nb1 Hd.
    assert (Hlt : (a < length (p_m p))%nat) by (apply (assoc_lt p (wfp_from_records _ _ _ Hp) a Ha)).
    destruct (cmp_fields a Hlt) as (_ & _ & C & D).
    assert (Hd' : / 2 ^ 26 < Delta X' t rho a a * rho a).
    { eapply Rlt_le_trans; [exact Hd | ]. apply Rmult_le_compat_r; [apply cmp_rho; auto | apply cmp_Delta; auto]. }
    rewrite (mix_of_published _ _ _ Hp) in Na1, Nb1, Hd, C, D. rewrite (mix_of_published _ _ _ Hp') in Hd', C, D.
    destruct (C39_association prs bin p Hp Hph t v moles PS a Ha Na1 Nb1 Hd) as (xa & xb & M & B & ->).
    destruct (C39_association prs' bin p' Hp' cmp_phys t v moles cmp_state a Ha' ltac:(lra) ltac:(lra) Hd') as (xa' & xb' & M' & B' & ->).
    apply Rmult_le_compat_l; [left; apply (ps_v _ _ _ _ PS) | ]. apply C51_stronger; auto.
    - intros i _. destruct (B i). lra.
    - intros i _. destruct (B' i). lra.
  Qed.
End Compare.

(** Bounds: the association energy is at most zero and at least the energy of all sites free, which
    counts every possible bond. *)
Theorem C51_bounds prs bin p t v moles xa xb : from_records prs bin = Some p -> phys p -> assoc_phys p -> phys_state p t v moles ->
  let X := published prs bin in let rho i := nth i moles 0 / v in
  mass_action X t rho xa xb -> (forall i, (i < N X)%nat -> 0 < xa i /\ 0 < xb i) ->
  - (Sum i < N X, Sum j < N X, rho i * Na X i * (rho j * Nb X j) * Delta X t rho i j) <= f_assoc_xx X rho xa xb <= 0.
Proof.
  intros Hp Hph Hap PS X rho M P.
  destruct (C51_maximum prs bin p t v moles xa xb Hp Hph Hap PS M P) as [E B]. fold X rho in E, B. split.
  - specialize (B (fun _ => 1) (fun _ => 1) ltac:(intros; lra)). eapply Rle_trans; [ | exact B]. right.
    unfold trial. rewrite (rsum_zero (seq 0 (N X)) (fun i => rho i * _)).
    + unfold Rminus. rewrite Rplus_0_l. f_equal. apply Sum_ext. intros i Hi. apply Sum_ext. intros j Hj. ring.
    + intros i _. rewrite ln_1. ring.
  - rewrite <- E. unfold trial. unfold X in M, P |- *. rewrite <- (mix_of_published _ _ _ Hp) in M, P |- *.
    assert (L : forall y, 0 < y -> ln y - y + 1 <= 0).
    { intros y Hy. pose proof (exp_ineq1_le (ln y)) as E1. rewrite exp_ln in E1 by auto. lra. }
    assert (Rn : forall i, (i < N (mix_of p))%nat -> 0 <= rho i).
    { intros i Hi. apply Rmult_le_pos; [apply (ps_nonneg _ _ _ _ PS); auto | left; apply Rinv_0_lt_compat, (ps_v _ _ _ _ PS)]. }
    assert (A1 : 0 <= Sum i < N (mix_of p), - (rho i * (Na (mix_of p) i * (ln (xa i) - xa i + 1) + Nb (mix_of p) i * (ln (xb i) - xb i + 1)))).
    { apply rsum_nonneg. intros i Hi. apply seq_in in Hi. destruct (P i Hi) as [P1 P2]. destruct (Hap i Hi) as (_ & _ & C0 & D0).
      change (0 <= Na (mix_of p) i) in C0. change (0 <= Nb (mix_of p) i) in D0. pose proof (L _ P1). pose proof (L _ P2). pose proof (Rn i Hi).
      set (f := ln (xa i) - xa i + 1) in *. set (g := ln (xb i) - xb i + 1) in *.
      assert (Na (mix_of p) i * f <= Na (mix_of p) i * 0) by (apply Rmult_le_compat_l; auto).
      assert (Nb (mix_of p) i * g <= Nb (mix_of p) i * 0) by (apply Rmult_le_compat_l; auto).
      assert (rho i * (Na (mix_of p) i * f + Nb (mix_of p) i * g) <= rho i * 0) by (apply Rmult_le_compat_l; [auto | lra]). lra. }
    rewrite rsum_opp in A1.
    assert (A2 : 0 <= Sum i < N (mix_of p), Sum j < N (mix_of p), rho i * Na (mix_of p) i * (rho j * Nb (mix_of p) j) * Delta (mix_of p) t rho i j * xa i * xb j).
    { apply rsum_nonneg. intros i Hi. apply seq_in in Hi. apply rsum_nonneg. intros j Hj. apply seq_in in Hj.
      destruct (P i Hi) as [P1 _]. destruct (P j Hj) as [_ P2]. destruct (Hap i Hi) as (_ & _ & C0 & _). destruct (Hap j Hj) as (_ & _ & _ & D0).
      change (0 <= Na (mix_of p) i) in C0. change (0 <= Nb (mix_of p) j) in D0.
      pose proof (Rn i Hi). pose proof (Rn j Hj). generalize (Delta_nonneg p Hph Hap t v moles PS i j Hi Hj).
      change (fun i0 : nat => nth i0 moles 0 / v) with rho.
      generalize (Delta (mix_of p) t rho i j). intros d Hd. clearbody rho. repeat apply Rmult_le_pos; lra. }
    lra.
Qed.

(** what the equation of state returns lies between these bounds up to the error of solving the law *)
Theorem C51_returned_bounds lu o prs bin p t v moles a : lu_exact lu -> from_records prs bin = Some p -> phys p -> assoc_phys p ->
  phys_state p t v moles -> assoc_regular p t v moles o ->
  assoc_term lu o p (@state_new RNum t v moles) = Some a ->
  let X := published prs bin in let n i := nth i moles 0 in
  - (Sum i < N X, Sum j < N X, n i * Na X i * (n j * Nb X j) * Delta X t (fun i => n i / v) i j) / v - assoc_error p v moles o <= a <= assoc_error p v moles o.
Proof.
  intros Hlu Hp Hph Hap PS R Ha X n.
  pose proof (C13_association_term lu o prs bin p t v moles a Hlu Hp Hph Hap PS R Ha) as C.
  destruct (law_exists p Hph Hap t v moles PS) as (xa & xb & M & B). pose proof (C xa xb M B) as E. cbv beta zeta in E.
  rewrite (mix_of_published _ _ _ Hp) in E, M.
  assert (P : forall i, (i < N X)%nat -> 0 < xa i /\ 0 < xb i).
  { intros i Hi. destruct (B i).
    - pose proof (f_equal N (mix_of_published _ _ _ Hp)) as Q. cbn [mix_of N] in Q. rewrite Q. exact Hi.
    - lra. }
  destruct (C51_bounds prs bin p t v moles xa xb Hp Hph Hap PS M P) as [L U]. cbv beta zeta in L, U. fold X in L, U, E.
  pose proof (ps_v _ _ _ _ PS) as Hv. apply Rabs_le_between in E.
  set (f := f_assoc_xx X _ xa xb) in *. set (S := Sum i < N X, Sum j < N X, n i * Na X i * (n j * Nb X j) * _).
  match type of L with - ?s <= f => assert (ES : s = S / v / v) end.
  { unfold S. unfold Rdiv. rewrite <- !rsum_scal_r. apply Sum_ext. intros i Hi. rewrite <- !rsum_scal_r. apply Sum_ext. intros j Hj. fold (n i) (n j). change (fun i0 : nat => n i0 * / v) with (fun i0 : nat => nth i0 moles 0 * / v). ring. }
  rewrite ES in L. assert (v * - (S / v / v) <= v * f) by (apply Rmult_le_compat_l; lra).
  replace (v * - (S / v / v)) with (- S / v) in H by (field; lra).
  assert (v * f <= v * 0) by (apply Rmult_le_compat_l; lra). lra.
Qed.

(* ------------------------------------------------------------------ instances *)

(** water with a stronger hydrogen bond and twice the donor sites *)
Definition pr_water_s : pure_record RNum :=
  @mkPure RNum (named "water, stronger") (18.0152) (@mkRec RNum (1.065587) (3.000683) (366.5121)
    None None (Some 0.034867983) (Some 2600) (Some 2) None None None None) None.
Definition w1s : params RNum := from_records_raw [pr_water_s] (zeros 1).
Lemma w1s_ok : from_records [pr_water_s] (zeros 1) = Some w1s.
Proof. reflexivity. Qed.
Lemma w1s_comp : p_assoc_comp w1s = [0%nat].
Proof.
  change (p_assoc_comp w1s) with (nonzero_comp (p_kappa_ab w1s)). unfold nonzero_comp.
  cbn [w1s from_records_raw p_kappa_ab pr_water_s map pr_model r_kappa_ab unwrap_or List.length seq filter ix nth].
  assert (H : @nltb RNum (@n0 RNum) (@nabs RNum 0.034867983) = true).
  { apply Rltb_true. unfold n0. cbn. rewrite Rabs_pos_eq by lra. lra. }
  rewrite H. reflexivity.
Qed.
Lemma w1s_at_least : Forall2 at_least_as_associating [pr_water] [pr_water_s].
Proof. constructor; [ | constructor]. unfold at_least_as_associating. cbn. repeat split; lra. Qed.
Lemma w1_state v : 100 <= v -> phys_state w1 350 v [1].
Proof.
  intros Hv. apply phys_state_intro; [exact w1_phys | lra | lra | reflexivity | | | ].
  - intros i Hi. cbn in Hi. destruct i; [cbn; lra | lia].
  - exists 0%nat. split; [cbn; lia | cbn; lra].
  - cbn. lra.
Qed.
Lemma w1_Delta v : 100 <= v -> 1000 < Delta (mix_of w1) 350 (fun i => nth i [1] 0 / v) 0 0.
Proof.
  intros Hv. pose proof (Gij_gt1 w1 w1_phys 350 v [1] (w1_state v Hv) 0 0 ltac:(cbn; lia) ltac:(cbn; lia)) as G.
  unfold Delta. generalize dependent (Gij (mix_of w1) 350 (fun i => nth i [1] 0 / v) 0 0). intros g G.
  unfold Kapij, Sij. change (Sg (mix_of w1) 0) with 3.000683. change (Kab (mix_of w1) 0) with 0.034867983. change (Eab (mix_of w1) 0) with 2500.6706.
  match goal with |- _ < ?e => replace e with (g * (((3.000683 + 3.000683) / 2) ^ 3 * (sqrt (0.034867983 * 0.034867983) * (sqrt (3.000683 * 3.000683) / ((3.000683 + 3.000683) / 2)) ^ 3) * (exp ((2500.6706 + 2500.6706) / 2 / 350) - 1))) by ring end.
  assert (H2 : 1000 < ((3.000683 + 3.000683) / 2) ^ 3 * (sqrt (0.034867983 * 0.034867983) * (sqrt (3.000683 * 3.000683) / ((3.000683 + 3.000683) / 2)) ^ 3) * (exp ((2500.6706 + 2500.6706) / 2 / 350) - 1)) by interval.
  revert H2. generalize (((3.000683 + 3.000683) / 2) ^ 3 * (sqrt (0.034867983 * 0.034867983) * (sqrt (3.000683 * 3.000683) / ((3.000683 + 3.000683) / 2)) ^ 3) * (exp ((2500.6706 + 2500.6706) / 2 / 350) - 1)).
  intros c H2. nra.
Qed.
Example C51_water v : 100 <= v <= 10 ^ 6 ->
  a_assoc w1s (@state_new RNum 350 v [1]) <= a_assoc w1 (@state_new RNum 350 v [1]).
Proof.
  intros Hv. apply (C51_one_component [pr_water] [pr_water_s] (zeros 1) w1 w1s w1_ok w1s_ok w1s_at_least w1_phys w1_assoc 350 v [1] (w1_state v ltac:(lra)) 0).
  - exact w1_comp.
  - exact w1s_comp.
  - cbn. lra.
  - cbn. lra.
  - pose proof (w1_Delta v ltac:(lra)) as D. cbn [nth] in *.
    assert (/ 10 ^ 6 <= 1 / v) by (unfold Rdiv; rewrite Rmult_1_l; apply Rinv_le_contravar; lra).
    apply Rlt_le_trans with (1000 * / 10 ^ 6); [lra | ]. apply Rmult_le_compat; lra.
Qed.
(** the hypotheses of the comparison of the residual energies and of the bounds *)
Example C51_water_case v o : 100 <= v -> assoc_regular w1 350 v [1] o /\ assoc_regular w1s 350 v [1] o /\
  exists a, assoc_term gauss_lu o w1 (@state_new RNum 350 v [1]) = Some a.
Proof.
  intros Hv.
  assert (En : p_nassoc w1s = 1%nat) by (change (p_nassoc w1s) with (List.length (p_assoc_comp w1s)); rewrite w1s_comp; reflexivity).
  unfold assoc_regular, assoc_term, comp. rewrite w1_nassoc, En, w1_comp, w1s_comp. cbn [nth].
  split; [cbn; lra | ]. split; [cbn; lra | ]. eexists. reflexivity.
Qed.

Print Assumptions C51_maximum.
Print Assumptions C51_stronger.
Print Assumptions C51_association.
Print Assumptions C51_residual.
Print Assumptions C51_one_component.
Print Assumptions C51_bounds.
Print Assumptions C51_returned_bounds.
