(** C04, C05 and C13 with the default options: mixtures for which the association solver is proved
    to succeed, so that dropping absent components and splitting components never fails. *)
From Coq Require Import ZArith QArith Reals Lra Lia String List Bool Arith Permutation FinFun.
From Coquelicot Require Import Coquelicot.
From Interval Require Import Tactic.
From Verif Require Import Num RNum RSum Tables M_Params F_Params M_Eos Spec F_Spec F_SpecPolar
  F_SpecAssoc F_Contrib F_Lump F_Total F_Lump2 Samples P_Params P_Select P_Lump
  F_Newton F_MassAction F_MassAction2 F_Gauss F_NewtonR F_Cross P_Assoc P_Assoc2 P_Cross F_Perm P_Converge.
Import ListNotations.
Local Open Scope R_scope.
Set Bullet Behavior "Strict Subproofs".
Notation length := List.length.

(* ---------------------------------------------------- mixtures where the solver succeeds *)

(** the association term is returned and is the published energy within the tolerance *)
Definition accurate (lu : lu_solver RNum) (o : options RNum) (p : params RNum) (t v : R) (moles : list R) : Prop :=
  exists a, assoc_term lu o p (@state_new RNum t v moles) = Some a /\
    close_to_law p t v moles (assoc_error p v moles o) a.

(** sites of both kinds on every associating component *)
Definition both_sites (p : params RNum) : Prop :=
  forall i, (i < N (mix_of p))%nat -> Kab (mix_of p) i <> 0 ->
    0 < Na (mix_of p) i /\ 0 < Nb (mix_of p) i /\ Na (mix_of p) i + Nb (mix_of p) i <= 2 ^ 26.
(** bonds of component [i] when all sites are free *)
Definition free_bonds_a (p : params RNum) (t v : R) (moles : list R) (i : nat) : R :=
  let X := mix_of p in let rho i := nth i moles 0 / v in
  Sum j < N X, rho j * Nb X j * Delta X t rho i j.
Definition free_bonds_b (p : params RNum) (t v : R) (moles : list R) (i : nat) : R :=
  let X := mix_of p in let rho i := nth i moles 0 / v in
  Sum j < N X, rho j * Na X j * Delta X t rho i j.
Definition weak_mixture p t v moles : Prop := forall i, (i < N (mix_of p))%nat ->
  free_bonds_a p t v moles i <= / 4 /\ free_bonds_b p t v moles i <= / 4.
Definition equal_mixture p t v moles : Prop := exists d, 0 <= d <= 10 ^ 7 /\
  forall i, (i < N (mix_of p))%nat -> Kab (mix_of p) i <> 0 ->
  free_bonds_a p t v moles i = d /\ free_bonds_b p t v moles i = d.
(** a class of mixtures for which the solver succeeds with the default options *)
Definition solvable p t v moles : Prop :=
  (p_nassoc p <= 1000)%nat /\ both_sites p /\ / 2 ^ 52 <= Rho (mix_of p) (fun i => nth i moles 0 / v) /\
  (weak_mixture p t v moles \/ equal_mixture p t v moles).

Lemma comp_assoc p : wfp p -> forall i, (i < p_nassoc p)%nat -> Kab (mix_of p) (comp p i) <> 0.
Proof.
  intros W i Hi. assert (In (comp p i) (p_assoc_comp p)) as I by (apply nth_In; rewrite <- (w_na _ W); auto).
  rewrite (w_ass _ W) in I at 1. apply filter_In in I. destruct I as [_ I]. apply nonzero_R in I. exact I.
Qed.

Theorem C13_solvable lu prs bin p t v moles : lu_exact lu -> from_records prs bin = Some p ->
  phys p -> assoc_phys p -> phys_state p t v moles -> solvable p t v moles ->
  accurate lu default_options p t v moles.
Proof.
  intros Hlu Hp Hph Hap PS (Hn & Hb & Hd & Hc). pose proof (wfp_from_records _ _ _ Hp) as W.
  assert (Et : @o_tol RNum default_options = / 10 ^ 10) by (cbn; lits; lra).
  unfold accurate. destruct (Nat.le_gt_cases (p_nassoc p) 1) as [H1 | H1].
  - assert (R : assoc_regular p t v moles default_options).
    { unfold assoc_regular. destruct (p_nassoc p) as [ | [ | k]] eqn:En; try lia; auto.
      assert (Hc0 : (0 < p_nassoc p)%nat) by lia. apply Hb; [apply (comp_lt p W); auto | ].
      apply comp_assoc; auto. }
    assert (E : exists a, assoc_term lu default_options p (@state_new RNum t v moles) = Some a).
    { unfold assoc_term. destruct (p_nassoc p) as [ | [ | k]]; try lia; eexists; reflexivity. }
    destruct E as [a E]. exists a. split; auto.
    apply (C13_association_term lu default_options prs bin p t v moles a); auto.
  - assert (A : exists a, a_cross_assoc lu 50 (/ 10 ^ 10) p (@state_new RNum t v moles) = Some a /\
      close_to_law p t v moles (tol_error p v moles (/ 10 ^ 10)) a).
    { destruct Hc as [Hw | (d & Hdr & He)].
      - apply (C13_weak_default lu prs bin p t v moles); auto.
      - apply (C13_equal_default lu prs bin p t v moles d); auto. }
    destruct A as (a & A1 & A2). exists a. unfold assoc_term, assoc_error.
    destruct (p_nassoc p) as [ | [ | k]]; try lia. rewrite Et.
    change (@o_max_iter RNum default_options) with 50%nat. split; auto.
Qed.

(** the residual Helmholtz energy is returned *)
Corollary C13_residual_returned lu prs bin p t v moles : lu_exact lu -> from_records prs bin = Some p ->
  phys p -> assoc_phys p -> phys_state p t v moles -> solvable p t v moles ->
  exists r, residual lu (eos_new p) (@state_new RNum t v moles) = Some r.
Proof.
  intros Hlu Hp Hph Hap PS HS. destruct (C13_solvable lu prs bin p t v moles Hlu Hp Hph Hap PS HS) as (a & E & _).
  unfold eos_new. rewrite residual_total, E. eexists. reflexivity.
Qed.

(** an only associating component with as many A as B sites *)
Lemma one_kind prs bin p t v moles : from_records prs bin = Some p ->
  phys p -> assoc_phys p -> phys_state p t v moles -> p_nassoc p = 1%nat ->
  let X := mix_of p in
  let a := comp p 0 in
  Na X a = Nb X a -> free_bonds_a p t v moles a <= 10 ^ 7 -> equal_mixture p t v moles.
Proof.
  intros Hp Hph Hap PS Hn X a Hab Hd. pose proof (wfp_from_records _ _ _ Hp) as W.
  assert (La : p_assoc_comp p = [a]).
  { rewrite (w_na _ W) in Hn. unfold a, comp. destruct (p_assoc_comp p) as [ | b [ | ]]; try discriminate. reflexivity. }
  pose proof (assoc_lt p W a La) as Hlt.
  set (rho := fun i => nth i moles 0 / v) in *.
  assert (F1 : free_bonds_a p t v moles a = rho a * Nb X a * Delta X t rho a a).
  { unfold free_bonds_a. apply (Sum_single (N X) a); auto. intros j Hj Hne.
    rewrite (Delta_zero p W t v moles a La) by auto. ring. }
  assert (F2 : free_bonds_b p t v moles a = rho a * Na X a * Delta X t rho a a).
  { unfold free_bonds_b. apply (Sum_single (N X) a); auto. intros j Hj Hne.
    rewrite (Delta_zero p W t v moles a La) by auto. ring. }
  exists (free_bonds_a p t v moles a). split; [split; auto | ].
  - rewrite F1. pose proof (Delta_nonneg p Hph Hap t v moles PS a a Hlt Hlt).
    apply Rmult_le_pos; auto. apply Rmult_le_pos; [ | apply Hap; auto].
    apply Rmult_le_pos; [ | left; apply Rinv_0_lt_compat; apply (ps_v _ _ _ _ PS)]. apply (ps_nonneg _ _ _ _ PS). auto.
  - intros i Hi K. apply (assoc_unique p W a La i Hi) in K. subst i. split; auto.
    rewrite F1, F2, Hab. auto.
Qed.

(* ------------------------------------------------------------------------- regrouping *)

Section Regroup.
  Variables (prs : list (pure_record RNum)) (bin : list (list R)).
  Variables (p p' : params RNum) (l : list nat).
  Hypothesis Hp' : from_records prs bin = Some p'.
  Hypothesis Hp : subset p' l = Some p.
  Hypothesis Hph' : phys p'.
  Hypothesis Hap' : assoc_phys p'.
  Variables (t v : R) (moles moles' : list R).
  Hypothesis Hreg : regrouped l (length (p_m p')) moles moles'.
  Hypothesis PS : phys_state p t v moles.
  Let X := mix_of p.
  Let X' := mix_of p'.
  Let phi i := nth i l 0%nat.
  Let rho i := nth i moles 0 / v.
  Let rho' i := nth i moles' 0 / v.

  Lemma free_a i : (i < N X)%nat -> free_bonds_a p t v moles i = free_bonds_a p' t v moles' (phi i).
  Proof.
    intros Hi.
    change ((Sum j < N X, rho j * Nb X j * Delta X t rho i j) = Sum j < N X', rho' j * Nb X' j * Delta X' t rho' (phi i) j).
    rewrite (push1 X X' phi rho rho' (L_phi _ _ _ _ _ Hp' Hp) (L_rho _ _ _ _ _ Hp' Hp v _ _ Hreg) _
      (fun j => Nb X' j * Delta X' t rho' (phi i) j)); [apply Sum_ext; intros; ring | ].
    intros j Hj. rewrite <- (Delta_lump X X' t phi rho rho' (L_phi _ _ _ _ _ Hp' Hp) (L_rho _ _ _ _ _ Hp' Hp v _ _ Hreg)
      (L_m _ _ _ _ _ Hp' Hp) (L_s _ _ _ _ _ Hp' Hp) (L_e _ _ _ _ _ Hp' Hp) (L_k _ _ _ _ _ Hp' Hp) (L_ea _ _ _ _ _ Hp' Hp)) by auto.
    unfold X', phi at 1. rewrite <- (L_nb _ _ _ _ _ Hp' Hp j Hj). unfold X. ring.
  Qed.
  Lemma free_b i : (i < N X)%nat -> free_bonds_b p t v moles i = free_bonds_b p' t v moles' (phi i).
  Proof.
    intros Hi.
    change ((Sum j < N X, rho j * Na X j * Delta X t rho i j) = Sum j < N X', rho' j * Na X' j * Delta X' t rho' (phi i) j).
    rewrite (push1 X X' phi rho rho' (L_phi _ _ _ _ _ Hp' Hp) (L_rho _ _ _ _ _ Hp' Hp v _ _ Hreg) _
      (fun j => Na X' j * Delta X' t rho' (phi i) j)); [apply Sum_ext; intros; ring | ].
    intros j Hj. rewrite <- (Delta_lump X X' t phi rho rho' (L_phi _ _ _ _ _ Hp' Hp) (L_rho _ _ _ _ _ Hp' Hp v _ _ Hreg)
      (L_m _ _ _ _ _ Hp' Hp) (L_s _ _ _ _ _ Hp' Hp) (L_e _ _ _ _ _ Hp' Hp) (L_k _ _ _ _ _ Hp' Hp) (L_ea _ _ _ _ _ Hp' Hp)) by auto.
    unfold X', phi at 1. rewrite <- (L_na _ _ _ _ _ Hp' Hp j Hj). unfold X. ring.
  Qed.
  (** copies and subsets of a solvable mixture are solvable *)
  Lemma regroup_solvable : (p_nassoc p <= 1000)%nat -> solvable p' t v moles' -> solvable p t v moles.
  Proof.
    intros Hn (_ & Hb & Hd & Hc). split; auto. split; [ | split].
    - intros i Hi K. rewrite (L_na _ _ _ _ _ Hp' Hp i Hi), (L_nb _ _ _ _ _ Hp' Hp i Hi).
      apply Hb; [apply (L_phi _ _ _ _ _ Hp' Hp i Hi) | ].
        pose proof (L_k _ _ _ _ _ Hp' Hp i Hi) as EK. unfold phi. rewrite <- EK. auto.
    - eapply Rle_trans; [exact Hd | ]. right. symmetry.
      exact (Rho_lump X X' phi rho rho' (L_phi _ _ _ _ _ Hp' Hp) (L_rho _ _ _ _ _ Hp' Hp v _ _ Hreg)).
    - destruct Hc as [Hw | (d & Hdr & He)].
      + left. intros i Hi. rewrite free_a, free_b by auto. apply Hw. apply (L_phi _ _ _ _ _ Hp' Hp i Hi).
      + right. exists d. split; auto. intros i Hi K. rewrite free_a, free_b by auto.
        apply He; [apply (L_phi _ _ _ _ _ Hp' Hp i Hi) | ].
        pose proof (L_k _ _ _ _ _ Hp' Hp i Hi) as EK. unfold phi. rewrite <- EK. auto.
  Qed.

  Variable lu : lu_solver RNum.
  Hypothesis Hlu : lu_exact lu.
  Theorem regroup_default : (p_nassoc p <= 1000)%nat -> solvable p' t v moles' ->
    a_quadrupole p (@state_new RNum t v moles) = a_quadrupole p' (@state_new RNum t v moles') ->
    exists r r', residual lu (eos_new p) (@state_new RNum t v moles) = Some r /\
      residual lu (eos_new p') (@state_new RNum t v moles') = Some r' /\
      Rabs (r - r') <= assoc_error p v moles default_options + assoc_error p' v moles' default_options.
  Proof.
    intros Hn HS Hq.
    pose proof (lump_phys_state _ _ _ _ _ Hp' Hp t v moles moles' Hreg PS) as PS'.
    destruct (subset_from_records _ _ _ Hp) as (prs2 & bin2 & Hp2).
    destruct (C13_solvable lu _ _ p t v moles Hlu Hp2 (subset_phys prs bin p p' l Hp' Hp Hph')
      (subset_assoc_phys prs bin p p' l Hp' Hp Hap') PS (regroup_solvable Hn HS)) as (a & E & C).
    destruct (C13_solvable lu _ _ p' t v moles' Hlu Hp' Hph' Hap' PS' HS) as (a' & E' & C').
    destruct (regroup_rest prs bin p p' l Hp' Hp Hph' t v moles moles' Hreg PS lu default_options Hq) as (b & B & B').
    unfold eos_new. rewrite B, B', E, E'. exists (b + a), (b + a'). split; [reflexivity | ]. split; [reflexivity | ].
    replace (b + a - (b + a')) with (a - a') by ring.
    apply (regroup_close prs bin p p' l Hp' Hp Hph' Hap' t v moles moles' Hreg PS); auto.
  Qed.
End Regroup.

(* ----------------------------------------------------------------------------- C04 *)

Section C04.
  Variables (prs : list (pure_record RNum)) (bin : list (list R)).
  Variables (p p' : params RNum) (l : list nat).
  Hypothesis Hp : from_records prs bin = Some p.
  Hypothesis Hp' : subset p l = Some p'.
  Hypothesis Hph : phys p.
  Hypothesis Hap : assoc_phys p.
  Variables (t v : R) (moles : list R).
  Hypothesis D : NoDup l.
  Hypothesis Z : forall j, (j < length prs)%nat -> ~ In j l -> nth j moles 0 = 0.
  Hypothesis PS : phys_state p t v moles.

  Let n : length (p_m p) = length prs.
  Proof. rewrite (from_records_raw_of _ _ _ Hp). apply fr_len_m. Qed.
  Let Z' : forall j, (j < length (p_m p))%nat -> ~ In j l -> nth j moles 0 = 0.
  Proof. rewrite n. exact Z. Qed.
  Let Rg := pick_regrouped p l t v moles D Z' PS.
  Let PS' := pick_phys_state prs bin p' p l Hp Hp' t v moles D Z' PS.

  (** for solvable mixtures both energies are returned *)
  Theorem C04_solvable lu : lu_exact lu -> (p_nassoc p' <= 1000)%nat -> solvable p t v moles ->
    (forall i j, (i <= j < length l)%nat -> (nth i l 0 <= nth j l 0)%nat) ->
    exists r r', residual lu (eos_new p') (@state_new RNum t v (pick moles l)) = Some r' /\
      residual lu (eos_new p) (@state_new RNum t v moles) = Some r /\
      Rabs (r' - r) <= assoc_error p' v (pick moles l) default_options + assoc_error p v moles default_options.
  Proof.
    intros Hlu Hn HS Ho.
    destruct (regroup_default prs bin p' p l Hp Hp' Hph Hap t v _ _ Rg PS' lu Hlu Hn HS) as (r' & r & H).
    - apply (C04_quadrupole prs bin p p' l Hp Hp' Hph t v moles D Z PS Ho).
    - exists r, r'. exact H.
  Qed.
End C04.

(* ----------------------------------------------------------------------------- C05 *)

Section C05.
  Variables (prs : list (pure_record RNum)) (bin : list (list R)).
  Variables (p p' : params RNum) (l : list nat).
  Hypothesis Hp : from_records prs bin = Some p.
  Hypothesis Hp' : subset p l = Some p'.
  Hypothesis Hph : phys p.
  Hypothesis Hap : assoc_phys p.
  Variables (t v : R) (moles : list R).
  Hypothesis PS : phys_state p' t v moles.
  Let total := merge l (length prs) moles.

  Let n : length (p_m p) = length prs.
  Proof. rewrite (from_records_raw_of _ _ _ Hp). apply fr_len_m. Qed.
  Let Rg : regrouped l (length (p_m p)) moles total.
  Proof.
    rewrite n. apply regrouped_merge. rewrite (ps_len _ _ _ _ PS).
    apply (lu_n _ _ _ (subset_lumped _ _ _ _ _ Hp Hp')).
  Qed.
  Let PSt : phys_state p t v total := lump_phys_state _ _ _ _ _ Hp Hp' t v moles total Rg PS.

  Theorem C05_solvable lu : lu_exact lu -> (p_nassoc p' <= 1000)%nat -> solvable p t v total ->
    (forall i j, (i <= j < length l)%nat -> (nth i l 0 <= nth j l 0)%nat) \/ one_quadrupole_diameter p ->
    exists r r', residual lu (eos_new p') (@state_new RNum t v moles) = Some r' /\
      residual lu (eos_new p) (@state_new RNum t v total) = Some r /\
      Rabs (r' - r) <= assoc_error p' v moles default_options + assoc_error p v total default_options.
  Proof.
    intros Hlu Hn HS Ho.
    destruct (regroup_default prs bin p' p l Hp Hp' Hph Hap t v _ _ Rg PS lu Hlu Hn HS) as (r' & r & H).
    - apply (C05_quadrupole prs bin p p' l Hp Hp' Hph t v moles PS Ho).
    - exists r, r'. exact H.
  Qed.

  (** One associating component, with as many A as B sites, in a mixture with any other components:
      it can be split into up to 1000 copies (the others into any number of copies), at any density
      and association strength up to 10^7 free bonds per site. *)
  Theorem C05_one_associating lu : lu_exact lu -> p_nassoc p = 1%nat -> (p_nassoc p' <= 1000)%nat ->
    let X := mix_of p in
    let a := comp p 0 in
    Na X a = Nb X a -> 0 < Na X a <= 2 ^ 25 ->
    / 2 ^ 52 <= Rho X (fun i => nth i total 0 / v) -> free_bonds_a p t v total a <= 10 ^ 7 ->
    (forall i j, (i <= j < length l)%nat -> (nth i l 0 <= nth j l 0)%nat) \/ one_quadrupole_diameter p ->
    exists r r', residual lu (eos_new p') (@state_new RNum t v moles) = Some r' /\
      residual lu (eos_new p) (@state_new RNum t v total) = Some r /\
      Rabs (r' - r) <= assoc_error p' v moles default_options + assoc_error p v total default_options.
  Proof.
    intros Hlu H1 Hn X a Hab Ha Hd Hf Ho. apply C05_solvable; auto.
    pose proof (wfp_from_records _ _ _ Hp) as W.
    split; [lia | ]. split; [ | split; auto].
    - assert (La : p_assoc_comp p = [a]).
      { rewrite (w_na _ W) in H1. unfold a, comp. destruct (p_assoc_comp p) as [ | b [ | ]]; try discriminate. reflexivity. }
      intros i Hi K. apply (assoc_unique p W a La i Hi) in K. subst i. fold X. rewrite <- Hab. split; [lra | ]. split; lra.
    - right. apply (one_kind prs bin p t v total); auto.
  Qed.
End C05.

(* ------------------------------------------------- a non-trivial case: water and two waters *)

Definition w1 : params RNum := from_records_raw [pr_water] (zeros 1).
Lemma w1_ok : from_records [pr_water] (zeros 1) = Some w1.
Proof. reflexivity. Qed.
Lemma w1_phys : phys w1.
Proof. intros i Hi. cbn in Hi. destruct i as [ | i]; cbn; try lra; lia. Qed.
Lemma w1_assoc : assoc_phys w1.
Proof. intros i Hi. cbn in Hi. destruct i as [ | i]; cbn; try lra; lia. Qed.
Lemma w1_twice : subset w1 [0; 0]%nat = Some ww.
Proof. reflexivity. Qed.
Lemma w1_comp : p_assoc_comp w1 = [0%nat].
Proof.
  change (p_assoc_comp w1) with (nonzero_comp (p_kappa_ab w1)). unfold nonzero_comp.
  cbn [w1 from_records_raw p_kappa_ab pr_water map pr_model r_kappa_ab unwrap_or List.length seq filter ix nth].
  assert (H : @nltb RNum (@n0 RNum) (@nabs RNum 0.034867983) = true).
  { apply Rltb_true. unfold n0. cbn. rewrite Rabs_pos_eq by lra. lra. }
  rewrite H. reflexivity.
Qed.
Lemma w1_nassoc : p_nassoc w1 = 1%nat.
Proof. change (p_nassoc w1) with (List.length (p_assoc_comp w1)). rewrite w1_comp. reflexivity. Qed.
Lemma w1_total : merge [0; 0]%nat 1 [1; 1] = [1 + 1].
Proof. unfold merge. cbn. f_equal. ring. Qed.
Lemma w1_regrouped : regrouped [0; 0]%nat (length (p_m w1)) [1; 1] (merge [0; 0]%nat 1 [1; 1]).
Proof. apply (regrouped_merge [0; 0]%nat 1 [1; 1]). reflexivity. Qed.
Lemma w1_bonds v : 1000 <= v <= 10 ^ 6 ->
  free_bonds_a w1 350 v (merge [0; 0]%nat 1 [1; 1]) 0 = 2 * Delta (mix_of ww) 350 (fun i => nth i [1; 1] 0 / v) 0 0 / v.
Proof.
  intros Hv. rewrite <- (proj1 (ww_bonds v 0 Hv ltac:(cbn; lia))). symmetry.
  apply (free_a _ _ ww w1 [0; 0]%nat w1_ok w1_twice 350 v [1; 1] _ w1_regrouped 0). cbn; lia.
Qed.

(** liquid-like and gas-like water, one component or two *)
Example C05_one_associating_case v : 1000 <= v <= 10 ^ 6 ->
  exists r r', residual gauss_lu (eos_new ww) (@state_new RNum 350 v [1; 1]) = Some r' /\
    residual gauss_lu (eos_new w1) (@state_new RNum 350 v (merge [0; 0]%nat 1 [1; 1])) = Some r /\
    Rabs (r' - r) <= assoc_error ww v [1; 1] default_options + assoc_error w1 v (merge [0; 0]%nat 1 [1; 1]) default_options.
Proof.
  intros Hv. pose proof (ww_Delta_bounds v Hv) as HD.
  assert (Ec : comp w1 0 = 0%nat) by (unfold comp; rewrite w1_comp; reflexivity).
  apply (C05_one_associating _ _ w1 ww [0; 0]%nat w1_ok w1_twice w1_phys w1_assoc 350 v [1; 1]
    (ww_state v ltac:(lra)) gauss_lu gauss_lu_exact); rewrite ?Ec.
  - apply w1_nassoc.
  - rewrite ww_nassoc. lia.
  - reflexivity.
  - cbn. lra.
  - eapply Rle_trans; [apply (ww_Rho v Hv) | ]. right.
    exact (Rho_lump (mix_of ww) (mix_of w1) (fun i => nth i [0; 0]%nat 0%nat) _ _ (L_phi _ _ _ _ _ w1_ok w1_twice)
      (L_rho _ _ _ _ _ w1_ok w1_twice v _ _ w1_regrouped)).
  - change (length [pr_water]) with 1%nat. rewrite w1_bonds by auto. apply Rle_trans with (2 * 10 ^ 4 / 1000); [ | lra].
    unfold Rdiv. apply Rmult_le_compat; try lra; [left; apply Rinv_0_lt_compat; lra | apply Rinv_le_contravar; lra].
  - left. intros i j H. cbn in H. destruct i as [ | [ | ]], j as [ | [ | ]]; cbn; lia.
Qed.
(** the bound is small: water, one component or two, differ by less than 1e-8 *)
Example C05_bound v : 0 < v ->
  assoc_error ww v [1; 1] default_options + assoc_error w1 v (merge [0; 0]%nat 1 [1; 1]) default_options <= / 10 ^ 8.
Proof.
  intros Hv. unfold assoc_error. rewrite ww_nassoc, w1_nassoc.
  assert (Et : @o_tol RNum default_options = / 10 ^ 10) by (cbn; lits; lra). rewrite Et.
  assert (Ec : comp w1 0 = 0%nat) by (unfold comp; rewrite w1_comp; reflexivity).
  unfold tol_error, switch_error. rewrite Ec, w1_total.
  change (N (mix_of ww)) with 2%nat. cbn [rsum seq nth].
  change (Na (mix_of ww) 0) with 1. change (Na (mix_of ww) 1) with 1. change (Nb (mix_of ww) 0) with 1. change (Nb (mix_of ww) 1) with 1.
  change (Na (mix_of w1) 0) with 1. change (Nb (mix_of w1) 0) with 1.
  replace (v * (3 / 2 * ((1 + / 10 ^ 10) / (1 - / 10 ^ 10) ^ 2 - 1) * (1 / v * (1 + 1) + (1 / v * (1 + 1) + 0))))
    with (6 * ((1 + / 10 ^ 10) / (1 - / 10 ^ 10) ^ 2 - 1)).
  2:{ generalize ((1 + / 10 ^ 10) / (1 - / 10 ^ 10) ^ 2 - 1). intros c. field. lra. }
  interval.
Qed.

(* ------------------------------------------------- components with sites of one kind only *)

(** With [nb = 0] a single component bonds A sites with A sites (association.rs 63-66), the
    cross-association routine does not (association.rs 95-222).  Splitting such a component into two
    copies therefore changes the residual Helmholtz energy. *)
Lemma one_site_energy p t v moles a : wfp p -> phys p -> phys_state p t v moles -> p_assoc_comp p = [a] ->
  let X := mix_of p in
  let rho i := nth i moles 0 / v in
  Nb X a = 0 ->
  a_assoc p (@state_new RNum t v moles) = nth a moles 0 * fx (@assoc_site_frac_a RNum (Delta X t rho a a * rho a) (Na X a)) * Na X a.
Proof.
  intros W Hph PS La X rho Hb. unfold a_assoc. rewrite La. change (ixn [a] 0) with a. cbv zeta.
  pose proof (assoc_deltarho p W Hph t v moles PS a La) as Ed.
  change (s_t (@state_new RNum t v moles)) with t.
  match type of Ed with ?L = _ => match goal with |- context [@assoc_site_frac_a RNum ?D _] => change D with L end end.
  rewrite Ed.
  change (@ix RNum (p_na p) a) with (Na X a). change (@ix RNum (p_nb p) a) with (Nb X a).
  rn. rewrite (proj2 (Rltb_false 0 (Nb X a))) by lra. rewrite f_assoc_R. reflexivity.
Qed.

Definition pr_a : pure_record RNum :=
  @mkPure RNum (named "one kind of sites") (18.0152) (@mkRec RNum (1.065587) (3.000683) (366.5121)
    None None (Some 0.034867983) (Some 2500.6706) (Some 1) (Some 0) None None None) None.
Definition a1 : params RNum := from_records_raw [pr_a] (zeros 1).
Definition a2 : params RNum := from_records_raw [pr_a; pr_a] (zeros 2).
Lemma a1_ok : from_records [pr_a] (zeros 1) = Some a1.
Proof. reflexivity. Qed.
Lemma a2_ok : from_records [pr_a; pr_a] (zeros 2) = Some a2.
Proof. reflexivity. Qed.
Lemma a1_twice : subset a1 [0; 0]%nat = Some a2.
Proof. reflexivity. Qed.
Lemma a1_phys : phys a1.
Proof. intros i Hi. cbn in Hi. destruct i as [ | i]; cbn; try lra; lia. Qed.
Lemma a1_assoc : assoc_phys a1.
Proof. intros i Hi. cbn in Hi. destruct i as [ | i]; cbn; try lra; lia. Qed.
Lemma a1_comp : p_assoc_comp a1 = [0%nat].
Proof. exact w1_comp. Qed.
Lemma a2_nassoc : p_nassoc a2 = 2%nat.
Proof. exact ww_nassoc. Qed.
Lemma a2_state v : 100 <= v -> phys_state a2 350 v [1; 1].
Proof.
  intros Hv. apply phys_state_intro; [exact (subset_phys _ _ _ _ _ a1_ok a1_twice a1_phys) | lra | lra | reflexivity | | | ].
  - intros i Hi. cbn in Hi. destruct i as [ | [ | i]]; cbn; try lra; lia.
  - exists 0%nat. cbn. split; [lia | lra].
  - cbn. lra.
Qed.
Lemma a1_regrouped : regrouped [0; 0]%nat (length (p_m a1)) [1; 1] (merge [0; 0]%nat 1 [1; 1]).
Proof. apply (regrouped_merge [0; 0]%nat 1 [1; 1]). reflexivity. Qed.

Theorem C05_one_kind_of_sites_refuted :
  exists prs bin p p' l t v moles, from_records prs bin = Some p /\ subset p l = Some p' /\ phys p /\ assoc_phys p /\
    phys_state p' t v moles /\ one_quadrupole_diameter p /\ forall lu, lu_exact lu ->
    exists r r', residual lu (eos_new p') (@state_new RNum t v moles) = Some r' /\
      residual lu (eos_new p) (@state_new RNum t v (merge l (length prs) moles)) = Some r /\
      r' - r > 1.
Proof.
  exists [pr_a], (zeros 1), a1, a2, [0; 0]%nat, 350, (10 ^ 6), [1; 1].
  set (v := 10 ^ 6). assert (Hv : 1000 <= v <= 10 ^ 6) by (unfold v; lra).
  pose proof (a2_state v ltac:(lra)) as PS.
  pose proof (lump_phys_state _ _ _ _ _ a1_ok a1_twice 350 v _ _ a1_regrouped PS) as PSt.
  assert (Q : one_quadrupole_diameter a1).
  { intros i j Hi Hj. cbn in Hi, Hj. destruct i; [ | lia]. destruct j; [ | lia]. reflexivity. }
  split; [exact a1_ok | ]. split; [exact a1_twice | ]. split; [exact a1_phys | ]. split; [exact a1_assoc | ].
  split; [exact PS | ]. split; [exact Q | ]. intros lu Hlu.
  assert (Ap2 : assoc_phys a2) by (apply (subset_assoc_phys _ _ a2 a1 [0; 0]%nat a1_ok a1_twice a1_assoc)).
  assert (Ph2 : phys a2) by exact (subset_phys _ _ _ _ _ a1_ok a1_twice a1_phys).
  pose proof (ww_Delta_bounds v Hv) as HD.
  set (D := Delta (mix_of ww) 350 (fun i => nth i [1; 1] 0 / v) 0 0) in *.
  assert (ED2 : forall i j, (i < 2)%nat -> (j < 2)%nat -> Delta (mix_of a2) 350 (fun i => nth i [1; 1] 0 / v) i j = D).
  { intros i j Hi Hj. unfold D. rewrite <- (ww_Delta v i j Hi Hj). reflexivity. }
  set (tot := merge [0; 0]%nat 1 [1; 1]) in *.
  assert (ED1 : Delta (mix_of a1) 350 (fun i => nth i tot 0 / v) 0 0 = D).
  { rewrite <- (ED2 0%nat 0%nat) by lia. symmetry.
    exact (Delta_lump (mix_of a2) (mix_of a1) 350 (fun i => nth i [0; 0]%nat 0%nat) _ _ (L_phi _ _ _ _ _ a1_ok a1_twice)
      (L_rho _ _ _ _ _ a1_ok a1_twice v _ _ a1_regrouped) (L_m _ _ _ _ _ a1_ok a1_twice) (L_s _ _ _ _ _ a1_ok a1_twice)
      (L_e _ _ _ _ _ a1_ok a1_twice) (L_k _ _ _ _ _ a1_ok a1_twice) (L_ea _ _ _ _ _ a1_ok a1_twice) 0%nat 0%nat ltac:(cbn; lia) ltac:(cbn; lia)). }
  (* two copies: the energy is that of the law, which is zero *)
  destruct (C13_weak_default lu _ _ a2 350 v [1; 1] Hlu a2_ok Ph2 Ap2 PS) as (c & Ec & Cc).
  - rewrite a2_nassoc. lia.
  - exact (ww_Rho v Hv).
  - intros i Hi. change (N (mix_of a2)) with 2%nat in *. cbn [rsum seq]. rewrite !ED2 by (auto; lia). cbn [nth].
    change (Nb (mix_of a2) 0) with 0. change (Nb (mix_of a2) 1) with 0. change (Na (mix_of a2) 0) with 1. change (Na (mix_of a2) 1) with 1.
    unfold v. split; lra.
  - assert (Hc : Rabs c <= / 10 ^ 8).
    { destruct (law_exists a2 Ph2 Ap2 350 v [1; 1] PS) as (xa & xb & HM & HB).
      specialize (Cc xa xb HM HB). cbv zeta in Cc.
      assert (X1 : forall i, (i < 2)%nat -> xa i = 1).
      { intros i Hi. destruct (HM i Hi) as [L _]. change (N (mix_of a2)) with 2%nat in L. cbn [rsum seq] in L.
        change (Nb (mix_of a2) 0) with 0 in L. change (Nb (mix_of a2) 1) with 0 in L. lra. }
      assert (F0 : f_assoc_xx (mix_of a2) (fun i => nth i [1; 1] 0 / v) xa xb = 0).
      { unfold f_assoc_xx. change (N (mix_of a2)) with 2%nat. cbn [rsum seq]. rewrite !X1, fx_1 by lia.
        change (Nb (mix_of a2) 0) with 0. change (Nb (mix_of a2) 1) with 0. ring. }
      rewrite F0, Rmult_0_r, Rminus_0_r in Cc. eapply Rle_trans; [exact Cc | ].
      unfold tol_error. change (N (mix_of a2)) with 2%nat. cbn [rsum seq nth].
      change (Nb (mix_of a2) 0) with 0. change (Nb (mix_of a2) 1) with 0. change (Na (mix_of a2) 0) with 1. change (Na (mix_of a2) 1) with 1.
      unfold v. interval. }
    (* one component: A-A bonding *)
    assert (Ha : a_assoc a1 (@state_new RNum 350 v tot) < - 2).
    { rewrite (one_site_energy a1 350 v tot 0 (wfp_from_records _ _ _ a1_ok) a1_phys PSt a1_comp eq_refl).
      rewrite ED1. change (Na (mix_of a1) 0) with 1. unfold tot. rewrite w1_total. cbn [nth].
      unfold assoc_site_frac_a. rn.
      assert (S1 : / 2 ^ 26 < D * ((1 + 1) / v)) by (unfold v; lra).
      rewrite sqrt_eps_R, (proj2 (Rltb_true _ _)) by lra.
      set (e := D * ((1 + 1) / v)) in *. assert (He : 0 < e <= / 48) by (unfold e, v in *; lra).
      set (x := sqrt _ / _).
      assert (Hx : 10 <= x).
      { assert (S : 10 * (e * 2) <= sqrt ((e * 1 * 4 + 1) ^ 2 - 1)).
        { rewrite <- (sqrt_pow2 (10 * (e * 2))) by lra. apply sqrt_le_1_alt. nra. }
        unfold x. rewrite Rmult_1_r in *. apply Rmult_le_reg_r with (e * 2); [lra | ].
        replace (sqrt ((e * 4 + 1) ^ 2 - 1) / (e * 2) * (e * 2)) with (sqrt ((e * 4 + 1) ^ 2 - 1)) by (field; lra). exact S. }
      clearbody x. assert (Hl : ln x <= x / 10 - 1 + ln 10).
      { pose proof (exp_ineq1_le (ln (x / 10))) as E. rewrite exp_ln in E by lra. rewrite ln_div in E by lra. lra. }
      assert (ln 10 < 2.4) by interval. unfold fx. lra. }
    destruct (regroup_rest _ _ a2 a1 [0; 0]%nat a1_ok a1_twice a1_phys 350 v [1; 1] tot a1_regrouped PS lu default_options
      (C05_quadrupole _ _ a1 a2 [0; 0]%nat a1_ok a1_twice a1_phys 350 v [1; 1] PS (or_intror Q))) as (b & B & B').
    exists (b + a_assoc a1 (@state_new RNum 350 v tot)), (b + c). split; [ | split].
    + unfold eos_new. rewrite B. unfold assoc_term. rewrite a2_nassoc.
      assert (Et : @o_tol RNum default_options = / 10 ^ 10) by (cbn; lits; lra). rewrite Et.
      change (@o_max_iter RNum default_options) with 50%nat. rewrite Ec. reflexivity.
    + unfold eos_new. change (length [pr_a]) with 1%nat. fold tot. rewrite B'. unfold assoc_term.
      change (p_nassoc a1) with (length (p_assoc_comp a1)). rewrite a1_comp. reflexivity.
    + apply Rabs_le_between in Hc. lra.
Qed.

Print Assumptions C13_solvable.
Print Assumptions C13_residual_returned.
Print Assumptions C04_solvable.
Print Assumptions C05_solvable.
Print Assumptions C05_one_associating.
Print Assumptions C05_one_kind_of_sites_refuted.
