(** C44: data reported by the equation of state and by the functional. *)
From Coq Require Import ZArith QArith Reals Lra Lia List Bool.
From Interval Require Import Tactic.
From Verif Require Import Num RNum RSum Tables M_Params F_Params M_Eos M_Dft M_Transport M_Access Spec F_Spec Samples P_Params P_Transport.
Import ListNotations.
Local Open Scope R_scope.
Set Bullet Behavior "Strict Subproofs".

Section C44.
  Variables (prs : list (pure_record RNum)) (bin : list (list R)) (p : params RNum).
  Hypothesis Hp : from_records prs bin = Some p.
  Let P0 : p = from_records_raw prs bin := from_records_raw_of _ _ _ Hp.

  (** kilogram per mole from the gram per mole of the records, in the order of the records *)
  Theorem C44_molar_weight o fv : molar_weight (with_options p o) = map (fun pr : pure_record RNum => pr_molarweight pr / 1000) prs /\
    f_molar_weight (f_with_options p fv o) = molar_weight (with_options p o).
  Proof.
    unfold molar_weight, f_molar_weight. cbn [with_options e_params f_with_options f_params]. split; [ | reflexivity].
    rewrite P0. cbn [p_molarweight from_records_raw]. rewrite map_map. apply map_ext. intros pr. rewrite gram_lit. rn. lra.
  Qed.
  (** well depths, diameters and segment numbers are those of the records *)
  Theorem C44_fluid_parameters o fv : f_epsilon_k_ff (f_with_options p fv o) = map (fun pr : pure_record RNum => r_epsilon_k (pr_model pr)) prs /\
    f_sigma_ff (f_with_options p fv o) = map (fun pr : pure_record RNum => r_sigma (pr_model pr)) prs /\
    fmt_chain_length p = map (fun pr : pure_record RNum => r_m (pr_model pr)) prs /\
    f_molecule_shape (f_with_options p fv o) = map (fun pr : pure_record RNum => r_m (pr_model pr)) prs.
  Proof.
    unfold f_epsilon_k_ff, f_sigma_ff, fmt_chain_length, f_molecule_shape. cbn [f_with_options f_params]. rewrite P0.
    cbn [p_epsilon_k p_sigma p_m from_records_raw]. rewrite !map_map. auto.
  Qed.
  (** every component is listed once, in order *)
  Theorem C44_component_index o : NoDup (fmt_component_index p) /\ (forall i, In i (fmt_component_index p) <-> (i < length prs)%nat) /\
    length (fmt_component_index p) = components (with_options p o) /\ components (with_options p o) = length prs.
  Proof.
    unfold fmt_component_index, components. cbn [with_options e_params]. rewrite P0. cbn [p_m p_pure_records from_records_raw]. rewrite !map_length.
    split; [apply seq_NoDup | ]. split; [intros i; rewrite in_seq; lia | ]. rewrite seq_length. auto.
  Qed.
  (** complete ideal-gas records: both models use them, in order *)
  Theorem C44_ideal_gas o fv l : map pr_ideal_gas prs = map Some l ->
    forall t, e_ideal_gas_term (with_options p o) t = map (fun j => ext_joback j t) l /\
      f_ideal_gas_term (f_with_options p fv o) t = map (fun j => ext_joback j t) l.
  Proof.
    intros H t. assert (E : p_joback p = Some l).
    { rewrite P0. cbn [p_joback from_records_raw]. rewrite H. apply collect_opt_spec. reflexivity. }
    unfold e_ideal_gas_term, f_ideal_gas_term, with_options, f_with_options. cbn [e_ideal_gas f_joback]. rewrite E. auto.
  Qed.
  (** an incomplete set of records: the equation of state estimates the heat capacities (C34), the
      functional takes them to be zero *)
  Theorem C44_missing_records o fv pr : In pr prs -> pr_ideal_gas pr = None ->
    forall t, 0 < t ->
      e_ideal_gas_term (with_options p o) t = de_broglie_wavelength p t (length prs) /\
      f_ideal_gas_term (f_with_options p fv o) t = map (fun _ => ln (t * 1.38064852e-23 / (1e5 * 1e-30))) prs.
  Proof.
    intros I N t Ht.
    assert (EQ : e_ideal_gas (with_options p o) = IG_QSPR) by (apply (C34_model_choice prs bin p Hp o); exists pr; auto).
    assert (EJ : p_joback p = None) by (unfold with_options in EQ; cbn [e_ideal_gas] in EQ; destruct (p_joback p); [discriminate | reflexivity]).
    split.
    - unfold e_ideal_gas_term. rewrite EQ. unfold components. cbn [with_options e_params]. rewrite P0 at 2. reflexivity.
    - unfold f_ideal_gas_term, f_with_options. cbn [f_joback]. rewrite EJ.
      assert (El : length (p_m p) = length prs) by (rewrite P0; cbn [p_m from_records_raw]; rewrite !map_length; reflexivity).
      rewrite El.
      assert (E : @ext_joback RNum ext_joback_zero t = ln (t * 1.38064852e-23 / (1e5 * 1e-30))).
      { unfold ext_joback, ext_joback_zero. cbn [jb_a jb_b jb_c jb_d jb_e].
        assert (K1 : @q_kb RNum = 1.38064852e-23) by (unfold q_kb; rn; lits; lra).
        assert (K2 : @q_p0 RNum = 1e5) by (unfold q_p0; match goal with |- @nlit RNum ?q = _ => let v := eval vm_compute in q in change q with v end; rn; lits; lra).
        assert (K3 : @q_a3 RNum = 1e-30) by (unfold q_a3; rn; lits; lra). rewrite K1, K2, K3. rn. unfold Rdiv. ring. }
      assert (G : forall (w : R) (l : list (pure_record RNum)), repeat w (length l) = map (fun _ => w) l) by (intros w l; induction l; cbn; congruence).
      rewrite E. exact (G _ prs).
  Qed.
End C44.

(** the ideal-gas terms of both models built from the same parameters differ *)
Theorem C44_ideal_gas_refuted : exists prs bin p o fv t, from_records prs bin = Some p /\
  (forall pr, In pr prs -> physical_record (pr_model pr)) /\ 0 < t /\
  e_ideal_gas_term (with_options p o) t <> f_ideal_gas_term (f_with_options p fv o) t.
Proof.
  exists [pr_propane], (zeros 1), prop_p, default_options, WhiteBear, 400.
  assert (Ph1 : forall q, In q [pr_propane] -> physical_record (pr_model q)) by (intros q [<- | []]; unfold physical_record; cbn; lra).
  assert (T : 0 < 400) by lra.
  split; [exact prop_ok | ]. split; [exact Ph1 | ]. split; [exact T | ].
  destruct (C44_missing_records [pr_propane] (zeros 1) prop_p prop_ok default_options WhiteBear pr_propane (or_introl eq_refl) eq_refl 400 T) as (A & B).
  rewrite A, B.
  assert (K1 : mixture_class [pr_propane] NonPolar).
  { intros q [<- | []]. cbn. split; [lra | ]. intros [C | C]; lra. }
  rewrite (C34_correlation [pr_propane] (zeros 1) prop_p prop_ok Ph1 NonPolar 400 K1 T).
  intros H. apply (f_equal (fun l => nth 0 l 0)) in H. revert H. cbn [map nth].
  unfold qspr_of, qspr_value, class_coeffs, lits_of. unfold NA_NP_300, NA_NP_400.
  cbn [map nth fst snd pr_propane pr_model r_epsilon_k r_m r_sigma r_epsilon_k_ab r_kappa_ab r_q opt_or]. cbv zeta.
  lits. apply Rlt_not_eq. match goal with |- ?a / ?b + ?c < _ => enough (a / b < 0) by lra end. interval.
Qed.

(** selection of components: every item of the selection is the item of the component selected *)
Section Subset.
  Variables (prs : list (pure_record RNum)) (bin : list (list R)) (p : params RNum).
  Hypothesis Hp : from_records prs bin = Some p.
  Theorem C44_subset o fv idx e' f' : eos_subset (with_options p o) idx = Some e' -> f_subset (f_with_options p fv o) idx = Some f' ->
    forall k i, nth_error idx k = Some i ->
      nth_error (molar_weight e') k = nth_error (molar_weight (with_options p o)) i /\
      nth_error (f_molar_weight f') k = nth_error (molar_weight (with_options p o)) i /\
      nth_error (f_epsilon_k_ff f') k = nth_error (f_epsilon_k_ff (f_with_options p fv o)) i /\
      nth_error (f_sigma_ff f') k = nth_error (f_sigma_ff (f_with_options p fv o)) i /\
      nth_error (f_molecule_shape f') k = nth_error (f_molecule_shape (f_with_options p fv o)) i.
  Proof.
    intros He Hf k i Hk.
    destruct (C18_eos_subset _ _ _ He) as (_ & S1 & E'). destruct (C18_functional_subset _ _ _ Hf) as (_ & _ & S2 & F').
    cbn [with_options e_params f_with_options f_params] in S1, S2. assert (Eq : e_params e' = f_params f') by congruence.
    rewrite E', F'. cbn [with_options e_options f_with_options f_version f_options]. rewrite <- Eq. set (q := e_params e') in *.
    assert (S : exists r, subset_records prs idx = Some r /\ from_records r (@subset_binary RNum bin idx) = Some q).
    { unfold subset in S1. rewrite (from_records_raw_of _ _ _ Hp) in S1. unfold records in S1. cbn [fst snd p_pure_records p_binary_records from_records_raw] in S1.
      destruct (subset_records prs idx) as [r | ]; [ | discriminate]. exists r. auto. }
    destruct S as (r & Sr & Hq). destruct (proj1 (subset_records_selects _ _ _) Sr) as (L & Sel). specialize (Sel k i Hk).
    destruct (C44_molar_weight prs bin p Hp o fv) as (W1 & _). destruct (C44_molar_weight r _ q Hq o fv) as (W2 & W3).
    destruct (C44_fluid_parameters prs bin p Hp o fv) as (A1 & A2 & _ & A4). destruct (C44_fluid_parameters r _ q Hq o fv) as (B1 & B2 & _ & B4).
    rewrite W3, W2, W1, A1, A2, A4, B1, B2, B4, !nth_error_map, (proj1 Sel). auto.
  Qed.
End Subset.

(* ----------------------------------------------------------------------------------- cases *)

Example C44_case o fv : exists e f, eos_subset (with_options sample o) [2; 0]%nat = Some e /\ f_subset (f_with_options sample fv o) [2; 0]%nat = Some f /\
  molar_weight e = [nth 2 (molar_weight (with_options sample o)) 0; nth 0 (molar_weight (with_options sample o)) 0] /\
  f_molar_weight f = molar_weight e.
Proof.
  assert (S : exists q, subset sample [2; 0]%nat = Some q) by (eexists; reflexivity). destruct S as (q & S).
  assert (He : eos_subset (with_options sample o) [2; 0]%nat = Some (with_options q o)) by (unfold eos_subset; cbn [with_options e_params e_options]; rewrite S; reflexivity).
  assert (Hf : f_subset (f_with_options sample fv o) [2; 0]%nat = Some (f_with_options q fv o)) by (unfold f_subset; cbn [f_with_options f_params f_options f_version]; rewrite S; reflexivity).
  exists (with_options q o), (f_with_options q fv o). split; [exact He | ]. split; [exact Hf | ]. split; [ | reflexivity].
  pose proof (C44_subset _ _ _ sample_ok o fv _ _ _ He Hf) as H. destruct (H 0%nat 2%nat eq_refl) as (H1 & _). destruct (H 1%nat 0%nat eq_refl) as (H2 & _).
  assert (L : length (molar_weight (with_options q o)) = 2%nat).
  { unfold molar_weight. rewrite map_length. cbn [with_options e_params]. assert (Q : q = q) by reflexivity. clear - S. injection S as <-. reflexivity. }
  destruct (molar_weight (with_options q o)) as [ | a [ | b [ | ]]]; try discriminate L.
  assert (G : forall (l : list R) i x, Some x = nth_error l i -> x = nth i l 0) by (intros l i x Hx; symmetry; apply nth_error_nth; auto).
  apply (G _ 2%nat) in H1. apply (G _ 0%nat) in H2. change (car RNum) with R in *. rewrite <- H1, <- H2. reflexivity.
Qed.
Definition pr_joback : pure_record RNum :=
  {| pr_id := pr_id pr_propane; pr_molarweight := pr_molarweight pr_propane; pr_model := pr_model pr_propane; pr_ideal_gas := Some (@mkJoback RNum (-4) (3 / 10) (-1 / 10000) (1 / 10 ^ 8) 0) |}.
Example C44_ideal_gas_case o fv t : exists p j, from_records [pr_joback] (zeros 1) = Some p /\
  e_ideal_gas_term (with_options p o) t = [ext_joback j t] /\ f_ideal_gas_term (f_with_options p fv o) t = [ext_joback j t].
Proof.
  eexists. eexists. split; [reflexivity | ]. exact (C44_ideal_gas [pr_joback] (zeros 1) _ eq_refl o fv [_] eq_refl t).
Qed.

Print Assumptions C44_molar_weight.
Print Assumptions C44_fluid_parameters.
Print Assumptions C44_component_index.
Print Assumptions C44_ideal_gas.
Print Assumptions C44_missing_records.
Print Assumptions C44_ideal_gas_refuted.
Print Assumptions C44_subset.
