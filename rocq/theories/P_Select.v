(** C02 (extensivity), C19 (selection of contributions), C36 (binary parameters), C37 (variants of
    the dipole-quadrupole term). *)
From Coq Require Import ZArith QArith Reals Lra Lia String List Bool.
From Verif Require Import Num RNum RSum Tables M_Params F_Params M_Eos M_Text Spec F_Spec F_SpecPolar F_SpecAssoc
  F_Contrib F_Total Samples P_Params.
Import ListNotations.
Local Open Scope R_scope.

(* --------------------------------------------------------------------------- C02 *)

(** every contribution, and the residual, scales with the size of the system, whatever linear
    solver the cross-association uses; a failing evaluation keeps failing *)
Theorem C02_contribution_extensive lu (p : params RNum) (c : contribution RNum) t v moles k :
  0 < k ->
  eval_contribution lu p c (state_new (K := RNum) t (k * v) (map (fun n => k * n) moles))
  = option_map (fun a => k * a) (eval_contribution lu p c (state_new (K := RNum) t v moles)).
Proof.
  intros Hk. assert (k <> 0) by lra. fold (scaled k moles).
  destruct c; cbn [eval_contribution option_map].
  - f_equal. apply ext_hs; auto.
  - f_equal. apply ext_hc; auto.
  - f_equal. apply ext_disp; auto.
  - f_equal. apply ext_dipole; auto.
  - f_equal. apply ext_quadrupole; auto.
  - f_equal. apply ext_dq; auto.
  - f_equal. apply ext_assoc; auto.
  - apply ext_cross; auto.
Qed.

Theorem C02_residual_extensive lu (p : params RNum) o t v moles k : 0 < k ->
  residual lu (with_options p o) (state_new (K := RNum) t (k * v) (map (fun n => k * n) moles))
  = option_map (fun a => k * a) (residual lu (with_options p o) (state_new (K := RNum) t v moles)).
Proof.
  intros Hk. fold (scaled k moles). rewrite (ext_residual t v k moles) by lra. reflexivity.
Qed.

(* --------------------------------------------------------------------------- C19 *)

(** which contributions are evaluated *)
Theorem C19_contributions (p : params RNum) o (c : contribution RNum) :
  In c (e_contributions (with_options p o)) <->
  match c with
  | CHardSphere | CHardChain | CDispersion => True
  | CDipole => p_ndipole p <> O
  | CQuadrupole => p_nquadpole p <> O
  | CDipoleQuadrupole v => p_ndipole p <> O /\ p_nquadpole p <> O /\ v = o_dq o
  | CAssociation => p_nassoc p = 1%nat
  | CCrossAssociation it tol => (2 <= p_nassoc p)%nat /\ it = o_max_iter o /\ tol = o_tol o
  end.
Proof.
  unfold with_options. cbn [e_contributions]. rewrite !in_app_iff. cbn [In].
  destruct (p_ndipole p) as [ | a]; destruct (p_nquadpole p) as [ | b]; destruct (p_nassoc p) as [ | [ | d]];
    cbn [Nat.ltb Nat.leb andb In]; destruct c; intuition (try discriminate; try lia; try congruence).
Qed.

(** each at most once, under distinct names *)
Theorem C19_names_distinct (p : params RNum) o :
  NoDup (map contribution_name (e_contributions (with_options p o))).
Proof.
  unfold with_options. cbn [e_contributions].
  destruct (p_ndipole p) as [ | a]; destruct (p_nquadpole p) as [ | b]; destruct (p_nassoc p) as [ | [ | d]];
    cbn [Nat.ltb Nat.leb andb app map contribution_name];
    repeat (constructor; [cbn [In]; intuition discriminate | ]); constructor.
Qed.

(** the residual is the sum of all terms; those left out would contribute zero *)
Theorem C19_residual_is_sum lu (p : params RNum) o s :
  residual lu (with_options p o) s =
  match (match p_nassoc p with
         | O => Some 0
         | 1%nat => Some (a_assoc p s)
         | _ => a_cross_assoc lu (o_max_iter o) (o_tol o) p s
         end) with
  | Some a => Some (a_hs p s + a_hc p s + a_disp p s + a_dipole p s + a_quadrupole p s + a_dq p (o_dq o) s + a)
  | None => None
  end.
Proof. apply residual_total. Qed.

Theorem C19_left_out_is_zero lu (p : params RNum) o c s :
  ~ In c (e_contributions (with_options p o)) ->
  match c with CDipole | CQuadrupole => True | CDipoleQuadrupole v => v = o_dq o | _ => False end ->
  eval_contribution lu p c s = Some 0.
Proof.
  rewrite C19_contributions. intros H Hc. destruct c; try contradiction; cbn [eval_contribution]; f_equal.
  - apply a_dipole_none. lia.
  - apply a_quadrupole_none. lia.
  - destruct (p_ndipole p) eqn:E; [apply a_dq_none_d; auto | ].
    destruct (p_nquadpole p) eqn:E'; [apply a_dq_none_q; auto | ]. exfalso. apply H. auto.
Qed.

(* --------------------------------------------------------------------------- C36 *)

Lemma Some_inj {A} (a b : A) : Some a = Some b -> a = b.
Proof. congruence. Qed.


Section C36.
  Variables (prs : list (pure_record RNum)) (bin bin' : list (list R)) (p p' : params RNum).
  Hypothesis Hp : from_records prs bin = Some p.
  Hypothesis Hp' : from_records prs bin' = Some p'.

  (** binary interaction parameters have no influence outside of the dispersion contribution *)
  Theorem C36_only_dispersion lu s c : c <> CDispersion ->
    eval_contribution lu p c s = eval_contribution lu p' c s.
  Proof.
    rewrite (from_records_raw_of _ _ _ Hp), (from_records_raw_of _ _ _ Hp').
    intros H. destruct c; try reflexivity. contradiction.
  Qed.

  (** dispersion depends on them only through epsilon_k_ij *)
  Theorem C36_through_epsilon s : p_epsilon_k_ij p = p_epsilon_k_ij p' -> a_disp p s = a_disp p' s.
  Proof.
    rewrite (from_records_raw_of _ _ _ Hp), (from_records_raw_of _ _ _ Hp').
    intros H. unfold a_disp, rho1mix, rho2mix. rewrite H. reflexivity.
  Qed.

  (** hence the residual energies differ exactly by the dispersion contribution *)
  Theorem C36_residual lu o s a : residual lu (with_options p o) s = Some a ->
    residual lu (with_options p' o) s = Some (a - a_disp p s + a_disp p' s).
  Proof.
    rewrite !C19_residual_is_sum.
    pose proof (C36_only_dispersion lu s) as E. 
    assert (H1 := E CHardSphere ltac:(discriminate)). assert (H2 := E CHardChain ltac:(discriminate)).
    assert (H3 := E CDipole ltac:(discriminate)). assert (H4 := E CQuadrupole ltac:(discriminate)).
    assert (H5 := E (CDipoleQuadrupole (o_dq o)) ltac:(discriminate)).
    assert (H6 := E CAssociation ltac:(discriminate)).
    assert (H7 := E (CCrossAssociation (o_max_iter o) (o_tol o)) ltac:(discriminate)).
    unfold eval_contribution in H1, H2, H3, H4, H5, H6, H7.
    apply Some_inj in H1, H2, H3, H4, H5, H6.
    rewrite <- H1, <- H2, <- H3, <- H4, <- H5, <- H6, <- H7.
    replace (p_nassoc p') with (p_nassoc p)
      by (rewrite (from_records_raw_of _ _ _ Hp), (from_records_raw_of _ _ _ Hp'); reflexivity).
    assert (G : forall b, Some (a_hs p s + a_hc p s + a_disp p s + a_dipole p s + a_quadrupole p s + a_dq p (o_dq o) s + b) = Some a ->
      Some (a_hs p s + a_hc p s + a_disp p' s + a_dipole p s + a_quadrupole p s + a_dq p (o_dq o) s + b)
      = Some (a - a_disp p s + a_disp p' s)).
    { intros b H. apply Some_inj in H. subst a. f_equal.
      set (x1 := a_hs p s). set (x2 := a_hc p s). set (x3 := a_disp p s). set (x4 := a_dipole p s).
      set (x5 := a_quadrupole p s). set (x6 := a_dq p _ s). set (x7 := a_disp p' s). generalize x1 x2 x3 x4 x5 x6 x7. change (car RNum) with R. intros. ring. }
    destruct (p_nassoc p) as [ | [ | na]]; [apply G | apply G | ].
    destruct (a_cross_assoc lu (o_max_iter o) (o_tol o) p s); [apply G | discriminate].
  Qed.
End C36.

(** k_12 = 1 switches the unlike dispersion off: only like pairs remain in both mixing sums *)
Theorem C36_cross_vanishes a b p t v n1 n2 :
  new_binary (K := RNum) a b (Some 1) = Some p -> phys p -> phys_state p t v [n1; n2] ->
  let X := mix_of p in
  let rho i := nth i [n1; n2] 0 / v in
  let like k := Sum i < 2, rho i ^ 2 * M X i ^ 2 * (Ep X i / t) ^ k * Sg X i ^ 3 in
  a_disp p (state_new (K := RNum) t v [n1; n2])
  = v * (- 2 * PI * power_series X t rho A0 A1 A2 * like 1%nat - PI * Mbar X rho * C1 X t rho * power_series X t rho B0 B1 B2 * like 2%nat).
Proof.
  intros Hp Hph PS X rho like.
  assert (W := wfp_from_records _ _ _ Hp).
  rewrite (disp_textbook p W t v _ PS). f_equal.
  change (mix_of p) with X. change (fun i : nat => nth i [n1; n2] 0 / v) with rho.
  assert (N2 : N X = 2%nat).
  { unfold X. rewrite (from_records_raw_of _ _ _ Hp). reflexivity. }
  assert (E : forall k, (1 <= k)%nat -> mixsum X t rho k = like k).
  { intros k Hk. unfold mixsum, like. rewrite N2.
    assert (E0 : forall i, (i < 2)%nat -> Eij X i i = Ep X i).
    { intros i Hi. unfold Eij, X. assert (0 < @ix RNum (p_epsilon_k p) i).
      { apply Hph. change (List.length (p_m p)) with (N X). rewrite N2. auto. }
      replace (Kij (mix_of p) i i) with 0.
      - unfold Eij0; mx. rewrite sqrt_square by lra. ring.
      - unfold mix_of; simpl. rewrite (from_records_raw_of _ _ _ Hp). destruct i as [ | [ | i]]; try reflexivity. lia. }
    assert (E1 : forall i j, (i < 2)%nat -> (j < 2)%nat -> i <> j -> Eij X i j = 0).
    { intros i j Hi Hj Hne. unfold Eij. replace (Kij X i j) with 1; [ring | ].
      unfold X, mix_of; simpl. rewrite (from_records_raw_of _ _ _ Hp).
      destruct i as [ | [ | i]]; destruct j as [ | [ | j]]; try lia; reflexivity. }
    cbn [rsum seq]. rewrite !E0, (E1 0%nat 1%nat), (E1 1%nat 0%nat) by lia.
    unfold Sij. destruct k as [ | k]; [lia | ]. unfold Rdiv. rewrite !Rmult_0_l. rewrite !(pow_i (S k)) by lia. field_simplify; [ | lra ..]. field; lra. }
  unfold f_disp. rewrite !E by lia. reflexivity.
Qed.

(* --------------------------------------------------------------------------- C37 *)

(** the option changes nothing but the dipole-quadrupole term *)
Theorem C37_only_dq lu (p : params RNum) o o' s :
  o_max_iter o = o_max_iter o' -> o_tol o = o_tol o' ->
  forall a, residual lu (with_options p o) s = Some a ->
  residual lu (with_options p o') s = Some (a - a_dq p (o_dq o) s + a_dq p (o_dq o') s).
Proof.
  intros Hi Ht a. rewrite !C19_residual_is_sum, Hi, Ht.
  assert (G : forall b, Some (a_hs p s + a_hc p s + a_disp p s + a_dipole p s + a_quadrupole p s + a_dq p (o_dq o) s + b) = Some a ->
      Some (a_hs p s + a_hc p s + a_disp p s + a_dipole p s + a_quadrupole p s + a_dq p (o_dq o') s + b)
      = Some (a - a_dq p (o_dq o) s + a_dq p (o_dq o') s)).
  { intros b H. apply Some_inj in H. subst a. f_equal.
    set (x1 := a_hs p s). set (x2 := a_hc p s). set (x3 := a_disp p s). set (x4 := a_dipole p s).
    set (x5 := a_quadrupole p s). set (x6 := a_dq p (o_dq o) s). set (x7 := a_dq p (o_dq o') s). generalize x1 x2 x3 x4 x5 x6 x7. change (car RNum) with R. intros. ring. }
  destruct (p_nassoc p) as [ | [ | na]]; [apply G | apply G | ].
  destruct (a_cross_assoc lu (o_max_iter o') (o_tol o') p s); [apply G | discriminate].
Qed.

(** both variants coincide when the dipolar and the quadrupolar components have the same diameter *)
Theorem C37_variants_coincide prs bin p t v moles :
  from_records prs bin = Some p -> phys p -> phys_state p t v moles ->
  (forall i j, (i < List.length (p_m p))%nat -> (j < List.length (p_m p))%nat ->
     nth i (p_mu2 p) 0 <> 0 -> nth j (p_q2 p) 0 <> 0 -> nth i (p_sigma p) 0 = nth j (p_sigma p) 0) ->
  a_dq p DQ35 (state_new (K := RNum) t v moles) = a_dq p DQ44 (state_new (K := RNum) t v moles).
Proof.
  intros Hp Hph PS H. assert (W := wfp_from_records _ _ _ Hp).
  rewrite !(dq_textbook p W Hph t v moles PS). f_equal. unfold f_dq. f_equal.
  unfold dq2. f_equal. apply Sum_ext; intros i Hi. apply Sum_ext; intros j Hj.
  cbn [dq_exps fst snd].
  destruct (Req_dec (Mu2 (mix_of p) i) 0) as [-> | Hm]; [ring | ].
  destruct (Req_dec (Qu2 (mix_of p) j) 0) as [-> | Hq]; [ring | ].
  assert (E : Sg (mix_of p) i = Sg (mix_of p) j) by (apply (H i j Hi Hj Hm Hq)).
  unfold Wi. rewrite E. unfold Rdiv. ring.
Qed.

(** unknown names are rejected *)
Theorem C37_names s v : parse_dq s = Some v <-> (s = "dq35"%string /\ v = DQ35) \/ (s = "dq44"%string /\ v = DQ44).
Proof.
  unfold parse_dq. destruct (String.eqb_spec s "dq35") as [-> | H1].
  - split; [intros E; injection E as <-; auto | intros [[_ ->] | [H _]]; [auto | discriminate]].
  - destruct (String.eqb_spec s "dq44") as [-> | H2].
    + split; [intros E; injection E as <-; auto | intros [[H _] | [_ ->]]; [discriminate | auto]].
    + split; [discriminate | intros [[H _] | [H _]]; contradiction].
Qed.

(* ------------------------------------------------------------------------ cases *)

Definition no_lu : lu_solver RNum := fun _ _ => None.

(** a mixture with dipole, quadrupole and association: all seven contributions are evaluated *)
Lemma sample_counts : p_ndipole sample = 1%nat /\ p_nquadpole sample = 1%nat /\ p_nassoc sample = 1%nat.
Proof.
  destruct C17_case as (A & B & C).
  destruct (C17_index_sets _ _ _ sample_ok sample_physical) as (_ & _ & _ & D & E & F).
  rewrite D, E, F, A, B, C. auto.
Qed.

Example C19_case : map contribution_name (e_contributions (eos_new sample)) =
  ["Hard Sphere"; "Hard Chain"; "Dispersion"; "Dipole"; "Quadrupole"; "DipoleQuadrupole"; "Association"]%string.
Proof.
  destruct sample_counts as (A & B & C). unfold eos_new, with_options. rewrite A, B, C. reflexivity.
Qed.

Example C02_case : exists a,
  residual no_lu (eos_new sample) (state_new (K := RNum) 350 1000 [1; 2; 3]) = Some a /\
  residual no_lu (eos_new sample) (state_new (K := RNum) 350 (2.5 * 1000) (map (fun n => 2.5 * n) [1; 2; 3])) = Some (2.5 * a).
Proof.
  destruct sample_counts as (A & B & C).
  destruct (residual no_lu (eos_new sample) (state_new (K := RNum) 350 1000 [1; 2; 3])) as [a | ] eqn:E.
  - exists a. split; auto. unfold eos_new in *. rewrite C02_residual_extensive by lra. rewrite E. reflexivity.
  - exfalso. unfold eos_new in E. rewrite C19_residual_is_sum, C in E. discriminate.
Qed.

(** two different binary matrices for the sample mixture *)
Example C36_case : from_records sample_prs sample_bin = Some sample /\
  from_records sample_prs (zeros 3) = Some (from_records_raw sample_prs (zeros 3)) /\ sample_bin <> zeros 3.
Proof.
  split; [reflexivity | split; [reflexivity | ]]. intros E. injection E as E. lra.
Qed.

Definition pair_k1 : params RNum := from_records_raw [pr_dme; pr_co2] [[0; 1]; [1; 0]].
Example C36_cross_case : new_binary (K := RNum) pr_dme pr_co2 (Some 1) = Some pair_k1 /\ phys pair_k1 /\
  phys_state pair_k1 350 1000 [1; 2].
Proof.
  assert (phys pair_k1).
  { intros i Hi. cbn in Hi. destruct i as [ | [ | i]]; cbn; try lra; lia. }
  split; [reflexivity | split; auto]. apply phys_state_intro; try lra; auto.
  - intros i Hi. cbn in Hi. destruct i as [ | [ | i]]; cbn; try lra; lia.
  - exists 0%nat. cbn. split; [lia | lra].
  - cbn. lra.
Qed.

Print Assumptions C02_residual_extensive.
Print Assumptions C19_residual_is_sum.
Print Assumptions C36_residual.
Print Assumptions C36_cross_vanishes.
Print Assumptions C37_variants_coincide.
