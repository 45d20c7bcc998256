(** C03 (relabelling), C04 (absent components), C05 (identical pseudo-components): one family of
    theorems about regrouping components. *)
From Coq Require Import ZArith QArith Reals Lra Lia String List Bool Permutation.
From Interval Require Import Tactic.
From Verif Require Import Num RNum RSum Tables M_Params F_Params M_Eos Spec F_Spec F_SpecPolar
  F_SpecAssoc F_Contrib F_Lump F_Total F_Lump2 Samples P_Params P_Select.
Import ListNotations.
Local Open Scope R_scope.

(* ------------------------------------------------------------- number of associating species *)

Lemma filter_map {A B} (f : B -> bool) (g : A -> B) l : filter f (map g l) = map g (filter (fun x => f (g x)) l).
Proof. induction l as [ | a l IH]; simpl; auto. destruct (f (g a)); simpl; rewrite IH; auto. Qed.
Lemma filter_map_seq (l : list nat) (q : nat -> bool) :
  List.length (filter (fun i => q (nth i l 0%nat)) (seq 0 (List.length l))) = List.length (filter q l).
Proof.
  induction l as [ | a l IH]; [reflexivity | ]. cbn [List.length seq].
  rewrite <- seq_shift. cbn [filter]. rewrite filter_map. change (nth 0 (a :: l) 0%nat) with a.
  destruct (q a); cbn [List.length]; rewrite map_length; change (fun x => q (nth (S x) (a :: l) 0%nat)) with (fun x => q (nth x l 0%nat)); rewrite IH; auto.
Qed.

Section Counts.
  Variables (prs : list (pure_record RNum)) (bin : list (list R)).
  Variables (p p' : params RNum) (l : list nat).
  Hypothesis Hp' : from_records prs bin = Some p'.
  Hypothesis Hp : subset p' l = Some p.

  Let assoc i := @nonzero RNum (@ix RNum (p_kappa_ab p') i).

  Lemma nassoc_sub : p_nassoc p = List.length (filter assoc l).
  Proof.
    pose proof (subset_lumped _ _ _ _ _ Hp' Hp) as L.
    assert (W : wfp p) by (destruct (subset_from_records _ _ _ Hp) as (a & b & E); apply (wfp_from_records _ _ _ E)).
    rewrite (w_na _ W), (lu_ass _ _ _ L), <- (filter_map_seq l assoc). f_equal. apply filter_ext_in.
    intros i Hi. apply seq_in in Hi. unfold assoc. rewrite (lu_kab _ _ _ L) by auto. reflexivity.
  Qed.
  Lemma nassoc_full : p_nassoc p' = List.length (filter assoc (seq 0 (List.length (p_m p')))).
  Proof.
    pose proof (wfp_from_records _ _ _ Hp') as W'. rewrite (w_na _ W'), (w_ass _ W'). reflexivity.
  Qed.
  Lemma nassoc_perm : Permutation l (seq 0 (List.length (p_m p'))) -> p_nassoc p = p_nassoc p'.
  Proof.
    intros P. rewrite nassoc_sub, nassoc_full. apply Permutation_length.
    clear - P. induction P; simpl; auto.
    - destruct (assoc x); auto.
    - destruct (assoc x), (assoc y); auto. apply perm_swap.
    - eapply perm_trans; eauto.
  Qed.
  Lemma nassoc_nodup : NoDup l -> (p_nassoc p <= p_nassoc p')%nat.
  Proof.
    intros D. pose proof (subset_lumped _ _ _ _ _ Hp' Hp) as L.
    rewrite nassoc_sub, nassoc_full. apply NoDup_incl_length.
    - apply NoDup_filter; auto.
    - intros i Hi. apply filter_In in Hi. destruct Hi as [Hi Ha]. apply filter_In. split; auto.
      destruct (In_nth l i 0%nat Hi) as (k & Hk & E). apply seq_in. rewrite <- E. apply (lu_in _ _ _ L); auto.
  Qed.
End Counts.

(* -------------------------------------------------------------------- general regrouping *)

(** association contributions: anything that is not treated by CrossAssociation *)
Section Regroup.
  Variables (prs : list (pure_record RNum)) (bin : list (list R)).
  Variables (p p' : params RNum) (l : list nat).
  Hypothesis Hp' : from_records prs bin = Some p'.
  Hypothesis Hp : subset p' l = Some p.
  Hypothesis Hph' : phys p'.
  Variables (t v : R) (moles moles' : list R).
  Hypothesis Hreg : regrouped l (List.length (p_m p')) moles moles'.
  Hypothesis PS : phys_state p t v moles.
  Let s := @state_new RNum t v moles.
  Let s' := @state_new RNum t v moles'.

  Theorem regroup_contribution lu c :
    match c with CQuadrupole | CAssociation | CCrossAssociation _ _ => False | _ => True end ->
    eval_contribution lu p c s = eval_contribution lu p' c s'.
  Proof.
    intros Hc. destruct c; try contradiction; cbn [eval_contribution]; f_equal.
    - apply (lump_hs _ _ _ _ _ Hp' Hp Hph' t v moles moles' Hreg PS).
    - apply (lump_hc _ _ _ _ _ Hp' Hp Hph' t v moles moles' Hreg PS).
    - apply (lump_disp _ _ _ _ _ Hp' Hp t v moles moles' Hreg PS).
    - apply (lump_dipole _ _ _ _ _ Hp' Hp Hph' t v moles moles' Hreg PS).
    - apply (lump_dq _ _ _ _ _ Hp' Hp Hph' t v moles moles' Hreg PS).
  Qed.

  Theorem regroup_association : (p_nassoc p <= 1)%nat -> (p_nassoc p' <= 1)%nat ->
    forall lu o, assoc_term lu o p s = assoc_term lu o p' s'.
  Proof.
    intros H H' lu o. unfold assoc_term.
    destruct (p_nassoc p') as [ | [ | k']] eqn:E'; [ | | lia];
    destruct (p_nassoc p) as [ | [ | k]] eqn:E; try lia; auto.
    - exfalso. rewrite (nassoc_sub _ _ _ _ _ Hp' Hp) in E. rewrite (nassoc_full _ _ _ Hp') in E'.
      set (q := fun i => @nonzero RNum (@ix RNum (p_kappa_ab p') i)) in *.
      destruct (filter q l) as [ | a r] eqn:Ef; [discriminate | ].
      assert (Ha : In a (filter q l)) by (rewrite Ef; left; auto).
      apply filter_In in Ha. destruct Ha as [Ha Hq].
      assert (In a (filter q (seq 0 (List.length (p_m p'))))) as Hf.
      { apply filter_In. split; auto. apply seq_in. pose proof (subset_lumped _ _ _ _ _ Hp' Hp) as L.
        destruct (In_nth l a 0%nat Ha) as (i & Hi & Ei). rewrite <- Ei. apply (lu_in _ _ _ L); auto. }
      destruct (filter q (seq 0 _)); [destruct Hf | discriminate].
    - (* the only associating species is absent *)
      apply (f_equal (@Some R)). pose proof (wfp_from_records _ _ _ Hp') as W'. rewrite (w_na _ W') in E'.
      destruct (p_assoc_comp p') as [ | a' [ | ]] eqn:Ea'; try discriminate.
      assert (Z : nth a' moles' 0 = 0).
      { pose proof (assoc_lt p' W' a' Ea') as La'.
        destruct Hreg as (_ & _ & R3). rewrite R3 by auto. apply rsum_zero. intros i Hi. apply seq_in in Hi.
        destruct (Nat.eqb_spec (nth i l 0%nat) a') as [Ei | ]; auto. exfalso.
        assert (Hq : @nonzero RNum (@ix RNum (p_kappa_ab p') a') = true).
        { apply nonzero_R. apply (assoc_unique p' W' a' Ea' a' La'). auto. }
        rewrite (nassoc_sub _ _ _ _ _ Hp' Hp) in E.
        assert (Hin : In a' (filter (fun i => @nonzero RNum (@ix RNum (p_kappa_ab p') i)) l)).
        { apply filter_In. split; auto. rewrite <- Ei. apply nth_In; auto. }
        destruct (filter _ l); [destruct Hin | discriminate]. }
      unfold a_assoc. rewrite Ea'. change (ixn [a'] 0) with a'.
      change (@ix RNum (s_moles s') a') with (nth a' moles' 0). rewrite Z. cbv zeta.
      destruct (n0 <? ix (p_nb p') a')%num.
      + set (A := (_ + _)%num). rn. ring.
      + set (A := f_assoc _). rn. ring.
    - apply (f_equal (@Some R)). apply (lump_assoc _ _ _ _ _ Hp' Hp Hph' t v moles moles' Hreg PS); auto.
  Qed.

  Theorem regroup_residual lu o : (p_nassoc p <= 1)%nat -> (p_nassoc p' <= 1)%nat ->
    a_quadrupole p s = a_quadrupole p' s' ->
    residual lu (with_options p o) s = residual lu (with_options p' o) s'.
  Proof.
    intros H H' Hq. rewrite !residual_total. rewrite (regroup_association H H' lu o).
    destruct (assoc_term lu o p' s') as [b | ]; auto.
    pose proof (lump_hs _ _ _ _ _ Hp' Hp Hph' t v moles moles' Hreg PS) as E1.
    pose proof (lump_hc _ _ _ _ _ Hp' Hp Hph' t v moles moles' Hreg PS) as E2.
    pose proof (lump_disp _ _ _ _ _ Hp' Hp t v moles moles' Hreg PS) as E3.
    pose proof (lump_dipole _ _ _ _ _ Hp' Hp Hph' t v moles moles' Hreg PS) as E4.
    pose proof (lump_dq _ _ _ _ _ Hp' Hp Hph' t v moles moles' Hreg PS (o_dq o)) as E5.
    fold s s' in E1, E2, E3, E4, E5. rewrite E1, E2, E3, E4, E5, Hq. reflexivity.
  Qed.
End Regroup.

(** all quadrupolar components have the same diameter *)
Definition one_quadrupole_diameter (p : params RNum) : Prop :=
  forall i j, (i < List.length (p_m p))%nat -> (j < List.length (p_m p))%nat ->
    nth i (p_q2 p) 0 <> 0 -> nth j (p_q2 p) 0 <> 0 -> nth i (p_sigma p) 0 = nth j (p_sigma p) 0.

(* ----------------------------------------------------------------------------- C03 *)

Section C03.
  Variables (prs : list (pure_record RNum)) (bin : list (list R)).
  Variables (p p' : params RNum) (l : list nat).
  Hypothesis Hp : from_records prs bin = Some p.
  (** a reordering of the components: records, binary matrix (by [subset]) and moles *)
  Hypothesis Hl : Permutation l (seq 0 (List.length prs)).
  Hypothesis Hp' : subset p l = Some p'.
  Hypothesis Hph : phys p.
  Variables (t v : R) (moles : list R).
  Hypothesis PS : phys_state p t v moles.
  Let s := @state_new RNum t v moles.
  Let s' := @state_new RNum t v (pick moles l).

  Let n : List.length (p_m p) = List.length prs.
  Proof. rewrite (from_records_raw_of _ _ _ Hp). apply fr_len_m. Qed.
  Let D : NoDup l.
  Proof. apply (Permutation_NoDup (Permutation_sym Hl)). apply seq_NoDup. Qed.
  Let Z : forall j, (j < List.length (p_m p))%nat -> ~ In j l -> nth j moles 0 = 0.
  Proof.
    intros j Hj Hn. exfalso. apply Hn. apply (Permutation_in _ (Permutation_sym Hl)). apply seq_in. rewrite <- n. auto.
  Qed.
  Let Rg := pick_regrouped p l t v moles D Z PS.
  Let PS' := pick_phys_state prs bin p' p l Hp Hp' t v moles D Z PS.

  Theorem C03_contribution lu c :
    match c with CQuadrupole | CCrossAssociation _ _ => False | CAssociation => p_nassoc p = 1%nat | _ => True end ->
    eval_contribution lu p' c s' = eval_contribution lu p c s.
  Proof.
    intros Hc. destruct c as [ | | | | | | | it tol];
      try (apply (regroup_contribution _ _ _ _ _ Hp Hp' Hph t v _ _ Rg PS' lu); exact I); try contradiction.
    assert (E : p_nassoc p' = p_nassoc p).
    { apply (nassoc_perm _ _ _ _ _ Hp Hp'). rewrite n. auto. }
    cbn [eval_contribution]. f_equal.
    apply (lump_assoc _ _ _ _ _ Hp Hp' Hph t v _ _ Rg PS'); congruence.
  Qed.
  Theorem C03_quadrupole_partial : one_quadrupole_diameter p -> a_quadrupole p' s' = a_quadrupole p s.
  Proof.
    intros H. apply (lump_quadrupole _ _ _ _ _ Hp Hp' Hph t v _ _ Rg PS').
    intros i j Hi Hj. apply H; auto.
  Qed.
  (** at most one associating component; see P_Cross for several *)
  Theorem C03_residual_self_partial lu o : one_quadrupole_diameter p -> (p_nassoc p <= 1)%nat ->
    residual lu (with_options p' o) s' = residual lu (with_options p o) s.
  Proof.
    intros H Hn. apply (regroup_residual _ _ _ _ _ Hp Hp' Hph t v _ _ Rg PS'); auto.
    - rewrite (nassoc_perm _ _ _ _ _ Hp Hp'); auto. rewrite n. auto.
    - apply C03_quadrupole_partial; auto.
  Qed.
End C03.

(* ----------------------------------------------------------------------------- C04 *)

Section C04.
  Variables (prs : list (pure_record RNum)) (bin : list (list R)).
  Variables (p p' : params RNum) (l : list nat).
  Hypothesis Hp : from_records prs bin = Some p.
  Hypothesis Hp' : subset p l = Some p'.
  Hypothesis Hph : phys p.
  Variables (t v : R) (moles : list R).
  (** the subset lists each component once and contains all components that are present *)
  Hypothesis D : NoDup l.
  Hypothesis Z : forall j, (j < List.length prs)%nat -> ~ In j l -> nth j moles 0 = 0.
  Hypothesis PS : phys_state p t v moles.
  Let s := @state_new RNum t v moles.
  Let s' := @state_new RNum t v (pick moles l).

  Let n : List.length (p_m p) = List.length prs.
  Proof. rewrite (from_records_raw_of _ _ _ Hp). apply fr_len_m. Qed.
  Let Z' : forall j, (j < List.length (p_m p))%nat -> ~ In j l -> nth j moles 0 = 0.
  Proof. rewrite n. exact Z. Qed.
  Let Rg := pick_regrouped p l t v moles D Z' PS.
  Let PS' := pick_phys_state prs bin p' p l Hp Hp' t v moles D Z' PS.

  Theorem C04_contribution lu c :
    match c with CQuadrupole | CAssociation | CCrossAssociation _ _ => False | _ => True end ->
    eval_contribution lu p' c s' = eval_contribution lu p c s.
  Proof. apply (regroup_contribution _ _ _ _ _ Hp Hp' Hph t v _ _ Rg PS'). Qed.

  (** dropping components keeps the order: no restriction on the quadrupole contribution *)
  Theorem C04_quadrupole : (forall i j, (i <= j < List.length l)%nat -> (nth i l 0 <= nth j l 0)%nat) ->
    a_quadrupole p' s' = a_quadrupole p s.
  Proof. intros H. apply (lump_quadrupole_mono _ _ _ _ _ Hp Hp' Hph t v _ _ Rg PS'); auto. Qed.

  (** at most one associating component; see P_Cross for several *)
  Theorem C04_residual_self_partial lu o : (forall i j, (i <= j < List.length l)%nat -> (nth i l 0 <= nth j l 0)%nat) ->
    (p_nassoc p <= 1)%nat ->
    residual lu (with_options p' o) s' = residual lu (with_options p o) s.
  Proof.
    intros H Hn. apply (regroup_residual _ _ _ _ _ Hp Hp' Hph t v _ _ Rg PS'); auto.
    - pose proof (nassoc_nodup _ _ _ _ _ Hp Hp' D). lia.
    - apply C04_quadrupole; auto.
  Qed.
End C04.

(* ----------------------------------------------------------------------------- C05 *)

Section C05.
  Variables (prs : list (pure_record RNum)) (bin : list (list R)).
  Variables (p p' : params RNum) (l : list nat).
  Hypothesis Hp : from_records prs bin = Some p.
  (** [p'] lists copies of the components of [p], each any number of times, in any order;
      copies share the binary parameters of the original (the diagonal entry between copies) *)
  Hypothesis Hp' : subset p l = Some p'.
  Hypothesis Hph : phys p.
  Variables (t v : R) (moles : list R).
  (** the mixture of copies; the original mixture has the summed amounts *)
  Hypothesis PS : phys_state p' t v moles.
  Let s' := @state_new RNum t v moles.
  Let s := @state_new RNum t v (merge l (List.length prs) moles).

  Let n : List.length (p_m p) = List.length prs.
  Proof. rewrite (from_records_raw_of _ _ _ Hp). apply fr_len_m. Qed.
  Let Rg : regrouped l (List.length (p_m p)) moles (merge l (List.length prs) moles).
  Proof.
    rewrite n. apply regrouped_merge. rewrite (ps_len _ _ _ _ PS).
    apply (lu_n _ _ _ (subset_lumped _ _ _ _ _ Hp Hp')).
  Qed.

  Theorem C05_contribution lu c :
    match c with CQuadrupole | CAssociation | CCrossAssociation _ _ => False | _ => True end ->
    eval_contribution lu p' c s' = eval_contribution lu p c s.
  Proof. apply (regroup_contribution _ _ _ _ _ Hp Hp' Hph t v _ _ Rg PS). Qed.

  Theorem C05_quadrupole :
    (forall i j, (i <= j < List.length l)%nat -> (nth i l 0 <= nth j l 0)%nat) \/ one_quadrupole_diameter p ->
    a_quadrupole p' s' = a_quadrupole p s.
  Proof.
    intros [H | H].
    - apply (lump_quadrupole_mono _ _ _ _ _ Hp Hp' Hph t v _ _ Rg PS); auto.
    - apply (lump_quadrupole _ _ _ _ _ Hp Hp' Hph t v _ _ Rg PS). intros i j Hi Hj. apply H; auto.
  Qed.

  (** at most one associating component; see P_Cross for several *)
  Theorem C05_residual_self_partial lu o :
    (forall i j, (i <= j < List.length l)%nat -> (nth i l 0 <= nth j l 0)%nat) \/ one_quadrupole_diameter p ->
    (p_nassoc p' <= 1)%nat -> (p_nassoc p <= 1)%nat ->
    residual lu (with_options p' o) s' = residual lu (with_options p o) s.
  Proof.
    intros H Hn' Hn. apply (regroup_residual _ _ _ _ _ Hp Hp' Hph t v _ _ Rg PS); auto.
    apply C05_quadrupole; auto.
  Qed.
End C05.

(* --------------------------------------------------------- the quadrupole term depends on the order *)

(** two quadrupolar species that differ in diameter only *)
Definition pr_q (sigma : R) : pure_record RNum :=
  @mkPure RNum (named "quadrupolar") 28 (@mkRec RNum 1 sigma 100
    None (Some 4) None None None None None None None) None.
Definition q_pair : params RNum := from_records_raw [pr_q 3; pr_q 4] (zeros 2).
Definition q_pair' : params RNum := from_records_raw [pr_q 4; pr_q 3] (zeros 2).

Lemma q_pair_ok : from_records [pr_q 3; pr_q 4] (zeros 2) = Some q_pair.
Proof. reflexivity. Qed.
Lemma q_pair_ok' : from_records [pr_q 4; pr_q 3] (zeros 2) = Some q_pair'.
Proof. reflexivity. Qed.
Lemma q_pair_swapped : subset q_pair [1; 0]%nat = Some q_pair'.
Proof. reflexivity. Qed.
Lemma q_pair_phys : phys q_pair.
Proof. intros i Hi. cbn in Hi. destruct i as [ | [ | i]]; cbn; try lra; lia. Qed.
Lemma q_pair_phys' : phys q_pair'.
Proof. intros i Hi. cbn in Hi. destruct i as [ | [ | i]]; cbn; try lra; lia. Qed.
Lemma q_pair_state : phys_state q_pair 300 200 [1; 1].
Proof.
  apply phys_state_intro; try lra; auto using q_pair_phys.
  - intros i Hi. cbn in Hi. destruct i as [ | [ | i]]; cbn; try lra; lia.
  - exists 0%nat. cbn. split; [lia | lra].
  - cbn. lra.
Qed.
Lemma q_pair_state' : phys_state q_pair' 300 200 [1; 1].
Proof.
  apply phys_state_intro; try lra; auto using q_pair_phys'.
  - intros i Hi. cbn in Hi. destruct i as [ | [ | i]]; cbn; try lra; lia.
  - exists 0%nat. cbn. split; [lia | lra].
  - cbn. lra.
Qed.

(** the Pade approximant is injective in its first argument on negative arguments *)
Lemma pade2_inj a b c : a < 0 -> b < 0 -> 0 <= c -> pade2 a c = pade2 b c -> a = b.
Proof.
  intros Ha Hb Hc. unfold pade2. intros H.
  assert (a - c <> 0) by lra. assert (b - c <> 0) by lra.
  assert (E : a ^ 2 * (b - c) = b ^ 2 * (a - c)).
  { apply (Rmult_eq_compat_r ((a - c) * (b - c))) in H. field_simplify in H; lra. }
  assert (F : (a - b) * (a * b - c * (a + b)) = 0) by nra.
  apply Rmult_integral in F. destruct F; [lra | nra].
Qed.

Definition Jq (e : R) : R := Sum l < 5, (lit2 AQ l 0 + lit2 BQ l 0 / 3) * e ^ l.
Definition Jq3 (e : R) : R := Sum l < 4, lit2 CQ l 0 * e ^ l.
Section Swap.
  (** either of the two orderings *)
  Variables (a b : R).
  Hypothesis Hab : (a = 3 /\ b = 4) \/ (a = 4 /\ b = 3).
  Let p := from_records_raw [pr_q a; pr_q b] (zeros 2).
  Let X := mix_of p.
  Let rho i := nth i [1; 1] 0 / 200.
  Let eta := Eta X 300 rho.
  Let c := @e_m19 RNum * @kb_conv RNum.

  Lemma sw_c : 0 < c.
  Proof. unfold c, e_m19, kb_conv. rn. lits. lra. Qed.
  Lemma sw_m i : (i < 2)%nat -> M X i = 1.
  Proof. destruct i as [ | [ | i]]; [reflexivity | reflexivity | lia]. Qed.
  Lemma sw_e i : (i < 2)%nat -> Ep X i = 100.
  Proof. destruct i as [ | [ | i]]; [reflexivity | reflexivity | lia]. Qed.
  Lemma sw_s i : (i < 2)%nat -> Sg X i = if Nat.eqb i 0 then a else b.
  Proof. destruct i as [ | [ | i]]; [reflexivity | reflexivity | lia]. Qed.
  Lemma sw_pos i : (i < 2)%nat -> 0 < Sg X i.
  Proof. intros. rewrite sw_s by auto. destruct (Nat.eqb i 0); lra. Qed.
  Lemma sw_q i : (i < 2)%nat -> Qu2 X i * Sg X i ^ 5 = 16 / 100 * c.
  Proof.
    intros Hi. pose proof (sw_pos i Hi) as Hs. rewrite sw_s in *; auto.
    destruct i as [ | [ | i]]; [ | | lia]; cbn [Nat.eqb] in *; unfold c, X; mx; unfold ix; cbn [p_q2 p from_records_raw nth mk1 map seq List.length];
      unfold q2_of; generalize (@e_m19 RNum) (@kb_conv RNum); rn; intros;
      cbn [ix nth unwrap_or r_q r_m r_sigma r_epsilon_k pr_model pr_q]; field; lra.
  Qed.
  Lemma sw_eta : 0.2 <= eta <= 0.22.
  Proof.
    unfold eta, Eta, Zeta. change (N X) with 2%nat. cbn [rsum seq]. rewrite !sw_m by lia.
    unfold Di. rewrite !sw_s, !sw_e by lia. cbn [Nat.eqb]. unfold rho; cbn [nth].
    destruct Hab as [[-> ->] | [-> ->]]; split; interval.
  Qed.
  Lemma sw_J i j : (i < 2)%nat -> (j < 2)%nat ->
    J2 X 300 rho AQ BQ i j = Jq eta.
  Proof.
    intros Hi Hj. unfold J2, Jq. change (length AQ) with 5%nat. apply Sum_ext; intros l Hl.
    unfold m2, mp, Eij0. rewrite !sw_m, !sw_e by auto. rewrite Rmin_left by lra.
    rewrite !sqrt_square by lra. unfold cm, q1, q12. fold eta. field.
  Qed.
  Lemma sw_J3 i j k : (i < 2)%nat -> (j < 2)%nat -> (k < 2)%nat ->
    J3 X 300 rho CQ i j k = Jq3 eta.
  Proof.
    intros Hi Hj Hk. unfold J3, Jq3. change (length CQ) with 4%nat. apply Sum_ext; intros l Hl.
    unfold m3, mp. rewrite !sw_m by auto. rewrite Rmin_left by lra.
    rewrite Rcbrt_of_cube by lra. unfold cm, q1, q12. fold eta. field.
  Qed.
  Lemma sw_Jpos : 0 < Jq eta.
  Proof.
    destruct sw_eta. unfold Jq. cbn [rsum seq]. unfold lit2, AQ, BQ. cbn [nth Rlit Qnum Qden].
    generalize dependent eta. intros e H1 H2. interval.
  Qed.
  Lemma sw_J3pos : 0 < Jq3 eta.
  Proof.
    destruct sw_eta. unfold Jq3. cbn [rsum seq]. unfold lit2, CQ. cbn [nth Rlit Qnum Qden].
    generalize dependent eta. intros e H1 H2. interval.
  Qed.
  Let w := 16 / 300 * c.
  Lemma sw_qq2 : qq2_code X 300 rho =
    - PI * (9 / 16) / 40000 * w ^ 2 * Jq eta
    * (3 / a ^ 7 + 1 / b ^ 7).
  Proof.
    unfold qq2_code. change (N X) with 2%nat.
    rewrite (Sum_ext _ _ (fun i => Sum j < 2, w ^ 2 / 40000 * Jq eta / Sg X (Nat.min i j) ^ 7)).
    - cbn [rsum seq Nat.min]. rewrite !sw_s by lia. cbn [Nat.eqb].
      set (J := Jq eta). field. destruct Hab as [[-> ->] | [-> ->]]; lra.
    - intros i Hi. apply Sum_ext; intros j Hj. rewrite sw_J by auto.
      assert (Er : forall k, (k < 2)%nat -> rho k = / 200).
      { intros k Hk. unfold rho. destruct k as [ | [ | k]]; [ | | lia]; cbn; lra. }
      rewrite !Er by auto. set (J := Jq eta). set (s7 := Sg X (Nat.min i j) ^ 7).
      unfold Wi. rewrite !sw_e by auto. unfold w.
      replace (/ 200 * / 200 * (100 / 300 * Sg X i ^ 5) * (100 / 300 * Sg X j ^ 5) / s7 * Qu2 X i * Qu2 X j * J)
        with (/ 360000 * (Qu2 X i * Sg X i ^ 5) * (Qu2 X j * Sg X j ^ 5) * J / s7) by (unfold Rdiv; generalize (/ s7); intros; field).
      rewrite !sw_q by auto. unfold Rdiv. generalize (/ s7). intros. field.
  Qed.
  Lemma sw_qq3 : 0 <= qq3 X 300 rho.
  Proof.
    unfold qq3. change (N X) with 2%nat. pose proof PI_RGT_0. apply Rmult_le_pos.
    - apply Rmult_le_pos; [ | lra]. assert (0 <= PI ^ 2) by (apply pow2_ge_0). lra.
    - apply rsum_nonneg; intros i Hi; apply rsum_nonneg; intros j Hj; apply rsum_nonneg; intros k Hk.
      apply seq_in in Hi, Hj, Hk. rewrite sw_J3 by auto. pose proof sw_J3pos.
      set (J := Jq3 eta) in *. unfold Wi. rewrite !sw_e by auto.
      assert (Er : forall k, (k < 2)%nat -> rho k = / 200).
      { intros x Hx. unfold rho. destruct x as [ | [ | x]]; [ | | lia]; cbn; lra. }
      rewrite !Er by auto.
      set (s9 := (Sij X i j * Sij X i k * Sij X j k) ^ 3).
      assert (0 < s9).
      { pose proof (sw_pos i Hi). pose proof (sw_pos j Hj). pose proof (sw_pos k Hk). unfold s9, Sij.
        apply pow_lt. apply Rmult_lt_0_compat; [apply Rmult_lt_0_compat | ]; lra. }
      replace (/ 200 * / 200 * / 200 * (100 / 300 * Sg X i ^ 5) * (100 / 300 * Sg X j ^ 5) * (100 / 300 * Sg X k ^ 5)
        / s9 * Qu2 X i * Qu2 X j * Qu2 X k * J)
        with (/ 216000000 * (Qu2 X i * Sg X i ^ 5) * (Qu2 X j * Sg X j ^ 5) * (Qu2 X k * Sg X k ^ 5) * J / s9) by (field; lra).
      rewrite !sw_q by auto. pose proof sw_c as Hc. change (0 < c) in Hc.
      apply Rmult_le_pos; [ | left; apply Rinv_0_lt_compat; auto].
      apply Rmult_le_pos; [ | lra]. assert (Hu : 0 <= 16 / 100 * c) by (clearbody c; lra).
      set (u := 16 / 100 * c) in *. clearbody u. repeat apply Rmult_le_pos; lra.
  Qed.
End Swap.

(** the order in which two quadrupolar components are listed changes the quadrupole contribution *)
Theorem C03_quadrupole_refuted :
  exists prs bin p l p' t v moles,
    from_records prs bin = Some p /\ Permutation l (seq 0 (List.length prs)) /\ subset p l = Some p' /\
    phys p /\ phys_state p t v moles /\
    a_quadrupole p' (@state_new RNum t v (pick moles l)) <> a_quadrupole p (@state_new RNum t v moles).
Proof.
  exists [pr_q 3; pr_q 4], (zeros 2), q_pair, [1; 0]%nat, q_pair', 300, 200, [1; 1].
  split; [exact q_pair_ok | ]. split; [apply perm_swap | ]. split; [exact q_pair_swapped | ].
  split; [exact q_pair_phys | ]. split; [exact q_pair_state | ].
  change (pick [1; 1] [1; 0]%nat) with [1; 1].
  rewrite (quadrupole_code q_pair (wfp_from_records _ _ _ q_pair_ok) q_pair_phys 300 200 _ q_pair_state).
  rewrite (quadrupole_code q_pair' (wfp_from_records _ _ _ q_pair_ok') q_pair_phys' 300 200 _ q_pair_state').
  set (rho := fun i => nth i [1; 1] 0 / 200).
  assert (Rg : regrouped [1; 0]%nat 2 [1; 1] [1; 1]).
  { split; [reflexivity | split; [reflexivity | ]]. intros j Hj. destruct j as [ | [ | j]]; cbn; lra || lia. }
  pose proof (L_phi _ _ _ _ _ q_pair_ok q_pair_swapped) as Lphi.
  pose proof (L_rho _ _ _ _ _ q_pair_ok q_pair_swapped 200 _ _ Rg) as Lrho.
  pose proof (L_m _ _ _ _ _ q_pair_ok q_pair_swapped) as Lm. pose proof (L_s _ _ _ _ _ q_pair_ok q_pair_swapped) as Ls.
  pose proof (L_e _ _ _ _ _ q_pair_ok q_pair_swapped) as Le. pose proof (L_q _ _ _ _ _ q_pair_ok q_pair_swapped) as Lq.
  assert (E3 : qq3 (mix_of q_pair') 300 rho = qq3 (mix_of q_pair) 300 rho).
  { apply (qq3_lump _ _ 300 (fun i => nth i [1; 0]%nat 0%nat) _ _ Lphi Lrho Lm Ls Le Lq). }
  assert (Ee : Eta (mix_of q_pair') 300 rho = Eta (mix_of q_pair) 300 rho).
  { apply (Eta_lump _ _ 300 (fun i => nth i [1; 0]%nat 0%nat) _ _ Lphi Lrho Lm Ls Le). }
  rewrite E3.
  pose proof (sw_qq2 3 4 (or_introl (conj eq_refl eq_refl))) as A.
  pose proof (sw_qq2 4 3 (or_intror (conj eq_refl eq_refl))) as B.
  pose proof (sw_qq3 3 4 (or_introl (conj eq_refl eq_refl))) as C.
  pose proof (sw_Jpos 3 4 (or_introl (conj eq_refl eq_refl))) as J. pose proof sw_c as Hc.
  cbv zeta in A, B, C, J.
  change (mix_of (from_records_raw [pr_q 3; pr_q 4] (zeros 2))) with (mix_of q_pair) in *.
  change (mix_of (from_records_raw [pr_q 4; pr_q 3] (zeros 2))) with (mix_of q_pair') in *.
  fold rho in A, B, C, J. rewrite Ee in B.
  set (Q := Jq _) in *. set (w := 16 / 300 * _) in *.
  assert (Hw : 0 < w ^ 2) by (apply pow_lt; unfold w; lra).
  set (K := PI * (9 / 16) / 40000 * w ^ 2 * Q).
  assert (HK : 0 < K).
  { unfold K. apply Rmult_lt_0_compat; auto. apply Rmult_lt_0_compat; auto. pose proof PI_RGT_0. lra. }
  replace (- PI * (9 / 16) / 40000 * w ^ 2 * Q) with (- K) in A by (unfold K; field).
  replace (- PI * (9 / 16) / 40000 * w ^ 2 * Q) with (- K) in B by (unfold K; field).
  intros H. apply Rmult_eq_reg_l in H; [ | lra].
  apply pade2_inj in H; auto.
  - rewrite A, B in H. nra.
  - rewrite B. nra.
  - rewrite A. nra.
Qed.

(* ----------------------------------------------------------------------------- cases *)

Lemma sample_one_quadrupole : one_quadrupole_diameter sample.
Proof.
  assert (H : forall i, (i < 3)%nat -> nth i (p_q2 sample) 0 <> 0 -> i = 1%nat).
  { destruct C17_case as (_ & B & _). pose proof (wfp_from_records _ _ _ sample_ok) as W.
    intros i Hi Hq. assert (In i (p_quadpole_comp sample)) as I.
    { rewrite (w_quad _ W). apply filter_In. split; [apply seq_in; exact Hi | ]. apply nonzero_R. exact Hq. }
    rewrite B in I. destruct I as [<- | []]. auto. }
  intros i j Hi Hj Qi Qj. rewrite (H i Hi Qi), (H j Hj Qj). reflexivity.
Qed.

Example C03_case : exists q a, subset sample [2; 0; 1]%nat = Some q /\
  residual no_lu (eos_new q) (@state_new RNum 350 1000 [3; 1; 2]) = Some a /\
  residual no_lu (eos_new sample) (@state_new RNum 350 1000 [1; 2; 3]) = Some a.
Proof.
  destruct (subset sample [2; 0; 1]%nat) as [q | ] eqn:E; [ | discriminate E].
  destruct C02_case as (a & Ha & _). exists q, a. split; auto. split; auto.
  rewrite <- Ha. change [3; 1; 2] with (pick [1; 2; 3] [2; 0; 1]%nat). unfold eos_new.
  apply (C03_residual_self_partial sample_prs sample_bin sample q [2; 0; 1]%nat sample_ok).
  - apply (perm_trans (perm_swap 0%nat 2%nat [1]%nat)). apply perm_skip. apply perm_swap.
  - exact E.
  - exact sample_phys.
  - exact sample_state.
  - exact sample_one_quadrupole.
  - destruct sample_counts as (_ & _ & ->). auto.
Qed.

Lemma sample_state_0 : phys_state sample 350 1000 [1; 0; 3].
Proof.
  apply phys_state_intro; try lra; auto using sample_phys.
  - intros i Hi. cbn in Hi. destruct i as [ | [ | [ | i]]]; cbn; try lra; lia.
  - exists 0%nat. cbn. split; [lia | lra].
  - cbn. lra.
Qed.
Example C04_case : exists q, subset sample [0; 2]%nat = Some q /\
  residual no_lu (eos_new q) (@state_new RNum 350 1000 [1; 3])
  = residual no_lu (eos_new sample) (@state_new RNum 350 1000 [1; 0; 3]).
Proof.
  destruct (subset sample [0; 2]%nat) as [q | ] eqn:E; [ | discriminate E].
  exists q. split; auto. change [1; 3] with (pick [1; 0; 3] [0; 2]%nat). unfold eos_new.
  apply (C04_residual_self_partial sample_prs sample_bin sample q [0; 2]%nat sample_ok E sample_phys 350 1000 [1; 0; 3]).
  - repeat constructor; cbn; intuition discriminate.
  - intros j Hj. cbn in Hj. destruct j as [ | [ | [ | j]]]; cbn; try lia; tauto.
  - exact sample_state_0.
  - intros [ | [ | i]] [ | [ | j]]; cbn; lia.
  - destruct sample_counts as (_ & _ & ->). auto.
Qed.

(** water is listed once (associating), the other two components twice *)
Example C05_case : exists q, subset sample [0; 0; 1; 1; 2]%nat = Some q /\
  phys_state q 350 1000 [0.25; 0.75; 1.5; 0.5; 3] /\
  residual no_lu (eos_new q) (@state_new RNum 350 1000 [0.25; 0.75; 1.5; 0.5; 3])
  = residual no_lu (eos_new sample) (@state_new RNum 350 1000 (merge [0; 0; 1; 1; 2]%nat 3 [0.25; 0.75; 1.5; 0.5; 3])).
Proof.
  destruct (subset sample [0; 0; 1; 1; 2]%nat) as [q | ] eqn:E; [ | discriminate E].
  exists q. split; auto.
  pose proof (subset_lumped _ _ _ _ _ sample_ok E) as L.
  assert (PS : phys_state q 350 1000 [0.25; 0.75; 1.5; 0.5; 3]).
  { apply phys_state_intro; try lra.
    - apply (subset_phys _ _ _ _ _ sample_ok E sample_phys).
    - rewrite (lu_n _ _ _ L). reflexivity.
    - rewrite (lu_n _ _ _ L). intros i Hi. cbn in Hi. destruct i as [ | [ | [ | [ | [ | i]]]]]; cbn; try lra; lia.
    - exists 0%nat. rewrite (lu_n _ _ _ L). cbn. split; [lia | lra].
    - rewrite (lu_n _ _ _ L). cbn [List.length rsum seq nth].
      rewrite !(lu_m _ _ _ L), !(lu_sigma _ _ _ L) by (cbn; lia). cbn. lra. }
  split; auto.
  assert (N1 : p_nassoc q = 1%nat).
  { rewrite (nassoc_sub _ _ _ _ _ sample_ok E). destruct C17_case as (_ & _ & C).
    rewrite (w_ass _ (wfp_from_records _ _ _ sample_ok)) in C.
    assert (H : forall i, (i < 3)%nat -> @nonzero RNum (@ix RNum (p_kappa_ab sample) i) = Nat.eqb i 2).
    { intros i Hi. assert (Q : In i (filter (fun i => @nonzero RNum (@ix RNum (p_kappa_ab sample) i)) (seq 0 (List.length (p_m sample)))) <-> i = 2%nat)
        by (rewrite C; cbn; intuition).
      rewrite filter_In in Q. destruct (Nat.eqb_spec i 2) as [Ei | Ei].
      - apply Q; auto.
      - apply not_true_iff_false. intros B. apply Ei, Q. split; auto. apply seq_in. exact Hi. }
    cbn [filter]. rewrite !H by lia. reflexivity. }
  unfold eos_new. apply (C05_residual_self_partial sample_prs sample_bin sample q _ sample_ok E sample_phys 350 1000 _ PS).
  - right. exact sample_one_quadrupole.
  - rewrite N1. auto.
  - destruct sample_counts as (_ & _ & ->). auto.
Qed.

Print Assumptions C03_residual_self_partial.
Print Assumptions C03_quadrupole_refuted.
Print Assumptions C04_residual_self_partial.
Print Assumptions C05_residual_self_partial.
