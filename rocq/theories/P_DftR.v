(** C09, C10, C37: where the functional and the equation of state disagree, and concrete cases
    meeting the hypotheses of P_Dft. *)
From Coq Require Import ZArith QArith Reals Lra Lia String List Bool Psatz.
From Interval Require Import Tactic.
From Verif Require Import Num RNum RSum Tables M_Params F_Params M_Eos M_Dft Spec F_Spec F_SpecPolar
  F_SpecAssoc F_Contrib Samples F_Total P_Params P_Select P_Lump P_Fmt F_Dft F_Dft2 P_Dft.
Import ListNotations.
Local Open Scope R_scope.

Lemma count_none prs l q : index_set prs l q -> (forall pr, In pr prs -> ~ q (pr_model pr)) -> List.length l = 0%nat.
Proof.
  intros (_ & _ & H) Hn. destruct l as [ | a l]; auto. exfalso.
  destruct (proj1 (H a) (or_introl eq_refl)) as (pr & E & Q). apply (Hn pr); auto. eapply nth_error_In; eauto.
Qed.
Lemma count_some prs l q : index_set prs l q -> (exists pr, In pr prs /\ q (pr_model pr)) -> (0 < List.length l)%nat.
Proof.
  intros (_ & _ & H) (pr & I & Q). apply In_nth_error in I. destruct I as (i & E).
  assert (In i l) by (apply H; eauto). destruct l; [contradiction | cbn; lia].
Qed.

Section Counts.
  Variables (prs : list (pure_record RNum)) (bin : list (list R)) (p : params RNum).
  Hypothesis Hp : from_records prs bin = Some p.
  Hypothesis Hph : forall pr, In pr prs -> physical_record (pr_model pr).
  Lemma no_association : (forall pr, In pr prs -> r_kappa_ab (pr_model pr) = None) -> p_nassoc p = 0%nat.
  Proof.
    intros H. destruct (C17_index_sets _ _ _ Hp Hph) as (_ & _ & A & _ & _ & ->).
    apply (count_none _ _ _ A). intros pr I Q. rewrite (H pr I) in Q. apply Q. reflexivity.
  Qed.
  Lemma no_dipole : (forall pr, In pr prs -> r_mu (pr_model pr) = None) -> p_ndipole p = 0%nat.
  Proof.
    intros H. destruct (C17_index_sets _ _ _ Hp Hph) as (A & _ & _ & -> & _).
    apply (count_none _ _ _ A). intros pr I Q. rewrite (H pr I) in Q. apply Q. reflexivity.
  Qed.
  Lemma no_quadrupole : (forall pr, In pr prs -> r_q (pr_model pr) = None) -> p_nquadpole p = 0%nat.
  Proof.
    intros H. destruct (C17_index_sets _ _ _ Hp Hph) as (_ & A & _ & _ & -> & _).
    apply (count_none _ _ _ A). intros pr I Q. rewrite (H pr I) in Q. apply Q. reflexivity.
  Qed.
  Lemma some_dipole pr mu : In pr prs -> r_mu (pr_model pr) = Some mu -> mu <> 0 -> (0 < p_ndipole p)%nat.
  Proof.
    intros I E H. destruct (C17_index_sets _ _ _ Hp Hph) as (A & _ & _ & -> & _).
    apply (count_some _ _ _ A). exists pr. split; auto. rewrite E. exact H.
  Qed.
  Lemma some_quadrupole pr q : In pr prs -> r_q (pr_model pr) = Some q -> q <> 0 -> (0 < p_nquadpole p)%nat.
  Proof.
    intros I E H. destruct (C17_index_sets _ _ _ Hp Hph) as (_ & A & _ & _ & -> & _).
    apply (count_some _ _ _ A). exists pr. split; auto. rewrite E. exact H.
  Qed.
  (** without association the equation of state returns a value *)
  Lemma residual_value lu o s : p_nassoc p = 0%nat -> exists a, residual lu (with_options p o) s = Some a.
  Proof. intros H. rewrite residual_total. unfold assoc_term. rewrite H. eauto. Qed.
End Counts.

(* --------------------------------------------------------- two quadrupolar species *)

Section Swap2.
  Variables (a b : R).
  Hypothesis Hab : (a = 3 /\ b = 4) \/ (a = 4 /\ b = 3).
  Let p := from_records_raw [pr_q a; pr_q b] (zeros 2).
  Let X := mix_of p.
  Let rho i := nth i [1; 1] 0 / 200.
  Let eta := Eta X 300 rho.
  Let c := @e_m19 RNum * @kb_conv RNum.
  Let w := 16 / 300 * c.
  Lemma sw_qq2_dft : qq2_dft X 300 rho =
    - PI * (9 / 16) / 40000 * w ^ 2 * Jq eta * (1 / a ^ 7 + 1 / b ^ 7 + 1 / ((a + b) / 2) ^ 7).
  Proof.
    unfold qq2_dft. change (N X) with 2%nat.
    rewrite (Sum_ext _ _ (fun i => Sum j < 2, (if Nat.eqb i j then 1 else 1 / 2) * (w ^ 2 / 40000 * Jq eta / Sij X i j ^ 7))).
    - cbn [rsum seq Nat.eqb]. unfold Sij. unfold X, p. rewrite !(sw_s a b) by lia. cbn [Nat.eqb].
      set (J := Jq eta). field. destruct Hab as [[-> ->] | [-> ->]]; lra.
    - intros i Hi. apply Sum_ext; intros j Hj. f_equal.
      pose proof (sw_J a b i j Hi Hj) as EJ. cbv zeta in EJ. fold p X rho in EJ. rewrite EJ. fold eta.
      assert (Er : forall k, (k < 2)%nat -> rho k = / 200).
      { intros k Hk. unfold rho. destruct k as [ | [ | k]]; [ | | lia]; cbn; lra. }
      rewrite !Er by auto. set (J := Jq eta). set (s7 := Sij X i j ^ 7).
      pose proof (sw_q a b Hab i Hi) as Qi. pose proof (sw_q a b Hab j Hj) as Qj. cbv zeta in Qi, Qj.
      fold p X c in Qi, Qj.
      unfold Wi. unfold X at 1 2. unfold p. rewrite !(sw_e a b) by auto. fold p X. unfold w.
      replace (/ 200 * / 200 * (100 / 300 * Sg X i ^ 5) * (100 / 300 * Sg X j ^ 5) / s7 * Qu2 X i * Qu2 X j * J)
        with (/ 360000 * (Qu2 X i * Sg X i ^ 5) * (Qu2 X j * Sg X j ^ 5) * J / s7) by (unfold Rdiv; generalize (/ s7); intros; field).
      rewrite Qi, Qj. unfold Rdiv. generalize (/ s7). intros. field.
  Qed.
End Swap2.

Lemma q_pair_physical : forall pr, In pr [pr_q 3; pr_q 4] -> physical_record (pr_model pr).
Proof. intros pr [<- | [<- | []]]; unfold physical_record; simpl; lra. Qed.

Lemma q_pair_gap : quadrupole_gap q_pair 300 200 [1; 1] <> 0.
Proof.
  unfold quadrupole_gap.
  assert (0 < p_nquadpole q_pair)%nat.
  { apply (some_quadrupole _ _ _ q_pair_ok q_pair_physical (pr_q 3) 4); [left; auto | reflexivity | lra]. }
  replace (Nat.ltb 0 (p_nquadpole q_pair)) with true by (symmetry; apply Nat.ltb_lt; auto).
  set (rho := fun i => nth i [1; 1] 0 / 200).
  pose proof (sw_qq2 3 4 (or_introl (conj eq_refl eq_refl))) as A.
  pose proof (sw_qq2_dft 3 4 (or_introl (conj eq_refl eq_refl))) as B.
  pose proof (sw_qq3 3 4 (or_introl (conj eq_refl eq_refl))) as C.
  pose proof (sw_Jpos 3 4 (or_introl (conj eq_refl eq_refl))) as J. pose proof sw_c as Hc.
  cbv zeta in A, B, C, J.
  change (mix_of (from_records_raw [pr_q 3; pr_q 4] (zeros 2))) with (mix_of q_pair) in *.
  fold rho in A, B, C, J.
  set (Q := Jq _) in *. set (w := 16 / 300 * _) in *.
  assert (Hw : 0 < w ^ 2) by (apply pow_lt; unfold w; lra).
  set (K := PI * (9 / 16) / 40000 * w ^ 2 * Q).
  assert (HK : 0 < K).
  { unfold K. apply Rmult_lt_0_compat; auto. apply Rmult_lt_0_compat; auto. pose proof PI_RGT_0. lra. }
  replace (- PI * (9 / 16) / 40000 * w ^ 2 * Q) with (- K) in A by (unfold K; field).
  replace (- PI * (9 / 16) / 40000 * w ^ 2 * Q) with (- K) in B by (unfold K; field).
  intros HH. apply Rminus_diag_uniq in HH. apply pade2_inj in HH; auto; rewrite ?A, ?B in *; nra.
Qed.

(** two quadrupolar species: functional and equation of state differ *)
Theorem C09_two_quadrupoles_refuted :
  exists prs bin p t v moles,
    from_records prs bin = Some p /\ phys p /\ phys_state p t v moles /\
    @f_eps RNum < density moles v /\ 1 / 100000 <= Eta (mix_of p) t (fun i => nth i moles 0 / v) /\
    forall lu fv dim,
    ~ same_density (f_bulk lu (f_new_full p fv) t dim (s_rho (@state_new RNum t v moles)))
        (residual lu (eos_new p) (@state_new RNum t v moles)) v.
Proof.
  exists [pr_q 3; pr_q 4], (zeros 2), q_pair, 300, 200, [1; 1].
  assert (He : @f_eps RNum < density [1; 1] 200) by (unfold density, f_eps; cbn [rsum]; rn; lits; lra).
  assert (Hn : 1 / 100000 <= Eta (mix_of q_pair) 300 (fun i => nth i [1; 1] 0 / 200)).
  { pose proof (sw_eta 3 4 (or_introl (conj eq_refl eq_refl))) as E. cbv zeta in E.
    change (mix_of (from_records_raw [pr_q 3; pr_q 4] (zeros 2))) with (mix_of q_pair) in *. lra. }
  split; [exact q_pair_ok | ]. split; [exact q_pair_phys | ]. split; [exact q_pair_state | ].
  split; [exact He | ]. split; [exact Hn | ].
  intros lu fv dim. unfold f_new_full, eos_new.
  rewrite (general_path _ _ _ q_pair_ok q_pair_phys 300 200 _ q_pair_state lu fv default_options dim);
    [ | right; discriminate | reflexivity | exact He ].
  rewrite (C09_hard_sphere _ _ _ q_pair_ok q_pair_phys 300 200 _ q_pair_state Hn).
  destruct (residual_value q_pair lu default_options (@state_new RNum 300 200 [1; 1])) as (a & ->).
  { apply (no_association _ _ _ q_pair_ok q_pair_physical). intros pr [<- | [<- | []]]; reflexivity. }
  unfold same_density. intros H. apply Some_inj in H. pose proof q_pair_gap. lra.
Qed.

(* ------------------------------------------------------------- short chains: m < 1 *)

(** argon of parameters/gross2001.json: the segment number is 0.9285 *)
Definition pr_argon : pure_record RNum :=
  @mkPure RNum (named "argon") 39.948 (@mkRec RNum 0.9285 3.4784 122.23
    None None None None None None None None None) None.
Definition argon : params RNum := from_records_raw [pr_argon] (zeros 1).
Lemma argon_ok : from_records [pr_argon] (zeros 1) = Some argon.
Proof. reflexivity. Qed.
Lemma argon_phys : phys argon.
Proof. intros i Hi. cbn in Hi. destruct i as [ | i]; cbn; try lra; lia. Qed.
Lemma argon_physical : forall pr, In pr [pr_argon] -> physical_record (pr_model pr).
Proof. intros pr [<- | []]; unfold physical_record; simpl; lra. Qed.
Lemma argon_state : phys_state argon 150 1000 [10].
Proof.
  apply phys_state_intro; try lra; auto using argon_phys.
  - intros i Hi. cbn in Hi. destruct i as [ | i]; cbn; try lra; lia.
  - exists 0%nat. cbn. split; [lia | lra].
  - cbn. lra.
Qed.
Lemma argon_eta : 1 / 100000 <= Eta (mix_of argon) 150 (fun i => nth i [10] 0 / 1000).
Proof.
  unfold Eta, Zeta. change (N (mix_of argon)) with 1%nat. cbn [rsum seq].
  unfold Di. change (M (mix_of argon) 0) with 0.9285. change (Sg (mix_of argon) 0) with 3.4784.
  change (Ep (mix_of argon) 0) with 122.23. cbn [nth]. interval.
Qed.
Lemma argon_eps : @f_eps RNum < density [10] 1000.
Proof. unfold density, f_eps; cbn [rsum]; rn; lits; lra. Qed.
Lemma argon_chain : phi_chain argon 150 (bulk_wd (chain_weight_functions argon 150) 0 (s_rho (@state_new RNum 150 1000 [10]))) <> 0.
Proof.
  rewrite (phi_chain_spec argon (wfp_from_records _ _ _ argon_ok) argon_phys 150 1000 [10] argon_state).
  change (Datatypes.length (p_m argon)) with 1%nat. unfold f_hc. change (N (mix_of argon)) with 1%nat.
  cbn [rsum seq]. change (M (mix_of argon) 0) with 0.9285. change (@ix RNum (p_m argon) 0) with 0.9285. cbn [nth].
  unfold Gij, Zeta. change (N (mix_of argon)) with 1%nat. cbn [rsum seq]. cbv zeta.
  unfold Di. change (M (mix_of argon) 0) with 0.9285. change (Sg (mix_of argon) 0) with 3.4784.
  change (Ep (mix_of argon) 0) with 122.23. cbn [nth].
  unfold f_eps. rn. lits. apply Rlt_not_eq. interval.
Qed.

(** default functional and equation of state of argon *)
Lemma argon_short_chain :
    p_ndipole argon = 0%nat /\ p_nquadpole argon = 0%nat /\ p_nassoc argon = 0%nat /\ @ix RNum (p_m argon) 0 < 1 /\
    forall lu dim,
    ~ same_density (f_bulk lu (f_new argon) 150 dim (s_rho (@state_new RNum 150 1000 [10])))
        (residual lu (eos_new argon) (@state_new RNum 150 1000 [10])) 1000 /\
    f_bulk lu (f_new argon) 150 dim (s_rho (@state_new RNum 150 1000 [10]))
      <> f_bulk lu (f_new_full argon KierlikRosinberg) 150 dim (s_rho (@state_new RNum 150 1000 [10])).
Proof.
  assert (Hd : p_ndipole argon = 0%nat).
  { apply (no_dipole _ _ _ argon_ok argon_physical). intros pr [<- | []]; reflexivity. }
  assert (Hq : p_nquadpole argon = 0%nat).
  { apply (no_quadrupole _ _ _ argon_ok argon_physical). intros pr [<- | []]; reflexivity. }
  assert (Ha : p_nassoc argon = 0%nat).
  { apply (no_association _ _ _ argon_ok argon_physical). intros pr [<- | []]; reflexivity. }
  assert (Hm : @ix RNum (p_m argon) 0 < 1) by (change (@ix RNum (p_m argon) 0) with 0.9285; lra).
  do 4 (split; [assumption | ]).
  intros lu dim.
  assert (K0 : nth 0 (nth 0 (p_k_ij argon) []) 0 = 0) by reflexivity.
  assert (G : same_density (f_bulk lu (f_new_full argon KierlikRosinberg) 150 dim (s_rho (@state_new RNum 150 1000 [10])))
     (residual lu (eos_new argon) (@state_new RNum 150 1000 [10])) 1000).
  { apply (C09_mixture _ _ _ argon_ok argon_phys 150 1000 _ argon_state); auto using argon_eps, argon_eta. rewrite Hq. lia. }
  pose proof (version_gap _ _ _ argon_ok argon_phys eq_refl 150 1000 _ argon_state K0 lu WhiteBear default_options dim dim
    ltac:(discriminate) argon_eps) as V.
  destruct (residual_value argon lu default_options (@state_new RNum 150 1000 [10]) Ha) as (a & Ea).
  unfold same_density in *. unfold eos_new, f_new, f_new_full in *. rewrite Ea in *.
  assert (Hg : pure_gap argon 150 1000 [10] <> 0).
  { unfold pure_gap. rewrite Hd. cbn [Nat.ltb Nat.leb andb]. destruct (Rlt_dec _ _); [ | lra].
    rewrite Rplus_0_r. apply argon_chain. }
  rewrite G in V. destruct (f_bulk lu (f_with_options argon WhiteBear default_options) 150 dim _) as [f | ]; [ | discriminate].
  apply Some_inj in V. rewrite G. split; intros H; apply Some_inj in H; apply Hg; rewrite H in V;
   match goal with |- ?x = 0 => assert (V' : a / 1000 = a / 1000 + x) by exact V end; lra.
Qed.
Theorem C09_short_chain_refuted :
  exists prs bin p t v moles,
    from_records prs bin = Some p /\ phys p /\ phys_state p t v moles /\
    @f_eps RNum < density moles v /\ 1 / 100000 <= Eta (mix_of p) t (fun i => nth i moles 0 / v) /\
    p_ndipole p = 0%nat /\ p_nquadpole p = 0%nat /\ p_nassoc p = 0%nat /\ @ix RNum (p_m p) 0 < 1 /\
    forall lu dim,
    ~ same_density (f_bulk lu (f_new p) t dim (s_rho (@state_new RNum t v moles)))
        (residual lu (eos_new p) (@state_new RNum t v moles)) v /\
    f_bulk lu (f_new p) t dim (s_rho (@state_new RNum t v moles))
      <> f_bulk lu (f_new_full p KierlikRosinberg) t dim (s_rho (@state_new RNum t v moles)).
Proof.
  exists [pr_argon], (zeros 1), argon, 150, 1000, [10].
  split; [exact argon_ok | ]. split; [exact argon_phys | ]. split; [exact argon_state | ].
  split; [exact argon_eps | ]. split; [exact argon_eta | ]. exact argon_short_chain.
Qed.

(* ---------------------------------------------------------- dipole and quadrupole *)

(** a component of one segment with optional dipole and quadrupole moment *)
Definition pr_p (sigma : R) (mu q : option R) : pure_record RNum :=
  @mkPure RNum (named "polar") 28 (@mkRec RNum 1 sigma 100
    mu q None None None None None None None) None.

Section DQ.
  Variables (prs : list (pure_record RNum)) (bin : list (list R)) (p : params RNum).
  Hypothesis Hp : from_records prs bin = Some p.
  Hypothesis Hph : phys p.
  Variables (t v : R) (moles : list R).
  Hypothesis PS : phys_state p t v moles.
  Hypothesis M1 : forall i, (i < List.length (p_m p))%nat -> @ix RNum (p_m p) i = 1.
  Let W := wfp_from_records _ _ _ Hp.
  Let X := mix_of p.
  Let n := List.length (p_m p).
  Let rho i := nth i moles 0 / v.

  Lemma moment_nonneg (mu den : R) : 0 < den -> 0 <= mu * mu / den * (@e_m19 RNum) * (@kb_conv RNum).
  Proof.
    intros H. unfold e_m19, kb_conv. rn. lits.
    apply Rmult_le_pos; [ | lra]. apply Rmult_le_pos; [ | lra].
    unfold Rdiv. apply Rmult_le_pos; [apply Rle_0_sqr | left; apply Rinv_0_lt_compat; auto].
  Qed.
  Lemma mu2_nonneg i : (i < n)%nat -> 0 <= Mu2 X i.
  Proof.
    intros Hi. change (Mu2 X i) with (@ix RNum (p_mu2 p) i).
    destruct (Hph i Hi) as (A & B & C). revert Hi A B C. unfold n.
    rewrite (from_records_raw_of _ _ _ Hp), fr_len_m. intros Hi A B C. rewrite fr_mu2 by auto.
    unfold mu2_of. apply moment_nonneg. rn. repeat apply Rmult_lt_0_compat; auto.
  Qed.
  Lemma qu2_nonneg i : (i < n)%nat -> 0 <= Qu2 X i.
  Proof.
    intros Hi. change (Qu2 X i) with (@ix RNum (p_q2 p) i).
    destruct (Hph i Hi) as (A & B & C). revert Hi A B C. unfold n.
    rewrite (from_records_raw_of _ _ _ Hp), fr_len_m. intros Hi A B C. rewrite fr_q2 by auto.
    unfold q2_of. apply moment_nonneg. rn. apply Rmult_lt_0_compat; auto. apply Rmult_lt_0_compat; auto. apply pow_lt; auto.
  Qed.
  Lemma Wi_nonneg k i : (i < n)%nat -> 0 <= Wi X t k i.
  Proof.
    intros Hi. destruct (Hph i Hi) as (A & B & C). unfold Wi. pose proof (ps_t _ _ _ _ PS).
    apply Rmult_le_pos; [ | apply pow_le; left; exact B].
    left. apply Rdiv_lt_0_compat; auto.
  Qed.
  Lemma Sij_pos i j : (i < n)%nat -> (j < n)%nat -> 0 < Sij X i j.
  Proof.
    intros Hi Hj. destruct (Hph i Hi) as (_ & A & _), (Hph j Hj) as (_ & B & _).
    unfold Sij. change (Sg X i) with (@ix RNum (p_sigma p) i). change (Sg X j) with (@ix RNum (p_sigma p) j). lra.
  Qed.
  (** the third order term is not negative for components of one segment *)
  Lemma dq3_nonneg : 0 <= dq3 X t rho.
  Proof.
    unfold dq3. change (N X) with n. apply Rmult_le_pos; [apply pow2_ge_0 | ].
    apply rsum_nonneg; intros i Hi; apply rsum_nonneg; intros j Hj; apply rsum_nonneg; intros k Hk.
    apply seq_in in Hi, Hj, Hk.
    pose proof (rho_ge p t v moles PS i Hi). pose proof (rho_ge p t v moles PS j Hj). pose proof (rho_ge p t v moles PS k Hk).
    assert (HJ : 0 <= J3dq X t rho i j k).
    { unfold J3dq. change (length CDQ) with 3%nat. unfold m3, mp.
      change (M X i) with (@ix RNum (p_m p) i). change (M X j) with (@ix RNum (p_m p) j). change (M X k) with (@ix RNum (p_m p) k).
      rewrite !M1 by auto. rewrite Rmin_left by lra. rewrite Rcbrt_of_cube by lra.
      replace (q1 1) with 0 by (unfold q1; field).
      pose proof (z3_pos p Hph t v moles PS) as Hz. change (Zeta (mix_of p) t (fun i : nat => nth i moles 0 / v) 3) with (Eta X t rho) in Hz.
      set (e := Eta X t rho) in *. clearbody e.
      cbn [rsum seq]. unfold lit2, CDQ. cbn [nth Rlit Qnum Qden]. lits. nra. }
    assert (HA : 0 <= Rlit ALPHA) by (unfold Rlit, ALPHA; cbn [Qnum Qden]; lra).
    pose proof (Sij_pos i j Hi Hj). pose proof (Sij_pos i k Hi Hk). pose proof (Sij_pos j k Hj Hk).
    change (0 <= rho i) in H. change (0 <= rho j) in H0. change (0 <= rho k) in H1.
    set (ri := rho i) in *. set (rj := rho j) in *. set (rk := rho k) in *. clearbody ri rj rk.
    generalize (Wi_nonneg 4 i Hi) (Wi_nonneg 4 j Hj) (Wi_nonneg 4 k Hk).
    generalize (Wi X t 4 i) (Wi X t 4 j) (Wi X t 4 k). intros w1 w2 w3 Hw1 Hw2 Hw3.
    generalize (mu2_nonneg i Hi) (mu2_nonneg k Hk) (qu2_nonneg j Hj) (qu2_nonneg k Hk).
    generalize (Mu2 X i) (Mu2 X k) (Qu2 X j) (Qu2 X k). intros u1 u2 u3 u4 Hu1 Hu2 Hu3 Hu4.
    revert H2 H3 H4. generalize (Sij X i j) (Sij X i k) (Sij X j k). intros s1 s2 s3 H2 H3 H4.
    revert HA. generalize (Rlit ALPHA). intros al HA.
    apply Rmult_le_pos; auto. apply Rmult_le_pos.
    - unfold Rdiv. apply Rmult_le_pos; [ | left; apply Rinv_0_lt_compat, pow_lt; repeat apply Rmult_lt_0_compat; auto].
      repeat apply Rmult_le_pos; auto.
    - apply Rplus_le_le_0_compat; repeat apply Rmult_le_pos; auto.
  Qed.
End DQ.

(** value of the pair integral for components of one segment at T = 3 epsilon/k *)
Definition Jdq (e : R) : R := Sum l < 4, (lit2 ADQ l 0 + lit2 BDQ l 0 / 3) * e ^ l.
Lemma Jdq_pos e : 0 <= e <= 0.3 -> 0 < Jdq e.
Proof.
  intros H. unfold Jdq. cbn [rsum seq]. unfold lit2, ADQ, BDQ. cbn [nth Rlit Qnum Qden]. lits.
  interval with (i_bisect e).
Qed.

(** one component with both moments *)
Definition dq_one : params RNum := from_records_raw [pr_p 3 (Some 1) (Some 1)] (zeros 1).
Lemma dq_one_ok : from_records [pr_p 3 (Some 1) (Some 1)] (zeros 1) = Some dq_one.
Proof. reflexivity. Qed.
Lemma dq_one_phys : phys dq_one.
Proof. intros i Hi. cbn in Hi. destruct i as [ | i]; cbn; try lra; lia. Qed.
Lemma dq_one_physical : forall pr, In pr [pr_p 3 (Some 1) (Some 1)] -> physical_record (pr_model pr).
Proof. intros pr [<- | []]; unfold physical_record; simpl; lra. Qed.
Lemma dq_one_state : phys_state dq_one 300 200 [1].
Proof.
  apply phys_state_intro; try lra; auto using dq_one_phys.
  - intros i Hi. cbn in Hi. destruct i as [ | i]; cbn; try lra; lia.
  - exists 0%nat. cbn. split; [lia | lra].
  - cbn. lra.
Qed.
Lemma dq_one_eps : @f_eps RNum < density [1] 200.
Proof. unfold density, f_eps; cbn [rsum]; rn; lits; lra. Qed.

Section DqOne.
  Let X := mix_of dq_one.
  Let rho i := nth i [1] 0 / 200.
  Lemma dq_one_eta : 1 / 100000 <= Eta X 300 rho <= 0.3.
  Proof.
    unfold Eta, Zeta. change (N X) with 1%nat. cbn [rsum seq].
    unfold Di. change (M X 0) with 1. change (Sg X 0) with 3. change (Ep X 0) with 100.
    unfold rho. cbn [nth]. split; interval.
  Qed.
  Lemma dq_one_moments : 0 < Mu2 X 0 /\ 0 < Qu2 X 0.
  Proof.
    destruct (C16_moments _ _ _ dq_one_ok 0%nat _ eq_refl) as [A B].
    change (nth 0 (p_mu2 dq_one) 0) with (Mu2 X 0) in A. change (nth 0 (p_q2 dq_one) 0) with (Qu2 X 0) in B.
    rewrite A, B. cbn [pr_model pr_p opt_or r_mu r_q r_m r_sigma r_epsilon_k]. split; lra.
  Qed.
  Lemma dq_one_gap : f_dq X 300 rho 3 5 < 0.
  Proof.
    assert (H3 : 0 <= dq3 X 300 rho).
    { apply (dq3_nonneg _ _ _ dq_one_ok dq_one_phys 300 200 _ dq_one_state).
      intros i Hi. cbn in Hi. destruct i; [reflexivity | lia]. }
    assert (H2 : dq2 X 300 rho 3 5 < 0).
    { unfold dq2. change (N X) with 1%nat. cbn [rsum seq]. rewrite !Rplus_0_r.
      assert (EJ : J2 X 300 rho ADQ BDQ 0 0 = Jdq (Eta X 300 rho)).
      { unfold J2, Jdq. change (length ADQ) with 4%nat. apply Sum_ext; intros l Hl.
        unfold m2, mp, Eij0. change (M X 0) with 1. change (Ep X 0) with 100.
        rewrite Rmin_left by lra. rewrite !sqrt_square by lra. unfold cm, q1, q12. field. }
      rewrite EJ. destruct dq_one_eta as [E1 E2]. pose proof (Jdq_pos (Eta X 300 rho) ltac:(lra)) as HJ.
      set (J := Jdq _) in *. clearbody J. destruct dq_one_moments as [Hm Hq].
      set (m_ := Mu2 X 0) in *. set (q_ := Qu2 X 0) in *. clearbody m_ q_.
      unfold Wi, Sij. change (Sg X 0) with 3. change (Ep X 0) with 100. unfold rho. cbn [nth].
      assert (0 < m_ * q_ * J) by (repeat apply Rmult_lt_0_compat; auto). pose proof PI_RGT_0.
      match goal with |- ?a * ?pi * (?b * m_ * q_ * J) < 0 =>
        replace (a * pi * (b * m_ * q_ * J)) with (- (- a * b * (pi * (m_ * q_ * J)))) by ring end.
      assert (0 < PI * (m_ * q_ * J)) by (apply Rmult_lt_0_compat; auto).
      set (z := PI * (m_ * q_ * J)) in *. clearbody z. lra. }
    unfold f_dq, pade2.
    assert (0 < dq2 X 300 rho 3 5 ^ 2) by nra.
    assert (dq2 X 300 rho 3 5 - dq3 X 300 rho < 0) by lra.
    unfold Rdiv. assert (/ (dq2 X 300 rho 3 5 - dq3 X 300 rho) < 0) by (apply Rinv_lt_0_compat; auto). nra.
  Qed.
End DqOne.

(** the specialised functional of one component has no dipole-quadrupole term *)
Theorem C10_dipole_quadrupole_refuted :
  exists prs bin p t v moles,
    from_records prs bin = Some p /\ phys p /\ List.length (p_m p) = 1%nat /\ phys_state p t v moles /\
    @f_eps RNum < density moles v /\ 1 / 100000 <= Eta (mix_of p) t (fun i => nth i moles 0 / v) /\
    1 <= @ix RNum (p_m p) 0 /\ nth 0 (nth 0 (p_k_ij p) []) 0 = 0 /\ p_nassoc p = 0%nat /\
    forall lu fv dim, fv <> KierlikRosinberg ->
    f_bulk lu (f_new_full p fv) t dim (s_rho (@state_new RNum t v moles))
      <> f_bulk lu (f_new_full p KierlikRosinberg) t dim (s_rho (@state_new RNum t v moles)) /\
    ~ same_density (f_bulk lu (f_new_full p fv) t dim (s_rho (@state_new RNum t v moles)))
        (residual lu (eos_new p) (@state_new RNum t v moles)) v.
Proof.
  exists [pr_p 3 (Some 1) (Some 1)], (zeros 1), dq_one, 300, 200, [1].
  assert (Hd : (0 < p_ndipole dq_one)%nat).
  { apply (some_dipole _ _ _ dq_one_ok dq_one_physical (pr_p 3 (Some 1) (Some 1)) 1); [left; auto | reflexivity | lra]. }
  assert (Hq : (0 < p_nquadpole dq_one)%nat).
  { apply (some_quadrupole _ _ _ dq_one_ok dq_one_physical (pr_p 3 (Some 1) (Some 1)) 1); [left; auto | reflexivity | lra]. }
  assert (Ha : p_nassoc dq_one = 0%nat).
  { apply (no_association _ _ _ dq_one_ok dq_one_physical). intros pr [<- | []]; reflexivity. }
  assert (K0 : nth 0 (nth 0 (p_k_ij dq_one) []) 0 = 0) by reflexivity.
  assert (Hq1 : (p_nquadpole dq_one <= 1)%nat).
  { pose proof (wfp_from_records _ _ _ dq_one_ok) as W. rewrite (w_nq _ W), (w_quad _ W).
    change (Datatypes.length (p_m dq_one)) with 1%nat. cbn [seq filter].
    match goal with |- context [if ?b then _ else _] => destruct b end; cbn; lia. }
  split; [exact dq_one_ok | ]. split; [exact dq_one_phys | ]. split; [reflexivity | ].
  split; [exact dq_one_state | ]. split; [exact dq_one_eps | ]. split; [apply dq_one_eta | ].
  split; [change (@ix RNum (p_m dq_one) 0) with 1; lra | ]. split; [exact K0 | ]. split; [exact Ha | ].
  intros lu fv dim Hf.
  assert (G : same_density (f_bulk lu (f_new_full dq_one KierlikRosinberg) 300 dim (s_rho (@state_new RNum 300 200 [1])))
     (residual lu (eos_new dq_one) (@state_new RNum 300 200 [1])) 200).
  { apply (C09_mixture _ _ _ dq_one_ok dq_one_phys 300 200 _ dq_one_state); auto using dq_one_eps. apply dq_one_eta. }
  pose proof (version_gap _ _ _ dq_one_ok dq_one_phys eq_refl 300 200 _ dq_one_state K0 lu fv default_options dim dim
    Hf dq_one_eps) as V.
  destruct (residual_value dq_one lu default_options (@state_new RNum 300 200 [1]) Ha) as (a & Ea).
  unfold same_density in *. unfold eos_new, f_new_full in *. rewrite Ea in *.
  assert (Hg : pure_gap dq_one 300 200 [1] <> 0).
  { unfold pure_gap. destruct (Rlt_dec _ _) as [Hm | _]; [change (@ix RNum (p_m dq_one) 0) with 1 in Hm; lra | ].
    replace (Nat.ltb 0 (p_ndipole dq_one)) with true by (symmetry; apply Nat.ltb_lt; auto).
    replace (Nat.ltb 0 (p_nquadpole dq_one)) with true by (symmetry; apply Nat.ltb_lt; auto).
    cbn [andb]. pose proof dq_one_gap as H. cbv zeta in H. lra. }
  rewrite G in V. destruct (f_bulk lu (f_with_options dq_one fv default_options) 300 dim _) as [f | ]; [ | discriminate].
  apply Some_inj in V. rewrite G. split; intros H; apply Some_inj in H; apply Hg; rewrite H in V;
   match goal with |- ?x = 0 => assert (V' : a / 200 = a / 200 + x) by exact V end; lra.
Qed.

(* --------------------------------------------------------------- dq_variant and the functional *)

(** the functional does not depend on the option ... *)
Theorem C37_functional_ignores lu (p : params RNum) fv (o o' : options RNum) t dim rho :
  o_max_iter o = o_max_iter o' -> o_tol o = o_tol o' ->
  f_contributions (f_with_options p fv o) = f_contributions (f_with_options p fv o') /\
  f_bulk lu (f_with_options p fv o) t dim rho = f_bulk lu (f_with_options p fv o') t dim rho.
Proof.
  intros H1 H2.
  assert (E : f_contributions (f_with_options p fv o) = f_contributions (f_with_options p fv o')).
  { unfold f_with_options. cbn [f_contributions]. rewrite H1, H2. reflexivity. }
  split; auto. unfold f_bulk. rewrite E. reflexivity.
Qed.

Definition dq_two : params RNum := from_records_raw [pr_p 3 (Some 1) None; pr_p 4 None (Some 1)] (zeros 2).
Lemma dq_two_ok : from_records [pr_p 3 (Some 1) None; pr_p 4 None (Some 1)] (zeros 2) = Some dq_two.
Proof. reflexivity. Qed.
Lemma dq_two_phys : phys dq_two.
Proof. intros i Hi. cbn in Hi. destruct i as [ | [ | i]]; cbn; try lra; lia. Qed.
Lemma dq_two_physical : forall pr, In pr [pr_p 3 (Some 1) None; pr_p 4 None (Some 1)] -> physical_record (pr_model pr).
Proof. intros pr [<- | [<- | []]]; unfold physical_record; simpl; lra. Qed.
Lemma dq_two_state : phys_state dq_two 300 200 [1; 1].
Proof.
  apply phys_state_intro; try lra; auto using dq_two_phys.
  - intros i Hi. cbn in Hi. destruct i as [ | [ | i]]; cbn; try lra; lia.
  - exists 0%nat. cbn. split; [lia | lra].
  - cbn. lra.
Qed.
Lemma dq_two_eps : @f_eps RNum < density [1; 1] 200.
Proof. unfold density, f_eps; cbn [rsum]; rn; lits; lra. Qed.

Section DqTwo.
  Let X := mix_of dq_two.
  Let rho i := nth i [1; 1] 0 / 200.
  Lemma dq_two_eta : 1 / 100000 <= Eta X 300 rho <= 0.3.
  Proof.
    unfold Eta, Zeta. change (N X) with 2%nat. cbn [rsum seq].
    unfold Di. change (M X 0) with 1. change (Sg X 0) with 3. change (Ep X 0) with 100.
    change (M X 1) with 1. change (Sg X 1) with 4. change (Ep X 1) with 100.
    unfold rho. cbn [nth]. split; interval.
  Qed.
  Lemma dq_two_moments : 0 < Mu2 X 0 /\ Qu2 X 0 = 0 /\ Mu2 X 1 = 0 /\ 0 < Qu2 X 1.
  Proof.
    destruct (C16_moments _ _ _ dq_two_ok 0%nat _ eq_refl) as [A B].
    destruct (C16_moments _ _ _ dq_two_ok 1%nat _ eq_refl) as [C D].
    change (nth 0 (p_mu2 dq_two) 0) with (Mu2 X 0) in A. change (nth 0 (p_q2 dq_two) 0) with (Qu2 X 0) in B.
    change (nth 1 (p_mu2 dq_two) 0) with (Mu2 X 1) in C. change (nth 1 (p_q2 dq_two) 0) with (Qu2 X 1) in D.
    rewrite A, B, C, D. cbn [pr_model pr_p opt_or r_mu r_q r_m r_sigma r_epsilon_k]. repeat split; try lra.
  Qed.
  Lemma dq_two_differ : f_dq X 300 rho 3 5 <> f_dq X 300 rho 4 4.
  Proof.
    assert (H3 : 0 <= dq3 X 300 rho).
    { apply (dq3_nonneg _ _ _ dq_two_ok dq_two_phys 300 200 _ dq_two_state).
      intros i Hi. cbn in Hi. destruct i as [ | [ | i]]; [reflexivity | reflexivity | lia]. }
    assert (H2 : exists c, 0 < c /\ forall kd kq, dq2 X 300 rho kd kq = - (3 ^ kd * 4 ^ kq * c)).
    { destruct dq_two_moments as (Hm & Hq0 & Hm1 & Hq).
      assert (EJ : J2 X 300 rho ADQ BDQ 0 1 = Jdq (Eta X 300 rho)).
      { unfold J2, Jdq. change (length ADQ) with 4%nat. apply Sum_ext; intros l Hl.
        unfold m2, mp, Eij0. change (M X 0) with 1. change (Ep X 0) with 100. change (M X 1) with 1. change (Ep X 1) with 100.
        rewrite Rmin_left by lra. rewrite !sqrt_square by lra. unfold cm, q1, q12. field. }
      destruct dq_two_eta as [E1 E2]. pose proof (Jdq_pos (Eta X 300 rho) ltac:(lra)) as HJ.
      exists (9 / 4 * (1 / 200 * (1 / 200) * (1 / 3) * (1 / 3) / (7 / 2) ^ 5) * (PI * Mu2 X 0 * Qu2 X 1 * Jdq (Eta X 300 rho))).
      split.
      - set (J := Jdq _) in *. clearbody J. set (m_ := Mu2 X 0) in *. set (q_ := Qu2 X 1) in *. clearbody m_ q_.
        pose proof PI_RGT_0. apply Rmult_lt_0_compat; [lra | ]. revert H. generalize PI. intros.
        repeat apply Rmult_lt_0_compat; auto.
      - intros kd kq. unfold dq2. change (N X) with 2%nat. cbn [rsum seq]. rewrite Hq0, Hm1, EJ.
        set (J := Jdq _) in *. clearbody J. set (m_ := Mu2 X 0) in *. set (q_ := Qu2 X 1) in *. clearbody m_ q_.
        unfold Wi, Sij. change (Sg X 0) with 3. change (Ep X 0) with 100. change (Sg X 1) with 4. change (Ep X 1) with 100.
        unfold rho. cbn [nth]. 
        generalize (3 ^ kd) (4 ^ kq) (4 ^ kd) (3 ^ kq). intros.
        rewrite ?Rmult_0_r, ?Rmult_0_l, ?Rplus_0_r, ?Rplus_0_l. field. }
    destruct H2 as (c & Hc & E). unfold f_dq. intros H.
    apply pade2_inj in H; rewrite ?E in *; lra.
  Qed.
End DqTwo.

(** ... so it cannot agree with the equation of state for both values *)
Theorem C37_functional_refuted :
  exists prs bin p t v moles,
    from_records prs bin = Some p /\ phys p /\ phys_state p t v moles /\
    @f_eps RNum < density moles v /\ 1 / 100000 <= Eta (mix_of p) t (fun i => nth i moles 0 / v) /\
    forall lu fv dim (o : options RNum),
    (same_density (f_bulk lu (f_with_options p fv o) t dim (s_rho (@state_new RNum t v moles)))
        (residual lu (with_options p o) (@state_new RNum t v moles)) v <-> o_dq o = DQ35).
Proof.
  exists [pr_p 3 (Some 1) None; pr_p 4 None (Some 1)], (zeros 2), dq_two, 300, 200, [1; 1].
  assert (Hq1 : (p_nquadpole dq_two <= 1)%nat).
  { pose proof (wfp_from_records _ _ _ dq_two_ok) as W. rewrite (w_nq _ W), (w_quad _ W).
    change (Datatypes.length (p_m dq_two)) with 2%nat. cbn [seq filter].
    destruct dq_two_moments as (_ & H & _). change (@ix RNum (p_q2 dq_two) 0 = 0) in H. rewrite H.
    replace (@nonzero RNum 0) with false.
    - match goal with |- context [if ?b then _ else _] => destruct b end; cbn; lia.
    - symmetry. apply nonzero_R_false. reflexivity. }
  assert (Ha : p_nassoc dq_two = 0%nat).
  { apply (no_association _ _ _ dq_two_ok dq_two_physical). intros pr [<- | [<- | []]]; reflexivity. }
  split; [exact dq_two_ok | ]. split; [exact dq_two_phys | ]. split; [exact dq_two_state | ].
  split; [exact dq_two_eps | ]. split; [apply dq_two_eta | ].
  intros lu fv dim o.
  assert (G : forall o', o_dq o' = DQ35 ->
     same_density (f_bulk lu (f_with_options dq_two fv o') 300 dim (s_rho (@state_new RNum 300 200 [1; 1])))
     (residual lu (with_options dq_two o') (@state_new RNum 300 200 [1; 1])) 200).
  { intros o' Ho. apply (C09_mixture _ _ _ dq_two_ok dq_two_phys 300 200 _ dq_two_state); auto using dq_two_eps; [ | apply dq_two_eta].
    right. discriminate. }
  split; [ | apply G]. intros H. destruct (o_dq o) eqn:Eo; auto. exfalso.
  set (o' := @mkOptions RNum (o_max_eta o) (o_max_iter o) (o_tol o) DQ35).
  specialize (G o' eq_refl).
  destruct (C37_functional_ignores lu dq_two fv o' o 300 dim (s_rho (@state_new RNum 300 200 [1; 1])) eq_refl eq_refl) as [_ EF].
  destruct (residual_value dq_two lu o' (@state_new RNum 300 200 [1; 1]) Ha) as (a & Ea).
  pose proof (C37_only_dq lu dq_two o' o (@state_new RNum 300 200 [1; 1]) eq_refl eq_refl a Ea) as E.
  unfold same_density in *. rewrite EF, H, E, Ea, Eo in G. apply Some_inj in G.
  change (o_dq o') with DQ35 in G.
  pose proof (wfp_from_records _ _ _ dq_two_ok) as W.
  rewrite !(dq_textbook dq_two W dq_two_phys 300 200 [1; 1] dq_two_state) in G. cbn [dq_exps fst snd] in G.
  apply dq_two_differ. cbv zeta. change (car RNum) with R in *.
  set (x := f_dq _ _ _ 3 5) in *. set (y := f_dq _ _ _ 4 4) in *. clearbody x y. 
  assert (G' : (a - 200 * x + 200 * y) / 200 = a / 200) by exact G. lra.
Qed.

(* ------------------------------------------------------------------------ cases *)

(** the hypotheses of C09_mixture (sample: dipolar, quadrupolar and associating component) *)
Example C09_mixture_case :
  from_records sample_prs sample_bin = Some sample /\ phys sample /\ phys_state sample 350 1000 [1; 2; 3] /\
  List.length (p_m sample) <> 1%nat /\ (p_nquadpole sample <= 1)%nat /\ (1 <= p_nassoc sample)%nat /\
  @o_dq RNum default_options = DQ35 /\ @f_eps RNum < density [1; 2; 3] 1000 /\
  1 / 100000 <= Eta (mix_of sample) 350 (fun i => nth i [1; 2; 3] 0 / 1000) /\
  forall lu fv dim, exists a,
    residual lu (eos_new sample) (@state_new RNum 350 1000 [1; 2; 3]) = Some a /\
    f_bulk lu (f_new_full sample fv) 350 dim (s_rho (@state_new RNum 350 1000 [1; 2; 3])) = Some (a / 1000).
Proof.
  destruct sample_counts as (A & B & C).
  assert (He : @f_eps RNum < density [1; 2; 3] 1000) by (unfold density, f_eps; cbn [rsum]; rn; lits; lra).
  assert (Hn : 1 / 100000 <= Eta (mix_of sample) 350 (fun i => nth i [1; 2; 3] 0 / 1000)).
  { unfold Eta, Zeta. set (X := mix_of sample). change (N X) with 3%nat. cbn [rsum seq]. unfold Di.
    change (M X 0) with 2.2634. change (Sg X 0) with 3.2723. change (Ep X 0) with 210.29.
    change (M X 1) with 1.5131. change (Sg X 1) with 3.1869. change (Ep X 1) with 163.333.
    change (M X 2) with 1.065587. change (Sg X 2) with 3.000683. change (Ep X 2) with 366.5121.
    cbn [nth]. interval. }
  split; [exact sample_ok | ]. split; [exact sample_phys | ]. split; [exact sample_state | ].
  split; [discriminate | ]. split; [lia | ]. split; [lia | ]. split; [reflexivity | ]. split; [exact He | ].
  split; [exact Hn | ]. intros lu fv dim.
  assert (Hs : exists a, residual lu (eos_new sample) (@state_new RNum 350 1000 [1; 2; 3]) = Some a).
  { unfold eos_new. rewrite residual_total. unfold assoc_term. rewrite C. eauto. }
  destruct Hs as (a & Ha). exists a. split; auto.
  assert (H : same_density (f_bulk lu (f_new_full sample fv) 350 dim (s_rho (@state_new RNum 350 1000 [1; 2; 3])))
     (residual lu (eos_new sample) (@state_new RNum 350 1000 [1; 2; 3])) 1000).
  { apply (C09_mixture _ _ _ sample_ok sample_phys 350 1000 _ sample_state); auto; [right; discriminate | lia]. }
  unfold same_density in H. rewrite Ha in H. exact H.
Qed.

(** one component, every version of the functional *)
Definition propane : params RNum := from_records_raw [pr_propane] (zeros 1).
Lemma propane_ok : from_records [pr_propane] (zeros 1) = Some propane.
Proof. reflexivity. Qed.
Lemma propane_phys : phys propane.
Proof. intros i Hi. cbn in Hi. destruct i as [ | i]; cbn; try lra; lia. Qed.
Lemma propane_state : phys_state propane 250 1000 [1].
Proof.
  apply phys_state_intro; try lra; auto using propane_phys.
  - intros i Hi. cbn in Hi. destruct i as [ | i]; cbn; try lra; lia.
  - exists 0%nat. cbn. split; [lia | lra].
  - cbn. lra.
Qed.
Example C10_case : forall lu fv dim,
  fv <> KierlikRosinberg -> exists a,
    residual lu (eos_new propane) (@state_new RNum 250 1000 [1]) = Some a /\
    f_bulk lu (f_new_full propane fv) 250 dim (s_rho (@state_new RNum 250 1000 [1])) = Some (a / 1000) /\
    f_bulk lu (f_new_full propane fv) 250 dim (s_rho (@state_new RNum 250 1000 [1]))
      = f_bulk lu (f_new_full propane KierlikRosinberg) 250 dim (s_rho (@state_new RNum 250 1000 [1])).
Proof.
  intros lu fv dim Hf.
  assert (Ph : forall pr, In pr [pr_propane] -> physical_record (pr_model pr)).
  { intros pr [<- | []]; unfold physical_record; simpl; lra. }
  assert (Ha : p_nassoc propane = 0%nat).
  { apply (no_association _ _ _ propane_ok Ph). intros pr [<- | []]; reflexivity. }
  assert (Hd : p_ndipole propane = 0%nat).
  { apply (no_dipole _ _ _ propane_ok Ph). intros pr [<- | []]; reflexivity. }
  assert (He : @f_eps RNum < density [1] 1000) by (unfold density, f_eps; cbn [rsum]; rn; lits; lra).
  assert (Hm : 1 <= @ix RNum (p_m propane) 0) by (change (@ix RNum (p_m propane) 0) with 2.001829; lra).
  assert (K0 : nth 0 (nth 0 (p_k_ij propane) []) 0 = 0) by reflexivity.
  assert (Hn : 1 / 100000 <= Eta (mix_of propane) 250 (fun i => nth i [1] 0 / 1000)).
  { unfold Eta, Zeta. set (X := mix_of propane). change (N X) with 1%nat. cbn [rsum seq]. unfold Di.
    change (M X 0) with 2.001829. change (Sg X 0) with 3.618353. change (Ep X 0) with 208.1101.
    cbn [nth]. interval. }
  destruct (residual_value propane lu default_options (@state_new RNum 250 1000 [1]) Ha) as (a & Ea).
  exists a. split; [exact Ea | ]. split.
  - pose proof (C09_pure _ _ _ propane_ok propane_phys eq_refl 250 1000 _ propane_state K0 lu fv default_options dim
      He Hn eq_refl Hm (or_introl Hd)) as H.
    unfold same_density in H. rewrite Ea in H. exact H.
  - apply (C10_total _ _ _ propane_ok propane_phys eq_refl 250 1000 _ propane_state K0 lu fv default_options dim dim); auto.
Qed.

Print Assumptions C09_chain.
Print Assumptions C09_attraction.
Print Assumptions C09_association.
Print Assumptions C09_hard_sphere.
Print Assumptions C09_hard_sphere_dilute.
Print Assumptions C09_mixture.
Print Assumptions C09_mixture_dilute.
Print Assumptions C09_pure.
Print Assumptions C09_two_quadrupoles_refuted.
Print Assumptions C09_short_chain_refuted.
Print Assumptions C10_fmt_association.
Print Assumptions C10_chain.
Print Assumptions C10_attraction.
Print Assumptions C10_total.
Print Assumptions C10_dipole_quadrupole_refuted.
Print Assumptions C37_functional_ignores.
Print Assumptions C37_functional_refuted.
