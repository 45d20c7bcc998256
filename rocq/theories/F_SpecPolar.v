(** The polar contributions of the model are the textbook perturbation terms. *)
From Coq Require Import ZArith QArith Reals Lra Lia List Bool.
From Verif Require Import Num RNum RSum Tables M_Params F_Params M_Eos Spec F_Spec.
Import ListNotations.
Local Open Scope R_scope.

Lemma etas_R (eta : R) i : (i < 5)%nat -> @etas RNum eta i = eta ^ i.
Proof. intros. do 5 (destruct i; [simpl; rn; ring | ]). lia. Qed.

Lemma frac1_R (m : R) : @frac1 RNum m = q1 m.
Proof. reflexivity. Qed.
Lemma frac2_R (m : R) : @frac2 RNum m = q12 m.
Proof. unfold frac2, frac1, q12; rn. unfold Rdiv; ring. Qed.

Lemma pair_integral_R a b (m eta e : R) : (length a <= 5)%nat ->
  @pair_integral_ij RNum (@frac1 RNum m) (@frac2 RNum m) eta a b e
  = Sum l < length a, (cm a l m + cm b l m * e) * eta ^ l.
Proof.
  intros Hl. unfold pair_integral_ij. rewrite nsumi_R. apply Sum_ext; intros i Hi.
  rewrite etas_R, frac1_R, frac2_R by lia. unfold cm, lit2, cst2. rn. ring.
Qed.

Lemma triplet_integral_R c (m eta : R) : (length c <= 5)%nat ->
  @triplet_integral_ijk RNum (@frac1 RNum m) (@frac2 RNum m) eta c
  = Sum l < length c, cm c l m * eta ^ l.
Proof.
  intros Hl. unfold triplet_integral_ijk. rewrite nsumi_R. apply Sum_ext; intros i Hi.
  rewrite etas_R, frac1_R, frac2_R by lia. unfold cm, lit2, cst2. rn. ring.
Qed.

Lemma triplet_integral_dq_R c (m eta : R) : (length c <= 5)%nat ->
  @triplet_integral_ijk_dq RNum (@frac1 RNum m) eta c
  = Sum l < length c, (lit2 c l 0 + q1 m * lit2 c l 1) * eta ^ l.
Proof.
  intros Hl. unfold triplet_integral_ijk_dq. rewrite nsumi_R. apply Sum_ext; intros i Hi.
  rewrite etas_R, frac1_R by lia. unfold lit2, cst2. rn. ring.
Qed.

Lemma Sij_sym X i j : Sij X i j = Sij X j i.
Proof. unfold Sij; lra. Qed.
Lemma Eij0_sym X i j : Eij0 X i j = Eij0 X j i.
Proof. unfold Eij0; f_equal; ring. Qed.
Lemma m2_sym X i j : m2 X i j = m2 X j i.
Proof. unfold m2; f_equal; ring. Qed.
Lemma J2_sym X T r a b i j : J2 X T r a b i j = J2 X T r a b j i.
Proof. unfold J2. rewrite (m2_sym X i j), (Eij0_sym X i j). reflexivity. Qed.
Lemma J3_sym12 X T r c i j k : J3 X T r c i j k = J3 X T r c j i k.
Proof. unfold J3. replace (m3 X i j k) with (m3 X j i k) by (unfold m3; f_equal; ring). reflexivity. Qed.
Lemma J3_sym23 X T r c i j k : J3 X T r c i j k = J3 X T r c i k j.
Proof. unfold J3. replace (m3 X i j k) with (m3 X i k j) by (unfold m3; f_equal; ring). reflexivity. Qed.
Lemma Sij_diag X i : Sij X i i = Sg X i.
Proof. unfold Sij; lra. Qed.

Lemma ixn_filter (q : nat -> bool) n i :
  (i < length (filter q (seq 0 n)))%nat ->
  (ixn (filter q (seq 0 n)) i < n)%nat /\ q (ixn (filter q (seq 0 n)) i) = true.
Proof.
  intros H. assert (In (ixn (filter q (seq 0 n)) i) (filter q (seq 0 n))) as HI by (apply nth_In; auto).
  apply filter_In in HI. destruct HI as [HI E]. apply seq_in in HI. auto.
Qed.

Section Polar.
  Variable p : params RNum.
  Hypothesis W : wfp p.
  Hypothesis Hph : phys p.
  Let X := mix_of p.
  Let n := length (p_m p).
  Variables (t : R) (rl : list R) (rho : nat -> R).
  Hypothesis Hr : forall i, (i < n)%nat -> @ix RNum rl i = rho i.
  Let eta := Eta X t rho.

  Lemma mcap_spec i : @mcap RNum p i = mp X i.
  Proof. reflexivity. Qed.
  Lemma mp_pos i : (i < n)%nat -> 0 < mp X i.
  Proof. intros Hi. unfold mp. apply Rmin_pos; [apply Hph; auto | lra]. Qed.
  Lemma mseg2_spec i j : @mseg2 RNum p i j = m2 X i j.
  Proof. reflexivity. Qed.
  Lemma mseg3_spec i j k : @mseg3 RNum p i j k = m3 X i j k.
  Proof. reflexivity. Qed.
  Lemma m2_diag i : (i < n)%nat -> m2 X i i = mp X i.
  Proof. intros. unfold m2. apply sqrt_square. apply Rlt_le, mp_pos; auto. Qed.
  Lemma m3_diag i : (i < n)%nat -> m3 X i i i = mp X i.
  Proof. intros. unfold m3. apply Rcbrt_of_cube. apply mp_pos; auto. Qed.

  Lemma Sij_pos i j : (i < n)%nat -> (j < n)%nat -> 0 < Sij X i j.
  Proof.
    intros Hi Hj. unfold Sij. destruct (Hph i Hi) as (_ & ? & _). destruct (Hph j Hj) as (_ & ? & _).
    change (Sg X i) with (@ix RNum (p_sigma p) i). change (Sg X j) with (@ix RNum (p_sigma p) j).
    lra.
  Qed.

  Lemma J2_model a b i j : (length a <= 5)%nat -> (i < n)%nat -> (j < n)%nat ->
    @pair_integral_ij RNum (@frac1 RNum (@mseg2 RNum p i j)) (@frac2 RNum (@mseg2 RNum p i j)) eta a b
      (/ t * @ix2 RNum (p_e_k_ij p) i j) = J2 X t rho a b i j.
  Proof.
    intros La Hi Hj. rewrite pair_integral_R by auto. rewrite mseg2_spec, (w_eij0 _ W) by auto.
    unfold J2. fold eta. apply Sum_ext. intros l Hl. fold X. unfold Rdiv. ring.
  Qed.
  Lemma J2_model_diag a b i : (length a <= 5)%nat -> (i < n)%nat ->
    @pair_integral_ij RNum (@frac1 RNum (@mcap RNum p i)) (@frac2 RNum (@mcap RNum p i)) eta a b
      (/ t * @ix2 RNum (p_e_k_ij p) i i) = J2 X t rho a b i i.
  Proof.
    intros La Hi. rewrite <- J2_model by auto. rewrite mseg2_spec, m2_diag by auto. reflexivity.
  Qed.
  Lemma J3_model c i j k : (length c <= 5)%nat ->
    @triplet_integral_ijk RNum (@frac1 RNum (@mseg3 RNum p i j k)) (@frac2 RNum (@mseg3 RNum p i j k)) eta c
    = J3 X t rho c i j k.
  Proof. intros La. rewrite triplet_integral_R by auto. reflexivity. Qed.
  Lemma J3_model_diag c i : (length c <= 5)%nat -> (i < n)%nat ->
    @triplet_integral_ijk RNum (@frac1 RNum (@mcap RNum p i)) (@frac2 RNum (@mcap RNum p i)) eta c
    = J3 X t rho c i i i.
  Proof. intros La Hi. rewrite <- J3_model by auto. rewrite mseg3_spec, m3_diag by auto. reflexivity. Qed.
  Lemma J3dq_model i j k :
    @triplet_integral_ijk_dq RNum (@frac1 RNum (@mseg3 RNum p i j k)) eta CDQ = J3dq X t rho i j k.
  Proof. rewrite triplet_integral_dq_R by (simpl; lia). reflexivity. Qed.

  Ltac inv_norm := unfold Rdiv; rewrite <- ?pow_inv, ?Rinv_mult, <- ?pow_inv.
  Theorem dipole_phi2_spec : dipole_phi2 p t rl eta = dd2 X t rho.
  Proof.
    unfold dipole_phi2, dd2. rewrite nsubs_R, (w_nd _ W), (w_dip _ W). fold n.
    set (l := filter _ _).
    rewrite (tri2_list l (fun a b => rho a * rho b * Wi X t 3 a * Wi X t 3 b / Sij X a b ^ 3
       * Mu2 X a * Mu2 X b * J2 X t rho AD BD a b)).
    - unfold l. rewrite rsum_filter2.
      + rn. change (N X) with n. ring.
      + intros a b Ha Hb E. apply nonzero_R_false in E. change (Mu2 X a) with (@ix RNum (p_mu2 p) a).
        rewrite E. ring.
      + intros a b Ha Hb E. apply nonzero_R_false in E. change (Mu2 X b) with (@ix RNum (p_mu2 p) b).
        rewrite E. ring.
    - intros a b. rewrite (J2_sym _ _ _ _ _ a b), (Sij_sym _ a b). unfold Rdiv. ring.
    - intros i Hi. cbv zeta. destruct (ixn_filter _ _ _ Hi) as [Hd _]. fold l in Hd.
      set (d := ixn l i) in *.
      pose proof (J2_model_diag AD BD d ltac:(simpl; lia) Hd) as EJ. rn. rewrite EJ.
      rewrite !Hr by auto. rewrite !(w_sij _ W) by auto. fold X. rewrite Sij_diag.
      unfold Wi. change (@ix RNum (p_epsilon_k p)) with (Ep X). change (@ix RNum (p_mu2 p)) with (Mu2 X).
      unfold Rdiv. ring.
    - intros i j Hij Hj. assert (Hi : (i < length l)%nat) by lia. cbv zeta. destruct (ixn_filter _ _ _ Hi) as [Hd _]. fold l in Hd.
      destruct (ixn_filter _ _ _ Hj) as [He _]. fold l in He.
      set (d := ixn l i) in *. set (e := ixn l j) in *.
      pose proof (J2_model AD BD d e ltac:(simpl; lia) Hd He) as EJ. rn. rewrite EJ.
      rewrite !Hr by auto. rewrite !(w_sij _ W) by auto. fold X. rewrite ?Sij_diag.
      unfold Wi. change (@ix RNum (p_epsilon_k p)) with (Ep X). change (@ix RNum (p_mu2 p)) with (Mu2 X).
      unfold Rdiv. ring.
  Qed.


  Theorem dipole_phi3_spec : dipole_phi3 p t rl eta = dd3 X t rho.
  Proof.
    unfold dipole_phi3, dd3. rewrite nsubs_R, (w_nd _ W), (w_dip _ W). fold n.
    set (l := filter _ _).
    rewrite (tri3_list l (fun a b c => rho a * rho b * rho c * Wi X t 3 a * Wi X t 3 b * Wi X t 3 c
       / (Sij X a b * Sij X a c * Sij X b c)
       * Mu2 X a * Mu2 X b * Mu2 X c * J3 X t rho CD a b c)).
    - unfold l. rewrite rsum_filter3.
      + unfold pi_sq_43, frac_pi_3. change (N X) with n. set (S := rsum _ _). rn. field.
      + intros a b c _ _ _ E. apply nonzero_R_false in E. change (Mu2 X a) with (@ix RNum (p_mu2 p) a).
        rewrite E. ring.
      + intros a b c _ _ _ E. apply nonzero_R_false in E. change (Mu2 X b) with (@ix RNum (p_mu2 p) b).
        rewrite E. ring.
      + intros a b c _ _ _ E. apply nonzero_R_false in E. change (Mu2 X c) with (@ix RNum (p_mu2 p) c).
        rewrite E. ring.
    - intros a b c. rewrite (J3_sym12 _ _ _ _ a b c), (Sij_sym _ a b). inv_norm. ring.
    - intros a b c. rewrite (J3_sym23 _ _ _ _ a b c), (Sij_sym _ b c). inv_norm. ring.
    - intros i Hi. cbv zeta. destruct (ixn_filter _ _ _ Hi) as [Hd _]. fold l in Hd.
      set (d := ixn l i) in *.
      rewrite (J3_model_diag CD d) by (simpl; auto; lia). rn.
      rewrite !Hr by auto. rewrite !(w_sij _ W) by auto. fold X. rewrite ?Sij_diag.
      unfold Wi. change (@ix RNum (p_epsilon_k p)) with (Ep X). change (@ix RNum (p_mu2 p)) with (Mu2 X).
      inv_norm. ring.
    - intros i j Hi Hj. cbv zeta. destruct (ixn_filter _ _ _ Hi) as [Hd _]. fold l in Hd.
      destruct (ixn_filter _ _ _ Hj) as [He _]. fold l in He.
      set (d := ixn l i) in *. set (e := ixn l j) in *.
      rewrite (J3_model CD) by (simpl; auto; lia). rn.
      rewrite !Hr by auto. rewrite !(w_sij _ W) by auto. fold X. rewrite ?Sij_diag.
      unfold Wi. change (@ix RNum (p_epsilon_k p)) with (Ep X). change (@ix RNum (p_mu2 p)) with (Mu2 X).
      inv_norm. ring.
    - intros i j Hi Hj. cbv zeta. destruct (ixn_filter _ _ _ Hi) as [Hd _]. fold l in Hd.
      destruct (ixn_filter _ _ _ Hj) as [He _]. fold l in He.
      set (d := ixn l i) in *. set (e := ixn l j) in *.
      rewrite (J3_model CD) by (simpl; auto; lia). rn.
      rewrite !Hr by auto. rewrite !(w_sij _ W) by auto. fold X. rewrite ?Sij_diag.
      unfold Wi. change (@ix RNum (p_epsilon_k p)) with (Ep X). change (@ix RNum (p_mu2 p)) with (Mu2 X).
      inv_norm. ring.
    - intros i j k Hi Hj Hk. cbv zeta. destruct (ixn_filter _ _ _ Hi) as [Hd _]. fold l in Hd.
      destruct (ixn_filter _ _ _ Hj) as [He _]. fold l in He.
      destruct (ixn_filter _ _ _ Hk) as [Hf _]. fold l in Hf.
      set (d := ixn l i) in *. set (e := ixn l j) in *. set (f := ixn l k) in *.
      rewrite (J3_model CD) by (simpl; auto; lia). rn.
      rewrite !Hr by auto. rewrite !(w_sij _ W) by auto. fold X. rewrite ?Sij_diag.
      unfold Wi. change (@ix RNum (p_epsilon_k p)) with (Ep X). change (@ix RNum (p_mu2 p)) with (Mu2 X).
      inv_norm. ring.
  Qed.

  Theorem quad_phi3_spec : quad_phi3 p t rl eta = qq3 X t rho.
  Proof.
    unfold quad_phi3, qq3. rewrite nsum_R, (w_nq _ W), (w_quad _ W). fold n.
    set (l := filter _ _).
    rewrite (tri3_list l (fun a b c => rho a * rho b * rho c * Wi X t 5 a * Wi X t 5 b * Wi X t 5 c
       / (Sij X a b * Sij X a c * Sij X b c) ^ 3
       * Qu2 X a * Qu2 X b * Qu2 X c * J3 X t rho CQ a b c)).
    - unfold l. rewrite rsum_filter3.
      + change (N X) with n. set (S := rsum _ _). rn. field.
      + intros a b c _ _ _ E. apply nonzero_R_false in E. change (Qu2 X a) with (@ix RNum (p_q2 p) a).
        rewrite E. ring.
      + intros a b c _ _ _ E. apply nonzero_R_false in E. change (Qu2 X b) with (@ix RNum (p_q2 p) b).
        rewrite E. ring.
      + intros a b c _ _ _ E. apply nonzero_R_false in E. change (Qu2 X c) with (@ix RNum (p_q2 p) c).
        rewrite E. ring.
    - intros a b c. rewrite (J3_sym12 _ _ _ _ a b c), (Sij_sym _ a b). inv_norm. ring.
    - intros a b c. rewrite (J3_sym23 _ _ _ _ a b c), (Sij_sym _ b c). inv_norm. ring.
    - intros i Hi. cbv zeta. destruct (ixn_filter _ _ _ Hi) as [Hd _]. fold l in Hd.
      set (d := ixn l i) in *.
      rewrite (J3_model_diag CQ d) by (simpl; auto; lia). rn.
      rewrite !Hr by auto. rewrite !(w_sij _ W) by auto. fold X. rewrite ?Sij_diag.
      unfold Wi. change (@ix RNum (p_epsilon_k p)) with (Ep X). change (@ix RNum (p_q2 p)) with (Qu2 X).
      change (@ix RNum (p_sigma p)) with (Sg X). inv_norm. ring.
    - intros i j Hi Hj. cbv zeta. destruct (ixn_filter _ _ _ Hi) as [Hd _]. fold l in Hd.
      destruct (ixn_filter _ _ _ Hj) as [He _]. fold l in He.
      set (d := ixn l i) in *. set (e := ixn l j) in *.
      rewrite (J3_model CQ) by (simpl; auto; lia). rn.
      rewrite !Hr by auto. rewrite !(w_sij _ W) by auto. fold X. rewrite ?Sij_diag.
      unfold Wi. change (@ix RNum (p_epsilon_k p)) with (Ep X). change (@ix RNum (p_q2 p)) with (Qu2 X).
      change (@ix RNum (p_sigma p)) with (Sg X). inv_norm. ring.
    - intros i j Hi Hj. cbv zeta. destruct (ixn_filter _ _ _ Hi) as [Hd _]. fold l in Hd.
      destruct (ixn_filter _ _ _ Hj) as [He _]. fold l in He.
      set (d := ixn l i) in *. set (e := ixn l j) in *.
      rewrite (J3_model CQ) by (simpl; auto; lia). rn.
      rewrite !Hr by auto. rewrite !(w_sij _ W) by auto. fold X. rewrite ?Sij_diag.
      unfold Wi. change (@ix RNum (p_epsilon_k p)) with (Ep X). change (@ix RNum (p_q2 p)) with (Qu2 X).
      change (@ix RNum (p_sigma p)) with (Sg X). inv_norm. ring.
    - intros i j k Hi Hj Hk. cbv zeta. destruct (ixn_filter _ _ _ Hi) as [Hd _]. fold l in Hd.
      destruct (ixn_filter _ _ _ Hj) as [He _]. fold l in He.
      destruct (ixn_filter _ _ _ Hk) as [Hf _]. fold l in Hf.
      set (d := ixn l i) in *. set (e := ixn l j) in *. set (f := ixn l k) in *.
      rewrite (J3_model CQ) by (simpl; auto; lia). rn.
      rewrite !Hr by auto. rewrite !(w_sij _ W) by auto. fold X. rewrite ?Sij_diag.
      unfold Wi. change (@ix RNum (p_epsilon_k p)) with (Ep X). change (@ix RNum (p_q2 p)) with (Qu2 X).
      change (@ix RNum (p_sigma p)) with (Sg X). inv_norm. ring.
  Qed.

  Lemma ixn_sorted (q : nat -> bool) i j : (i < j)%nat -> (j < length (filter q (seq 0 n)))%nat ->
    (ixn (filter q (seq 0 n)) i < ixn (filter q (seq 0 n)) j)%nat.
  Proof.
    assert (S : Sorted.StronglySorted lt (filter q (seq 0 n))) by apply filter_sorted, seq_sorted.
    revert i j. induction S as [ | a l S IH F]; simpl; intros i j Hij Hj; [lia | ].
    destruct j as [ | j]; [lia | ]. destruct i as [ | i]; unfold ixn; simpl.
    - rewrite Forall_forall in F. apply F. apply nth_In. lia.
    - apply IH; lia.
  Qed.

  (** the quadrupole term of second order as the code evaluates it: the denominator uses the
      diameter of the component with the smaller index *)
  Definition qq2_code (X : mixture) (T : R) (rho : nat -> R) : R :=
    - PI * (3 / 4) ^ 2 * Sum i < N X, Sum j < N X,
    rho i * rho j * Wi X T 5 i * Wi X T 5 j / Sg X (Nat.min i j) ^ 7
    * Qu2 X i * Qu2 X j * J2 X T rho AQ BQ i j.

  Theorem quad_phi2_spec : quad_phi2 p t rl eta = qq2_code X t rho.
  Proof.
    unfold quad_phi2, qq2_code. rewrite nsubs_R, (w_nq _ W), (w_quad _ W). fold n.
    set (l := filter _ _).
    rewrite (tri2_list l (fun a b => rho a * rho b * Wi X t 5 a * Wi X t 5 b / Sg X (Nat.min a b) ^ 7
       * Qu2 X a * Qu2 X b * J2 X t rho AQ BQ a b)).
    - unfold l. rewrite rsum_filter2.
      + change (N X) with n. set (S := rsum _ _). rn. field.
      + intros a b Ha Hb E. apply nonzero_R_false in E. change (Qu2 X a) with (@ix RNum (p_q2 p) a).
        rewrite E. ring.
      + intros a b Ha Hb E. apply nonzero_R_false in E. change (Qu2 X b) with (@ix RNum (p_q2 p) b).
        rewrite E. ring.
    - intros a b. rewrite (J2_sym _ _ _ _ _ a b), (Nat.min_comm a b). unfold Rdiv. ring.
    - intros i Hi. cbv zeta. destruct (ixn_filter _ _ _ Hi) as [Hd _]. fold l in Hd.
      set (d := ixn l i) in *.
      pose proof (J2_model_diag AQ BQ d ltac:(simpl; lia) Hd) as EJ. rn. rewrite EJ.
      rewrite !Hr by auto. rewrite !(w_sij _ W) by auto. fold X. rewrite Sij_diag, Nat.min_id.
      unfold Wi. change (@ix RNum (p_epsilon_k p)) with (Ep X). change (@ix RNum (p_q2 p)) with (Qu2 X).
      change (@ix RNum (p_sigma p)) with (Sg X).
      unfold Rdiv. ring.
    - intros i j Hij Hj. assert (Hi : (i < length l)%nat) by lia. cbv zeta.
      destruct (ixn_filter _ _ _ Hi) as [Hd _]. fold l in Hd.
      destruct (ixn_filter _ _ _ Hj) as [He _]. fold l in He.
      assert (Hde := ixn_sorted _ _ _ Hij Hj). fold l in Hde.
      set (d := ixn l i) in *. set (e := ixn l j) in *.
      pose proof (J2_model AQ BQ d e ltac:(simpl; lia) Hd He) as EJ. rn. rewrite EJ.
      rewrite !Hr by auto. rewrite !(w_sij _ W) by auto. fold X. rewrite ?Sij_diag.
      rewrite Nat.min_l by lia.
      unfold Wi. change (@ix RNum (p_epsilon_k p)) with (Ep X). change (@ix RNum (p_q2 p)) with (Qu2 X).
      change (@ix RNum (p_sigma p)) with (Sg X).
      unfold Rdiv. ring.
  Qed.

  Definition dq_exps (var : dq_variant) : nat * nat :=
    match var with DQ35 => (3, 5)%nat | DQ44 => (4, 4)%nat end.

  Theorem dq_phi2_spec var :
    dq_phi2 p var t rl eta = dq2 X t rho (fst (dq_exps var)) (snd (dq_exps var)).
  Proof.
    unfold dq_phi2, dq2. rewrite nsubs_R, (w_nd _ W), (w_nq _ W), (w_dip _ W), (w_quad _ W). fold n.
    set (l := filter (fun i => nonzero (ix (p_mu2 p) i)) _).
    set (l' := filter (fun i => nonzero (ix (p_q2 p) i)) _).
    rewrite rsum_flat_map. unfold mk1.
    rewrite (Sum_ext (length l) _ (fun i => Sum j < length l',
      (fun a b => rho a * rho b * Wi X t (fst (dq_exps var)) a * Wi X t (snd (dq_exps var)) b
       / Sij X a b ^ 5 * Mu2 X a * Qu2 X b * J2 X t rho ADQ BDQ a b) (ixn l i) (ixn l' j))).
    2:{ intros i Hi. rewrite rsum_map. apply Sum_ext; intros j Hj. cbv zeta.
      destruct (ixn_filter _ _ _ Hi) as [Hd _]. fold l in Hd.
      destruct (ixn_filter _ _ _ Hj) as [He _]. fold l' in He.
      set (d := ixn l i) in *. set (e := ixn l' j) in *.
      pose proof (J2_model ADQ BDQ d e ltac:(simpl; lia) Hd He) as EJ. rn. rewrite EJ.
      rewrite !Hr by auto. rewrite !(w_sij _ W) by auto. fold X.
      destruct (Hph d Hd) as (_ & Sp & _). change (@ix RNum (p_sigma p)) with (Sg X) in *.
      unfold Wi. change (@ix RNum (p_epsilon_k p)) with (Ep X). change (@ix RNum (p_q2 p)) with (Qu2 X).
      change (@ix RNum (p_mu2 p)) with (Mu2 X).
      destruct var; simpl fst; simpl snd; rn.
      - unfold Rdiv. set (it := / t). clearbody it. replace (it * Sg X d ^ 4 * Ep X d * Mu2 X d * / Sg X d)
          with (it * Sg X d ^ 3 * Ep X d * Mu2 X d) by (field; lra). ring.
      - unfold Rdiv. ring. }
    rewrite (rect2_list l l' _ (fun a b => rho a * rho b * Wi X t (fst (dq_exps var)) a * Wi X t (snd (dq_exps var)) b
       / Sij X a b ^ 5 * Mu2 X a * Qu2 X b * J2 X t rho ADQ BDQ a b)) by auto.
    unfold l, l'. rewrite rsum_filter2.
    + change (N X) with n. set (S := rsum _ _). rn. field.
    + intros a b Ha Hb E. apply nonzero_R_false in E. change (Mu2 X a) with (@ix RNum (p_mu2 p) a).
      rewrite E. ring.
    + intros a b Ha Hb E. apply nonzero_R_false in E. change (Qu2 X b) with (@ix RNum (p_q2 p) b).
      rewrite E. ring.
  Qed.

  Theorem dq_phi3_spec : dq_phi3 p t rl eta = dq3 X t rho.
  Proof.
    unfold dq_phi3, dq3. rewrite nsum_R, (w_nd _ W), (w_nq _ W), (w_dip _ W), (w_quad _ W). fold n.
    set (l := filter (fun i => nonzero (ix (p_mu2 p) i)) _).
    set (l' := filter (fun i => nonzero (ix (p_q2 p) i)) _).
    set (G := fun i j k => rho i * rho j * rho k * Wi X t 4 i * Wi X t 4 j * Wi X t 4 k
       / (Sij X i j * Sij X i k * Sij X j k) ^ 2 * J3dq X t rho i j k).
    rewrite rsum_flat_map.
    rewrite (Sum_ext (length l) _ (fun i => Sum j < length l',
      (fun a b => rsum l (fun c => G a b c * (Mu2 X a * Qu2 X b * Mu2 X c))
                + rsum l' (fun c => G a b c * (Rlit ALPHA * Mu2 X a * Qu2 X b * Qu2 X c)))
      (ixn l i) (ixn l' j))).
    2:{ intros i Hi. rewrite rsum_flat_map. apply Sum_ext; intros j Hj. cbv zeta.
      rewrite rsum_app. unfold mk1. rewrite !rsum_map.
      rewrite (rsum_nth l 0%nat), (rsum_nth l' 0%nat).
      destruct (ixn_filter _ _ _ Hi) as [Hd _]. fold l in Hd.
      destruct (ixn_filter _ _ _ Hj) as [He _]. fold l' in He.
      set (d := ixn l i) in *. set (e := ixn l' j) in *.
      f_equal; apply Sum_ext; intros k Hk.
      - destruct (ixn_filter _ _ _ Hk) as [Hf _]. fold l in Hf.
        change (nth k l 0%nat) with (ixn l k). set (f := ixn l k) in *. rewrite J3dq_model.
        rewrite !Hr by auto. rewrite !(w_sij _ W) by auto. fold X.
        unfold G, Wi. rn. change (@ix RNum (p_epsilon_k p)) with (Ep X). change (@ix RNum (p_q2 p)) with (Qu2 X).
        change (@ix RNum (p_mu2 p)) with (Mu2 X). change (@ix RNum (p_sigma p)) with (Sg X).
        unfold Rdiv. ring.
      - destruct (ixn_filter _ _ _ Hk) as [Hf _]. fold l' in Hf.
        change (nth k l' 0%nat) with (ixn l' k). set (f := ixn l' k) in *. rewrite J3dq_model.
        rewrite !Hr by auto. rewrite !(w_sij _ W) by auto. fold X.
        change (@nlit RNum ALPHA) with (Rlit ALPHA). set (al := Rlit ALPHA).
        unfold G, Wi. rn. change (@ix RNum (p_epsilon_k p)) with (Ep X). change (@ix RNum (p_q2 p)) with (Qu2 X).
        change (@ix RNum (p_mu2 p)) with (Mu2 X). change (@ix RNum (p_sigma p)) with (Sg X).
        unfold Rdiv. ring. }
    rewrite (rect2_list l l' _ (fun a b => rsum l (fun c => G a b c * (Mu2 X a * Qu2 X b * Mu2 X c))
                + rsum l' (fun c => G a b c * (Rlit ALPHA * Mu2 X a * Qu2 X b * Qu2 X c)))) by auto.
    rewrite (rsum_ext l _ (fun a => rsum l' (fun b => rsum l (fun c => G a b c * (Mu2 X a * Qu2 X b * Mu2 X c)))
       + rsum l' (fun b => rsum l' (fun c => G a b c * (Rlit ALPHA * Mu2 X a * Qu2 X b * Qu2 X c)))))
      by (intros; apply rsum_plus).
    rewrite rsum_plus. unfold l, l'.
    assert (Hmu : forall a, nonzero (@ix RNum (p_mu2 p) a) = false -> Mu2 X a = 0)
      by (intros a E; apply nonzero_R_false in E; auto).
    assert (Hq : forall a, nonzero (@ix RNum (p_q2 p) a) = false -> Qu2 X a = 0)
      by (intros a E; apply nonzero_R_false in E; auto).
    rewrite rsum_filter3; [ | intros a b c _ _ _ E ..].
    rewrite rsum_filter3; [ | intros a b c _ _ _ E ..].
    - rewrite <- rsum_plus.
      rewrite (Sum_ext n _ (fun i => Sum j < n, Sum k < n, rho i * rho j * rho k * Wi X t 4 i * Wi X t 4 j * Wi X t 4 k
        / (Sij X i j * Sij X i k * Sij X j k) ^ 2
        * (Mu2 X i * Qu2 X j * Mu2 X k + Rlit ALPHA * Mu2 X i * Qu2 X j * Qu2 X k) * J3dq X t rho i j k)).
      + change (N X) with n. set (S := rsum _ _). rn. ring.
      + intros i _. rewrite <- rsum_plus. apply Sum_ext; intros j _. rewrite <- rsum_plus.
        apply Sum_ext; intros k _. unfold G. ring.
    - rewrite (Hmu a) by auto. ring.
    - rewrite (Hq b) by auto. ring.
    - rewrite (Hq c) by auto. ring.
    - rewrite (Hmu a) by auto. ring.
    - rewrite (Hq b) by auto. ring.
    - rewrite (Hmu c) by auto. ring.
  Qed.
End Polar.
