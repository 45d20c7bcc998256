(** The functional in a homogeneous fluid: the contributions of src/dft evaluated with the
    weighted densities of a uniform density profile are the textbook energy densities. *)
From Coq Require Import ZArith QArith Reals Lra Lia List Bool Psatz.
From Verif Require Import Num RNum RSum Tables M_Params F_Params M_Eos M_Dft Spec F_Spec F_SpecPolar
  F_SpecAssoc F_Contrib.
Import ListNotations.
Local Open Scope R_scope.

Lemma nsumi_ext (n : nat) (f g : nat -> R) : (forall i, (i < n)%nat -> f i = g i) ->
  @nsumi RNum n f = @nsumi RNum n g.
Proof. intros H. rewrite !nsumi_R. apply Sum_ext; auto. Qed.

Lemma ix_app1 (a b : list R) i : (i < length a)%nat -> @ix RNum (a ++ b) i = @ix RNum a i.
Proof. intros. unfold ix. apply app_nth1; auto. Qed.
Lemma ix_app2 (a b : list R) i : (length a <= i)%nat -> @ix RNum (a ++ b) i = @ix RNum b (i - length a).
Proof. intros. unfold ix. apply app_nth2; auto. Qed.

Lemma d_pade_R (a b : R) : @d_pade RNum a b = pade2 a b.
Proof. unfold d_pade, pade2. cbn [nisnan RNum]. rn. unfold Rdiv. ring. Qed.

Lemma d_pair_integral_R a b (m1 m2 eta e : R) :
  @d_pair_integral_ij RNum m1 m2 eta a b e = @pair_integral_ij RNum m1 m2 eta a b e.
Proof.
  unfold d_pair_integral_ij, pair_integral_ij. apply nsumi_ext. intros i _.
  unfold cst2. change (@nlit RNum) with Rlit.
  set (x := Rlit (nth 0 (nth i a nil) 0%Q)). set (y := Rlit (nth 0 (nth i b nil) 0%Q)).
  set (x1 := Rlit (nth 1 (nth i a nil) 0%Q)). set (y1 := Rlit (nth 1 (nth i b nil) 0%Q)).
  set (x2 := Rlit (nth 2 (nth i a nil) 0%Q)). set (y2 := Rlit (nth 2 (nth i b nil) 0%Q)).
  clearbody x y x1 y1 x2 y2. rn. ring.
Qed.
Lemma d_triplet_integral_R c (m1 m2 eta : R) :
  @d_triplet_integral_ijk RNum m1 m2 eta c = @triplet_integral_ijk RNum m1 m2 eta c.
Proof.
  unfold d_triplet_integral_ijk, triplet_integral_ijk. apply nsumi_ext. intros i _.
  unfold cst2. change (@nlit RNum) with Rlit.
  set (x := Rlit (nth 0 (nth i c nil) 0%Q)). 
  set (x1 := Rlit (nth 1 (nth i c nil) 0%Q)). 
  set (x2 := Rlit (nth 2 (nth i c nil) 0%Q)). 
  clearbody x x1 x2. rn. ring.
Qed.
Lemma d_triplet_integral_dq_R c (m1 eta : R) :
  @d_triplet_integral_ijk_dq RNum m1 eta c = @triplet_integral_ijk_dq RNum m1 eta c.
Proof.
  unfold d_triplet_integral_ijk_dq, triplet_integral_ijk_dq. apply nsumi_ext. intros i _.
  unfold cst2. change (@nlit RNum) with Rlit.
  set (x := Rlit (nth 0 (nth i c nil) 0%Q)). 
  set (x1 := Rlit (nth 1 (nth i c nil) 0%Q)). 
  clearbody x x1. rn. ring.
Qed.

(** list sums term by term *)
Lemma nsubs_map_ext {A} (l : list A) (f g : A -> R) : (forall x, In x l -> f x = g x) ->
  @nsubs RNum (map f l) = @nsubs RNum (map g l).
Proof. intros H. f_equal. apply map_ext_in. auto. Qed.
Lemma mk1_ext {A} n (f g : nat -> A) : (forall i, (i < n)%nat -> f i = g i) -> mk1 n f = mk1 n g.
Proof. intros H. unfold mk1. apply map_ext_in. intros i Hi. apply in_seq in Hi. apply H. lia. Qed.
Lemma flat_map_ext_in {A B} (l : list A) (f g : A -> list B) : (forall x, In x l -> f x = g x) ->
  flat_map f l = flat_map g l.
Proof.
  induction l as [ | a l IH]; intros H; simpl; auto. rewrite IH, H; auto; [left; auto | ].
  intros; apply H; right; auto.
Qed.
Lemma in_above i n j : In j (above i n) -> (i < j < n)%nat.
Proof. unfold above. intros H. apply in_seq in H. lia. Qed.
Lemma tri2_ext n d o d' o' :
  (forall i, (i < n)%nat -> d i = d' i) ->
  (forall i j, (i < j)%nat -> (j < n)%nat -> o i j = o' i j) ->
  @tri2 RNum n d o = @tri2 RNum n d' o'.
Proof.
  intros H1 H2. unfold tri2. apply flat_map_ext_in. intros i Hi. apply in_seq in Hi.
  rewrite H1 by lia. f_equal. apply map_ext_in. intros j Hj. apply in_above in Hj. apply H2; lia.
Qed.
Lemma tri3_ext n d a b c d' a' b' c' :
  (forall i, (i < n)%nat -> d i = d' i) ->
  (forall i j, (i < j)%nat -> (j < n)%nat -> a i j = a' i j) ->
  (forall i j, (i < j)%nat -> (j < n)%nat -> b i j = b' i j) ->
  (forall i j k, (i < j)%nat -> (j < k)%nat -> (k < n)%nat -> c i j k = c' i j k) ->
  @tri3 RNum n d a b c = @tri3 RNum n d' a' b' c'.
Proof.
  intros H1 H2 H3 H4. unfold tri3. apply flat_map_ext_in. intros i Hi. apply in_seq in Hi.
  rewrite H1 by lia. f_equal. apply flat_map_ext_in. intros j Hj. apply in_above in Hj.
  rewrite H2, H3 by lia. do 2 f_equal. apply map_ext_in. intros k Hk. apply in_above in Hk. apply H4; lia.
Qed.

Section Polar.
  Variable p : params RNum.
  Hypothesis W : wfp p.
  Hypothesis Hph : phys p.
  Let n := length (p_m p).
  Variables (t : R) (rl : list R) (eta : R).

  Lemma e_diag i : (i < n)%nat -> @ix2 RNum (p_e_k_ij p) i i = @ix RNum (p_epsilon_k p) i.
  Proof.
    intros Hi. rewrite (w_eij0 _ W) by auto. unfold Eij0. mx. apply sqrt_square.
    left. apply Hph; auto.
  Qed.
  Lemma s_diag i : (i < n)%nat -> @ix2 RNum (p_sigma_ij p) i i = @ix RNum (p_sigma p) i.
  Proof. intros Hi. rewrite (w_sij _ W) by auto. apply Sij_diag. Qed.
  Lemma dip_lt i : (i < p_ndipole p)%nat -> (ixn (p_dipole_comp p) i < n)%nat.
  Proof. rewrite (w_nd _ W), (w_dip _ W). intros H. apply ixn_filter in H. apply H. Qed.
  Lemma quad_lt i : (i < p_nquadpole p)%nat -> (ixn (p_quadpole_comp p) i < n)%nat.
  Proof. rewrite (w_nq _ W), (w_quad _ W). intros H. apply ixn_filter in H. apply H. Qed.

  Ltac diag d := rewrite ?(e_diag d), ?(s_diag d) by auto.
  Ltac intg := rewrite ?d_pair_integral_R, ?d_triplet_integral_R, ?d_triplet_integral_dq_R.

  Lemma d_dipole_phi2_eq : d_dipole_phi2 p t rl eta = dipole_phi2 p t rl eta.
  Proof.
    unfold d_dipole_phi2, dipole_phi2. f_equal. f_equal. apply tri2_ext.
    - intros i Hi. cbv zeta. apply dip_lt in Hi. set (d := ixn _ i) in *. diag d. intg.
      set (J := pair_integral_ij _ _ _ _ _ _). rn. unfold Rdiv. ring.
    - intros i j Hij Hj. cbv zeta. assert (Hi : (i < p_ndipole p)%nat) by lia.
      apply dip_lt in Hi, Hj. set (d := ixn _ i) in *. set (e := ixn _ j) in *. diag d. diag e. intg.
      set (J := pair_integral_ij _ _ _ _ _ _). rn. unfold Rdiv. ring.
  Qed.
  Lemma d_dipole_phi3_eq : d_dipole_phi3 p t rl eta = dipole_phi3 p t rl eta.
  Proof.
    unfold d_dipole_phi3, dipole_phi3. f_equal. f_equal. apply tri3_ext.
    - intros i Hi. cbv zeta. apply dip_lt in Hi. set (d := ixn _ i) in *. diag d. intg.
      set (J := triplet_integral_ijk _ _ _ _). rn. unfold Rdiv. ring.
    - intros i j Hij Hj. cbv zeta. assert (Hi : (i < p_ndipole p)%nat) by lia.
      apply dip_lt in Hi, Hj. set (d := ixn _ i) in *. set (e := ixn _ j) in *. diag d. diag e. intg.
      set (J := triplet_integral_ijk _ _ _ _). rn. unfold Rdiv. ring.
    - intros i j Hij Hj. cbv zeta. assert (Hi : (i < p_ndipole p)%nat) by lia.
      apply dip_lt in Hi, Hj. set (d := ixn _ i) in *. set (e := ixn _ j) in *. diag d. diag e. intg.
      set (J := triplet_integral_ijk _ _ _ _). rn. unfold Rdiv. ring.
    - intros i j k Hij Hjk Hk. cbv zeta. assert (Hi : (i < p_ndipole p)%nat) by lia.
      assert (Hj : (j < p_ndipole p)%nat) by lia.
      apply dip_lt in Hi, Hj, Hk. set (d := ixn _ i) in *. set (e := ixn _ j) in *. set (f := ixn _ k) in *.
      diag d. diag e. diag f. intg.
      set (J := triplet_integral_ijk _ _ _ _). rn. unfold Rdiv. ring.
  Qed.
  Lemma d_quad_phi3_eq : d_quad_phi3 p t rl eta = quad_phi3 p t rl eta.
  Proof.
    unfold d_quad_phi3, quad_phi3. f_equal. f_equal. apply tri3_ext.
    - intros i Hi. cbv zeta. apply quad_lt in Hi. set (d := ixn _ i) in *. diag d. intg.
      set (J := triplet_integral_ijk _ _ _ _). rn. unfold Rdiv. ring.
    - intros i j Hij Hj. cbv zeta. assert (Hi : (i < p_nquadpole p)%nat) by lia.
      apply quad_lt in Hi, Hj. set (d := ixn _ i) in *. set (e := ixn _ j) in *. diag d. diag e. intg.
      set (J := triplet_integral_ijk _ _ _ _). rn. unfold Rdiv. ring.
    - intros i j Hij Hj. cbv zeta. assert (Hi : (i < p_nquadpole p)%nat) by lia.
      apply quad_lt in Hi, Hj. set (d := ixn _ i) in *. set (e := ixn _ j) in *. diag d. diag e. intg.
      set (J := triplet_integral_ijk _ _ _ _). rn. unfold Rdiv. ring.
    - intros i j k Hij Hjk Hk. cbv zeta. assert (Hi : (i < p_nquadpole p)%nat) by lia.
      assert (Hj : (j < p_nquadpole p)%nat) by lia.
      apply quad_lt in Hi, Hj, Hk. set (d := ixn _ i) in *. set (e := ixn _ j) in *. set (f := ixn _ k) in *.
      diag d. diag e. diag f. intg.
      set (J := triplet_integral_ijk _ _ _ _). rn. unfold Rdiv. ring.
  Qed.
  (** with one quadrupolar component the missing factor has no effect *)
  Lemma d_quad_phi2_eq : (p_nquadpole p <= 1)%nat -> d_quad_phi2 p t rl eta = quad_phi2 p t rl eta.
  Proof.
    intros H1. unfold d_quad_phi2, quad_phi2. f_equal. f_equal. apply tri2_ext.
    - intros i Hi. cbv zeta. apply quad_lt in Hi. set (d := ixn _ i) in *. diag d. intg.
      set (J := pair_integral_ij _ _ _ _ _ _). rn. unfold Rdiv. ring.
    - intros; lia.
  Qed.
  Lemma d_dq_phi2_eq : d_dq_phi2 p t rl eta = dq_phi2 p DQ35 t rl eta.
  Proof.
    unfold d_dq_phi2, dq_phi2. f_equal. f_equal. apply flat_map_ext_in. intros i Hi. apply in_seq in Hi.
    apply mk1_ext. intros j Hj. cbv zeta. assert (Hi' : (i < p_ndipole p)%nat) by lia.
    apply dip_lt in Hi'. apply quad_lt in Hj. set (d := ixn _ i) in *. set (e := ixn _ j) in *.
    diag d. diag e. intg. set (J := pair_integral_ij _ _ _ _ _ _). rn. unfold Rdiv. ring.
  Qed.
  Lemma d_dq_phi3_eq : d_dq_phi3 p t rl eta = dq_phi3 p t rl eta.
  Proof.
    unfold d_dq_phi3, dq_phi3. f_equal. f_equal. apply flat_map_ext_in. intros i Hi. apply in_seq in Hi.
    apply flat_map_ext_in. intros j Hj. apply in_seq in Hj.
    assert (Hi' : (i < p_ndipole p)%nat) by lia. assert (Hj' : (j < p_nquadpole p)%nat) by lia.
    apply dip_lt in Hi'. apply quad_lt in Hj'. cbv zeta.
    f_equal; apply mk1_ext; intros k Hk.
    - apply dip_lt in Hk. set (d := ixn _ i) in *. set (e := ixn _ j) in *. set (f := ixn _ k) in *.
      diag d. diag e. diag f. intg. set (J := triplet_integral_ijk_dq _ _ _). rn. unfold Rdiv. ring.
    - apply quad_lt in Hk. set (d := ixn _ i) in *. set (e := ixn _ j) in *. set (f := ixn _ k) in *.
      diag d. diag e. diag f. intg. set (J := triplet_integral_ijk_dq _ _ _). rn. unfold Rdiv. ring.
  Qed.
End Polar.

Lemma f_eps_pos : 0 < @f_eps RNum.
Proof. unfold f_eps; rn; lits; lra. Qed.

Lemma flat_map_len {A} (l : list A) m (f : nat -> R) : length (flat_map (fun _ => mk1 m f) l) = (length l * m)%nat.
Proof. induction l; cbn [flat_map length Nat.mul]; auto. rewrite app_length, mk1_length. lia. Qed.
Ltac lenR := change (@length (car RNum)) with (@length R).

Section Bulk.
  Variable p : params RNum.
  Hypothesis W : wfp p.
  Hypothesis Hph : phys p.
  Let X := mix_of p.
  Let n := length (p_m p).
  Variables (t v : R) (moles : list R).
  Hypothesis PS : phys_state p t v moles.
  Let s := @state_new RNum t v moles.
  Let rl : list R := s_rho s.
  Let rho i := nth i moles 0 / v.

  Lemma Lrl : length rl = n.
  Proof. unfold rl, s, state_new; cbn [s_rho]. rewrite map_length. apply (ps_len _ _ _ _ PS). Qed.
  Lemma Lhs : @length R (@hs_diameter RNum p t) = n.
  Proof. unfold hs_diameter. rewrite mk1_length. apply (w_ns _ W). Qed.
  Lemma Lsr : @length R (@seg_radius RNum p t) = n.
  Proof. unfold seg_radius. lenR; rewrite map_length. apply Lhs. Qed.
  Let Hv : 0 < v := ps_v _ _ _ _ PS.
  Let Ht : 0 < t := ps_t _ _ _ _ PS.
  Lemma rl_ix i : (i < n)%nat -> @ix RNum rl i = rho i.
  Proof. intros. apply (s_rho_ix p t v moles); auto. apply (ps_len _ _ _ _ PS). Qed.
  Lemma hs_ix i : (i < n)%nat -> @ix RNum (hs_diameter p t) i = Di X t i.
  Proof. apply hs_diameter_spec; auto. Qed.
  Lemma sr_ix i : (i < n)%nat -> @ix RNum (seg_radius p t) i = Di X t i / 2.
  Proof. apply seg_radius_spec; auto. Qed.
  Lemma hs_pos i : (i < n)%nat -> 0 < Di X t i.
  Proof. apply (Di_pos p Hph); auto. Qed.

  (** normalised weight functions leave a uniform density unchanged *)
  Lemma scaled_weight (r : list R) sh i : (i < length r)%nat -> sh <> DeltaVec -> 0 < @ix RNum r i ->
    @bulk_weight RNum (@wf_scaled RNum r sh) i = 1.
  Proof.
    intros Hi Hs Hr. unfold bulk_weight, wf_scaled. cbn [wf_prefactor wf_radius wf_sh].
    rewrite (ix_map (K := RNum) _ _ _ 0) by auto. change (nth i r 0) with (@ix RNum r i).
    set (x := @ix RNum r i) in *. pose proof PI_RGT_0.
    destruct sh; unfold shape_integral, frac_pi_3; rn; [field | field | congruence]; repeat split; lra.
  Qed.

  Theorem packing_eta : packing p t rl = Eta X t rho.
  Proof. apply packing_spec; auto. apply (ps_len _ _ _ _ PS). Qed.
  Theorem att_eta_spec : att_eta p t rl = Eta X t rho.
  Proof.
    unfold att_eta, Eta, Zeta. rewrite nsumi_R, <- rsum_scal. apply Sum_ext. intros i Hi.
    rewrite rl_ix, sr_ix by auto. unfold frac_pi_3. change (M X i) with (@ix RNum (p_m p) i).
    set (d := Di X t i). set (m := @ix RNum (p_m p) i). rn. field.
  Qed.

  (* ------------------------------------------------------------------------ chain *)

  Let z2 := Zeta X t rho 2.
  Let z3 := Zeta X t rho 3.

  Lemma chain_wd dim :
    bulk_wd (chain_weight_functions p t) dim rl = rl ++ mk1 n (fun i => @ix RNum rl i) ++ [z2; z3].
  Proof.
    unfold bulk_wd, chain_weight_functions. change (@length (car RNum) rl) with (@length R rl). rewrite Lrl. cbn [wi_local wi_comp wi_fmt].
    cbn [filter is_vec wf_scaled wf_sh negb flat_map map]. rewrite !app_nil_r.
    assert (E1 : forall i, (i < n)%nat -> @bulk_weight RNum (wf_scaled (hs_diameter p t) M_Dft.Delta) i = 1).
    { intros i Hi. apply scaled_weight; [lenR; rewrite Lhs; auto | discriminate | rewrite hs_ix; auto; apply hs_pos; auto]. }
    rewrite (mk1_ext n _ (fun i => @ix RNum rl i)).
    2:{ intros i Hi. rewrite E1 by auto. apply Rmult_1_l. }
    lenR. rewrite Lhs. cbn [app]. f_equal. f_equal. f_equal; [ | f_equal].
    - rewrite nsumi_R. unfold z2, Zeta. rewrite <- rsum_scal. apply Sum_ext. intros i Hi.
      unfold bulk_weight. cbn [wf_prefactor wf_radius wf_sh shape_integral].
      change (@ix RNum (mk1 n (fun i0 => (ix (p_m p) i0 / (ix (hs_diameter p t) i0 * $8))%num)) i)
        with (@ix RNum (mk1 n (fun i0 => (ix (p_m p) i0 / (ix (hs_diameter p t) i0 * $8))%num)) i).
      rewrite (ix_mk1 (K := RNum)) by auto. rewrite rl_ix, hs_ix by auto. unfold frac_pi_3.
      change (M X i) with (@ix RNum (p_m p) i). pose proof (hs_pos i Hi).
      set (d := Di X t i) in *. set (m := @ix RNum (p_m p) i). rn. field. lra.
    - rewrite nsumi_R. unfold z3, Zeta. rewrite <- rsum_scal. apply Sum_ext. intros i Hi.
      unfold bulk_weight. cbn [wf_prefactor wf_radius wf_sh shape_integral].
      rewrite (ix_map (K := RNum) _ _ _ 0) by auto. rewrite rl_ix, hs_ix by auto. unfold frac_pi_3.
      change (M X i) with (@ix RNum (p_m p) i). change (nth i (p_m p) 0) with (@ix RNum (p_m p) i).
      set (d := Di X t i) in *. set (m := @ix RNum (p_m p) i). rn. field.
  Qed.

  Lemma chain_yi_spec i : (i < n)%nat ->
    @chain_yi RNum (Di X t i) z2 (/ (1 - z3)) = Gij X t rho i i.
  Proof.
    intros Hi. unfold chain_yi, Gij. fold z2 z3. pose proof (hs_pos i Hi).
    assert (z3 < 1) by apply (ps_eta _ _ _ _ PS). rn. field. lra.
  Qed.
  Lemma z2_pos : 0 < z2.
  Proof. apply (Zeta_pos p Hph t v moles PS). Qed.
  Lemma z3_pos : 0 < z3.
  Proof. apply (Zeta_pos p Hph t v moles PS). Qed.
  Lemma z3_lt1 : z3 < 1.
  Proof. apply (ps_eta _ _ _ _ PS). Qed.
  Lemma Gii_pos i : (i < n)%nat -> 0 < Gij X t rho i i.
  Proof.
    intros Hi. unfold Gij. fold z2 z3. pose proof (hs_pos i Hi). pose proof z2_pos. pose proof z3_lt1.
    assert (0 < 1 - z3) by lra.
    assert (0 < Di X t i * Di X t i / (Di X t i + Di X t i)).
    { apply Rdiv_lt_0_compat; [apply Rmult_lt_0_compat | ]; lra. }
    set (D := Di X t i * Di X t i / _) in *.
    assert (0 < 1 / (1 - z3)) by (apply Rdiv_lt_0_compat; lra).
    assert (0 < D * (3 * z2 / (1 - z3) ^ 2)).
    { apply Rmult_lt_0_compat; auto. apply Rdiv_lt_0_compat; [lra | apply pow_lt; auto]. }
    assert (0 < D ^ 2 * (2 * z2 ^ 2 / (1 - z3) ^ 3)).
    { apply Rmult_lt_0_compat; [apply pow_lt; auto | ]. apply Rdiv_lt_0_compat; [ | apply pow_lt; auto].
      apply Rmult_lt_0_compat; [lra | apply pow_lt; auto]. }
    lra.
  Qed.
  Lemma rho_ge i : (i < n)%nat -> 0 <= rho i.
  Proof. intros Hi. apply (rho_nonneg p t v moles PS i Hi). Qed.
  Lemma lambda_reg_R (l : R) : 0 <= l -> @lambda_reg RNum l = l + @f_eps RNum.
  Proof.
    intros H. unfold lambda_reg. rn. destruct (Rltb l 0) eqn:E; auto. apply Rltb_true in E. lra.
  Qed.

  (** energy density of the chain functional in terms of the uniform densities *)
  Theorem phi_chain_spec dim :
    phi_chain p t (bulk_wd (chain_weight_functions p t) dim rl)
    = f_hc X t rho - Sum i < n, rho i * (@ix RNum (p_m p) i - 1) * (ln (rho i + @f_eps RNum) - 1).
  Proof.
    rewrite chain_wd. unfold phi_chain.
    set (wd := rl ++ mk1 n (fun i => @ix RNum rl i) ++ [z2; z3]).
    assert (Lw : length wd = (2 * n + 2)%nat).
    { unfold wd. rewrite !app_length, mk1_length, Lrl. cbn [length]. lia. }
    change (@length (car RNum) wd) with (@length R wd). rewrite Lw.
    replace (Nat.div (2 * n + 2 - 2) 2) with n.
    2:{ replace (2 * n + 2 - 2)%nat with (n * 2)%nat by lia. symmetry. apply Nat.div_mul. lia. }
    assert (E2 : @ix RNum wd (2 * n) = z2).
    { unfold wd. rewrite ix_app2, ix_app2; rewrite ?Lrl, ?mk1_length; try lia.
      replace (2 * n - n - n)%nat with 0%nat by lia. reflexivity. }
    assert (E3 : @ix RNum wd (2 * n + 1) = z3).
    { unfold wd. rewrite ix_app2, ix_app2; rewrite ?Lrl, ?mk1_length; try lia.
      replace (2 * n + 1 - n - n)%nat with 1%nat by lia. reflexivity. }
    cbv zeta. rewrite E2, E3. rewrite nsubs_R. unfold mk1. rewrite rsum_map.
    unfold f_hc. change (N X) with n. rewrite <- !rsum_opp.
    rewrite <- rsum_minus. apply Sum_ext. intros i Hi.
    assert (Ei : @ix RNum wd i = rho i).
    { unfold wd. rewrite ix_app1 by (rewrite Lrl; auto). apply rl_ix; auto. }
    assert (En : @ix RNum wd (n + i) = rho i).
    { unfold wd. rewrite ix_app2, ix_app1; rewrite ?Lrl, ?mk1_length; try lia.
      replace (n + i - n)%nat with i by lia. rewrite (ix_mk1 (K := RNum)) by auto. apply rl_ix; auto. }
    rewrite Ei, En, hs_ix by auto.
    change (M X i) with (@ix RNum (p_m p) i).
    pose proof (rho_ge i Hi). pose proof f_eps_pos.
    rewrite lambda_reg_R by auto.
    replace (@nrecip RNum (@nadd RNum (@nopp RNum z3) (@nlit RNum 1))) with (/ (1 - z3)) by (rn; f_equal; lra).
    rewrite chain_yi_spec by auto. rn. rewrite ln_mult; [ring | apply Gii_pos; auto | ].
    apply Rplus_le_lt_0_compat; auto. 
  Qed.
  Lemma ext_ideal_chain_spec :
    ext_ideal_chain p rl = Sum i < n, rho i * (@ix RNum (p_m p) i - 1) * (ln (rho i + @f_eps RNum) - 1).
  Proof.
    unfold ext_ideal_chain. rewrite nsumi_R. apply Sum_ext. intros i Hi. rewrite rl_ix by auto.
    rewrite lambda_reg_R by (apply rho_ge; auto). rn. reflexivity.
  Qed.

  (* ------------------------------------------------------------------- attraction *)

  Lemma att_wd psi dim : 0 < psi -> bulk_wd (@att_weight_functions RNum psi p t) dim rl = rl.
  Proof.
    intros Hp. unfold bulk_wd, att_weight_functions. change (@length (car RNum) rl) with (@length R rl). rewrite Lrl. cbn [wi_local wi_comp wi_fmt].
    cbn [filter is_vec wf_scaled wf_sh negb flat_map map]. rewrite !app_nil_r. cbn [app].
    apply (nth_ext _ _ 0 0); [rewrite mk1_length, Lrl; auto | ].
    rewrite mk1_length. intros i Hi.
    match goal with |- nth i ?l 0 = _ => change (nth i l 0) with (@ix RNum l i) end.
    rewrite (ix_mk1 (K := RNum)) by auto.
    rewrite scaled_weight; [apply Rmult_1_l | lenR; rewrite map_length; lenR; rewrite Lhs; auto | discriminate | ].
    rewrite (ix_map (K := RNum) _ _ _ 0) by (lenR; rewrite Lhs; auto).
    match goal with |- context [nth i ?l 0] => change (nth i l 0) with (@ix RNum l i) end.
    rewrite hs_ix by auto. rn. apply Rmult_lt_0_compat; auto. apply hs_pos; auto.
  Qed.

  Lemma att_m_bar_spec : @f_eps RNum < Rho X rho -> att_m_bar p rl = Mbar X rho.
  Proof.
    intros H. unfold att_m_bar, Mbar.
    rewrite (nsumi_ext _ (fun i => @ix RNum rl i) rho) by (intros; apply rl_ix; auto).
    rewrite (nsumi_ext _ (fun i => (@ix RNum rl i * ix (p_m p) i)%num) (fun i => rho i * M X i))
      by (intros; rewrite rl_ix by auto; reflexivity).
    rewrite !nsumi_R. change (length (p_m p)) with (N X). fold (Rho X rho).
    rn. rewrite (proj2 (Rltb_true _ _)) by auto. reflexivity.
  Qed.
  Lemma att_series_R c0 c1 c2 (m eta : R) : @att_series RNum c0 c1 c2 m eta = @disp_series RNum c0 c1 c2 m eta.
  Proof.
    unfold att_series, disp_series. apply nsumi_ext. intros i _. unfold cst.
    change (@nlit RNum (nth i c0 0%Q)) with (Rlit (nth i c0 0%Q)).
    change (@nlit RNum (nth i c1 0%Q)) with (Rlit (nth i c1 0%Q)).
    change (@nlit RNum (nth i c2 0%Q)) with (Rlit (nth i c2 0%Q)).
    set (a := Rlit (nth i c2 0%Q)). set (b := Rlit (nth i c1 0%Q)).
    set (c := Rlit (nth i c0 0%Q)). clearbody a b c. set (e := @run_pow RNum eta i). rn. unfold Rdiv. ring.
  Qed.
  Lemma att_c1_R (m eta : R) : @att_c1 RNum m eta = @disp_c1 RNum m eta.
  Proof.
    rewrite disp_c1_spec by auto. unfold att_c1. rn. unfold Rdiv at 3. rewrite Rmult_1_l. f_equal.
    replace ((eta - 1) ^ 4) with ((1 - eta) ^ 4) by ring.
    replace (((eta - 1) * (eta - 2)) ^ 2) with (((1 - eta) * (2 - eta)) ^ 2) by ring.
    unfold Rdiv. ring.
  Qed.
  Lemma att_mix1 : att_rho1mix p t rl = mixsum X t rho 1.
  Proof.
    unfold att_rho1mix, mixsum. rewrite nsum_R, rsum_flat_map. apply Sum_ext; intros i Hi.
    unfold mk1. rewrite rsum_map. apply Sum_ext; intros j Hj.
    rewrite !rl_ix, (w_eij _ W), (w_sij _ W) by auto. rn. unfold Rdiv. unfold X; mx. ring.
  Qed.
  Lemma att_mix2 : att_rho2mix p t rl = mixsum X t rho 2.
  Proof.
    unfold att_rho2mix, mixsum. rewrite nsum_R, rsum_flat_map. apply Sum_ext; intros i Hi.
    unfold mk1. rewrite rsum_map. apply Sum_ext; intros j Hj.
    rewrite !rl_ix, (w_eij _ W), (w_sij _ W) by auto. rn. unfold Rdiv. unfold X; mx. ring.
  Qed.
  Theorem phi_att_disp_spec : @f_eps RNum < Rho X rho -> phi_att_disp p t rl = f_disp X t rho.
  Proof.
    intros H. unfold phi_att_disp.
    rewrite att_eta_spec, att_m_bar_spec, !att_series_R, att_c1_R, !disp_series_spec, disp_c1_spec by auto.
    rewrite att_mix1, att_mix2.
    unfold f_disp. fold (C1 X t rho).
    fold (power_series X t rho A0 A1 A2). fold (power_series X t rho B0 B1 B2). rn. ring.
  Qed.

  (** polar part, with the equation of state contributions that are present *)
  Let Hr : forall i, (i < n)%nat -> @ix RNum rl i = rho i := rl_ix.
  Definition polar_density (f2 : R) : R :=
    (if Nat.ltb 0 (p_ndipole p) then f_dd X t rho else 0)
    + (if Nat.ltb 0 (p_nquadpole p) then pade2 f2 (qq3 X t rho) else 0)
    + (if Nat.ltb 0 (p_ndipole p) && Nat.ltb 0 (p_nquadpole p) then f_dq X t rho 3 5 else 0).
  Lemma phi_polar_gen : phi_polar p t rl = polar_density (d_quad_phi2 p t rl (Eta X t rho)).
  Proof.
    unfold phi_polar, polar_density. rewrite att_eta_spec. rewrite !d_pade_R.
    rewrite d_dipole_phi2_eq, d_dipole_phi3_eq, d_quad_phi3_eq, d_dq_phi2_eq, d_dq_phi3_eq by auto.
    unfold X.
    rewrite (dipole_phi2_spec p W Hph t _ rho Hr), (dipole_phi3_spec p W Hph t _ rho Hr).
    rewrite (quad_phi3_spec p W Hph t _ rho Hr).
    rewrite (dq_phi2_spec p W Hph t _ rho Hr DQ35), (dq_phi3_spec p W t _ rho Hr).
    unfold f_dd, f_dq. cbn [dq_exps fst snd]. rewrite nsum_R.
    destruct (Nat.ltb 0 (p_ndipole p)), (Nat.ltb 0 (p_nquadpole p)); cbn [andb app];
      unfold rsum; cbn [fold_right map]; rn; ring.
  Qed.
  Theorem phi_polar_spec : (p_nquadpole p <= 1)%nat ->
    phi_polar p t rl = polar_density (qq2 X t rho).
  Proof.
    intros H. rewrite phi_polar_gen, d_quad_phi2_eq by auto. f_equal.
    unfold X. rewrite (quad_phi2_spec p W Hph t _ rho Hr). apply qq2_code_equal.
    intros i j Hi Hj Ei Ej.
    assert (I : forall k, (k < n)%nat -> Qu2 (mix_of p) k <> 0 -> In k (p_quadpole_comp p)).
    { intros k Hk Ek. rewrite (w_quad _ W), filter_In, seq_in, nonzero_R. split; auto. }
    apply I in Ei, Ej; auto. rewrite (w_nq _ W) in H.
    destruct (p_quadpole_comp p) as [ | a [ | b l]]; [destruct Ei | | cbn in H; lia].
    destruct Ei as [<- | []], Ej as [<- | []]. reflexivity.
  Qed.

  (* ------------------------------------------------------------------ association *)

  Lemma n_pos : (0 < n)%nat.
  Proof. destruct (ps_nonempty _ _ _ _ PS) as (i & Hi & _). unfold n. lia. Qed.

  Lemma assoc_wd dim : exists Z,
    bulk_wd (assoc_weight_functions p t) dim rl = rl ++ Z ++ [Eta X t rho] /\
    length Z = (dim * n)%nat /\ forall k, @ix RNum Z k = 0.
  Proof.
    unfold bulk_wd, assoc_weight_functions. change (@length (car RNum) rl) with (@length R rl).
    rewrite Lrl. cbn [wi_local wi_comp wi_fmt].
    cbn [filter is_vec wf_scaled wf_sh negb flat_map map]. rewrite !app_nil_r. cbn [app].
    match goal with |- context [flat_map ?f (seq 0 dim)] => set (Z := flat_map f (seq 0 dim)) end.
    exists Z. split; [ | split].
    - f_equal; [ | f_equal; f_equal].
      + apply (nth_ext _ _ 0 0); [rewrite mk1_length, Lrl; auto | ].
        rewrite mk1_length. intros i Hi.
        match goal with |- nth i ?l 0 = _ => change (nth i l 0) with (@ix RNum l i) end.
        rewrite (ix_mk1 (K := RNum)) by auto.
        rewrite scaled_weight; [apply Rmult_1_l | rewrite Lsr; auto | discriminate | ].
        rewrite sr_ix by auto. pose proof (hs_pos i Hi). lra.
      + rewrite nsumi_R. unfold Eta, Zeta. rewrite <- rsum_scal. apply Sum_ext. intros i Hi.
        unfold bulk_weight. cbn [wf_prefactor wf_radius wf_sh shape_integral].
        rewrite rl_ix, sr_ix by auto. unfold frac_pi_3. change (M X i) with (@ix RNum (p_m p) i).
        set (d := Di X t i) in *. set (m := @ix RNum (p_m p) i). rn. field.
    - unfold Z. rewrite flat_map_len, seq_length. reflexivity.
    - assert (A : forall x, In x Z -> x = 0).
      { intros x Hx. unfold Z in Hx. apply in_flat_map in Hx. destruct Hx as (k & _ & Hx).
        unfold mk1 in Hx. apply in_map_iff in Hx. destruct Hx as (i & <- & _).
        unfold bulk_weight. cbn [wf_sh shape_integral]. rn. ring. }
      intros k. unfold ix. destruct (Nat.lt_ge_cases k (length Z)) as [L | L].
      + apply A. apply nth_In. auto.
      + apply nth_overflow. auto.
  Qed.

  Section Assoc.
    Variable dim : nat.
    Let wd := bulk_wd (assoc_weight_functions p t) dim rl.

    Lemma wd_len : @length R wd = (n + dim * n + 1)%nat.
    Proof.
      unfold wd. destruct (assoc_wd dim) as (Z & -> & LZ & _).
      rewrite !app_length, LZ, Lrl. cbn [length]. lia.
    Qed.
    Lemma wd_dim : da_dim p wd = dim.
    Proof.
      unfold da_dim. lenR. rewrite wd_len. change (@length R (p_m p)) with n. pose proof n_pos.
      replace (n + dim * n + 1 - 1)%nat with ((dim + 1) * n)%nat by lia.
      rewrite Nat.div_mul by lia. lia.
    Qed.
    Lemma wd_n0i i : (i < n)%nat -> da_n0i p wd i = rho i.
    Proof.
      intros Hi. unfold da_n0i, wd. destruct (assoc_wd dim) as (Z & -> & _).
      rewrite ix_app1 by (rewrite Lrl; auto). apply rl_ix; auto.
    Qed.
    Lemma wd_n2vi k i : (k < dim)%nat -> (i < n)%nat -> da_n2vi p wd k i = 0.
    Proof.
      intros Hk Hi. unfold da_n2vi, wd. destruct (assoc_wd dim) as (Z & -> & LZ & Z0). fold n.
      assert (n * (k + 1) + i < n + dim * n)%nat.
      { assert (n * (k + 1) <= n * dim)%nat by (apply Nat.mul_le_mono_l; lia). lia. }
      rewrite ix_app2, ix_app1 by (rewrite ?Lrl, ?LZ; lia). apply Z0.
    Qed.
    Lemma wd_n3 : da_n3 p wd = Eta X t rho.
    Proof.
      unfold da_n3. rewrite wd_dim. unfold wd. destruct (assoc_wd dim) as (Z & -> & LZ & _). fold n.
      rewrite ix_app2, ix_app2 by (rewrite ?Lrl, ?LZ; lia). rewrite Lrl, LZ.
      replace (n * (dim + 1) - n - dim * n)%nat with 0%nat by lia. reflexivity.
    Qed.
    Lemma wd_n2 : da_n2 p t wd = assoc_n2 p t rl.
    Proof.
      unfold da_n2, assoc_n2. rewrite !nsumi_R.
      change (@nmul RNum) with Rmult. rewrite Rmult_assoc, <- rsum_scal_r. apply Sum_ext. intros i Hi.
      unfold da_n2i. rewrite wd_n0i, rl_ix by auto.
      set (a := @ix RNum (seg_radius p t) i). set (m := @ix RNum (p_m p) i). rn. ring.
    Qed.
    Lemma wd_rho0 : da_rho0 p t wd = rl.
    Proof.
      apply (nth_ext _ _ 0 0); [unfold da_rho0; rewrite mk1_length, Lrl; auto | ].
      intros i Hi. unfold da_rho0 in *. rewrite mk1_length in Hi.
      match goal with |- nth i ?l 0 = _ => change (nth i l 0) with (@ix RNum l i) end.
      rewrite (ix_mk1 (K := RNum)) by auto. change (nth i rl 0) with (@ix RNum rl i).
      rewrite wd_n0i, rl_ix, wd_dim by auto.
      match goal with |- (if ?b then _ else _) = _ => destruct b end; auto.
      rewrite (nsumi_ext _ _ (fun _ => 0)).
      2:{ intros k Hk. rewrite wd_n2vi by auto. rn. ring. }
      rewrite nsumi_R, rsum_zero by auto. rn. unfold Rdiv. ring.
    Qed.
    Lemma wd_xi : da_xi p t wd = 1.
    Proof.
      unfold da_xi. rewrite wd_dim.
      match goal with |- (if ?b then _ else _) = _ => destruct b end; auto.
      rewrite (nsumi_ext dim _ (fun _ => 0)).
      2:{ intros k Hk. rewrite (nsumi_ext _ _ (fun _ => 0)).
          - rewrite nsumi_R, rsum_zero by auto. rn. ring.
          - intros i Hi. apply wd_n2vi; auto. }
      rewrite nsumi_R, rsum_zero by auto. rn. unfold Rdiv. ring.
    Qed.
    Lemma wd_n3i : da_n3i p wd = @nrecip RNum (@nadd RNum (@nopp RNum (packing p t rl)) (@nlit RNum 1)).
    Proof. unfold da_n3i. rewrite wd_n3, packing_eta. reflexivity. Qed.

    Theorem phi_assoc_one_bulk : p_nassoc p = 1%nat -> phi_assoc_one p t wd = a_assoc p s / v.
    Proof.
      intros H1. rewrite (w_na _ W) in H1.
      destruct (p_assoc_comp p) as [ | a [ | ]] eqn:Ha; [discriminate | | discriminate].
      assert (Han : (a < n)%nat) by (apply (assoc_lt p W a); auto).
      unfold phi_assoc_one, a_assoc. rewrite Ha. change (ixn [a] 0) with a. cbv zeta.
      rewrite wd_n2, wd_n3i, wd_xi, wd_rho0. change (s_t s) with t. fold rl.
      set (n3i := @nrecip RNum _).
      set (D := (association_strength p t (seg_radius p t) (assoc_n2 p t rl) n3i n1 a a * @ix RNum rl a)%num).
      match goal with |- context [assoc_site_frac_ab ?x _ _] => replace x with D end.
      2:{ unfold D, association_strength. fold rl. rewrite sr_ix by auto. pose proof (hs_pos a Han).
          set (d := Di X t a) in *. set (sg := @ix RNum (p_sigma p) a).
          set (E := @nexpm1 RNum _). set (kap := @ix2 RNum (p_kappa_aibj p) a a). set (n2 := assoc_n2 p t rl).
          set (ra := @ix RNum rl a). clearbody E kap n2 ra n3i sg. rn. field. lra. }
      change (@ix RNum (s_moles s) a) with (nth a moles 0).
      rewrite rl_ix by auto.
      set (A := assoc_site_frac_ab D _ _). set (B := assoc_site_frac_a D _).
      match goal with |- context [if ?b then _ else _] => destruct b end; unfold rho.
      - set (f1 := @f_assoc RNum A). set (f2 := @f_assoc RNum _).
        set (x1 := @ix RNum (p_na p) a). set (x2 := @ix RNum (p_nb p) a). clearbody f1 f2 x1 x2. rn. field. lra.
      - set (f1 := @f_assoc RNum B). 
        set (x1 := @ix RNum (p_na p) a). clearbody f1 x1. rn. field. lra.
    Qed.

    Theorem phi_assoc_cross_bulk lu k tol : p_nassoc p <> 1%nat ->
      phi_assoc lu k tol p t [wd] =
      match fst (cross_association lu p t rl (seg_radius p t) (assoc_n2 p t rl)
              (@nrecip RNum (@nadd RNum (@nopp RNum (packing p t rl)) (@nlit RNum 1))) 1 k tol None) with
      | Ok a => Ok [a]
      | Err e => Err e
      end.
    Proof.
      intros H1. unfold phi_assoc. destruct (Nat.eqb_spec (p_nassoc p) 1) as [E | _]; [contradiction | ].
      cbn [phi_assoc_cross]. rewrite wd_rho0, wd_n2, wd_n3i, wd_xi.
      unfold cross_association. cbv zeta.
      match goal with |- context [if ?b then _ else _] => destruct b; [reflexivity | ] end.
      match goal with |- context [newton_loop ?f k ?x] => destruct (newton_loop f k x) as [x1 | ]; [ | reflexivity] end.
      match goal with |- context [newton_deriv ?f ?k ?x] => destruct (newton_deriv f k x); reflexivity end.
    Qed.
  End Assoc.
End Bulk.

(** the quadrupole term of second order as the functional evaluates it: pairs of different
    components count once instead of twice *)
Definition qq2_dft (X : mixture) (T : R) (rho : nat -> R) : R :=
  - PI * (3 / 4) ^ 2 * Sum i < N X, Sum j < N X,
  (if Nat.eqb i j then 1 else 1 / 2) *
  (rho i * rho j * Wi X T 5 i * Wi X T 5 j / Sij X i j ^ 7 * Qu2 X i * Qu2 X j * J2 X T rho AQ BQ i j).

Lemma two_half (z : R) : 2 * (1 / 2 * z) = z.
Proof. lra. Qed.

Section QuadDft.
  Variable p : params RNum.
  Hypothesis W : wfp p.
  Hypothesis Hph : phys p.
  Let X := mix_of p.
  Let n := length (p_m p).
  Variables (t : R) (rl : list R) (rho : nat -> R).
  Hypothesis Hr : forall i, (i < n)%nat -> @ix RNum rl i = rho i.

  Theorem d_quad_phi2_spec : d_quad_phi2 p t rl (Eta X t rho) = qq2_dft X t rho.
  Proof.
    unfold d_quad_phi2, qq2_dft. rewrite nsubs_R, (w_nq _ W), (w_quad _ W). fold n.
    set (l := filter _ _).
    rewrite (tri2_list l (fun a b => (if Nat.eqb a b then 1 else 1 / 2) *
       (rho a * rho b * Wi X t 5 a * Wi X t 5 b / Sij X a b ^ 7
       * Qu2 X a * Qu2 X b * J2 X t rho AQ BQ a b))).
    - unfold l. rewrite rsum_filter2.
      + change (N X) with n. set (S := rsum _ _). rn. field.
      + intros a b Ha Hb E. apply nonzero_R_false in E. change (Qu2 X a) with (@ix RNum (p_q2 p) a).
        rewrite E. ring.
      + intros a b Ha Hb E. apply nonzero_R_false in E. change (Qu2 X b) with (@ix RNum (p_q2 p) b).
        rewrite E. ring.
    - intros a b. rewrite (J2_sym _ _ _ _ _ a b), (Sij_sym _ a b), (Nat.eqb_sym a b). unfold Rdiv. ring.
    - intros i Hi. cbv zeta. destruct (ixn_filter _ _ _ Hi) as [Hd _]. fold l in Hd.
      set (d := ixn l i) in *.
      pose proof (J2_model_diag p W Hph t rho AQ BQ d ltac:(simpl; lia) Hd) as EJ. rewrite d_pair_integral_R.
      rn. fold X in EJ. rewrite EJ.
      rewrite !Hr by auto. rewrite !(w_sij _ W) by auto. fold X. rewrite Sij_diag, Nat.eqb_refl.
      rewrite (e_diag p W Hph d Hd).
      unfold Wi. change (@ix RNum (p_epsilon_k p)) with (Ep X). change (@ix RNum (p_q2 p)) with (Qu2 X).
      change (@ix RNum (p_sigma p)) with (Sg X).
      unfold Rdiv. ring.
    - intros i j Hij Hj. assert (Hi : (i < length l)%nat) by lia. cbv zeta.
      destruct (ixn_filter _ _ _ Hi) as [Hd _]. fold l in Hd.
      destruct (ixn_filter _ _ _ Hj) as [He _]. fold l in He.
      assert (Hde := ixn_sorted p _ _ _ Hij Hj). change (length (p_m p)) with n in Hde. fold l in Hde.
      set (d := ixn l i) in *. set (e := ixn l j) in *.
      pose proof (J2_model p W t rho AQ BQ d e ltac:(simpl; lia) Hd He) as EJ. rewrite d_pair_integral_R.
      rn. fold X in EJ. rewrite EJ.
      rewrite !Hr by auto. rewrite !(w_sij _ W) by auto. fold X.
      rewrite (e_diag p W Hph d Hd), (e_diag p W Hph e He).
      destruct (Nat.eqb_spec d e); [lia | ].
      unfold Wi. change (@ix RNum (p_epsilon_k p)) with (Ep X). change (@ix RNum (p_q2 p)) with (Qu2 X).
      change (@ix RNum (p_sigma p)) with (Sg X).
      rewrite two_half. unfold Rdiv. ring.
  Qed.
End QuadDft.
