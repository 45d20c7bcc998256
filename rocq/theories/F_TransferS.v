(** Transfer of the contributions of the equation of state, for states given field by field (the
    state at given moles and volume, F_Transfer2, and the state of zero density used for virial
    coefficients, F_Virial). *)
From Coq Require Import ZArith QArith Reals Lra Lia List Bool.
From Verif Require Import Num RNum RSum Tables M_Params F_Params M_Eos Spec F_Spec F_SpecPolar F_SpecAssoc
  F_Contrib F_Cross F_Transfer.
Import ListNotations.
Local Open Scope R_scope.
Set Bullet Behavior "Strict Subproofs".

Section Contributions.
  Context {Pt : Type} {K : Num} {x0 : Pt} (TR : Transfer K x0).
  Notation rl := (rel TR).
  Variable p : params RNum.
  Hypothesis W : wfp p.
  Hypothesis Hph : phys p.
  Let q : params K := plift (emb TR) p.
  Let n := length (p_m p).
  (** a state along the path and its counterpart, related field by field *)
  Variables (s : Pt -> state RNum) (s2 : state K).
  Notation t x := (s_t (s x)).
  Notation t2 := (s_t s2).
  Notation v2 := (s_v s2).
  Hypothesis Tt : rl (fun x => s_t (s x)) (s_t s2).
  Hypothesis Tv : rl (fun x => s_v (s x)) (s_v s2).
  Hypothesis Tm : lrel TR (fun x => s_moles (s x)) (s_moles s2).
  Hypothesis tr_rho : lrel TR (fun x => s_rho (s x)) (s_rho s2).
  Hypothesis tr_x : lrel TR (fun x => s_x (s x)) (s_x s2).
  Hypothesis Ht : 0 < s_t (s x0).

  Lemma len_m : length (p_m q) = n.
  Proof. cbn. unfold lift1. apply map_length. Qed.
  Lemma len_sigma : length (p_sigma q) = length (p_sigma p).
  Proof. cbn. unfold lift1. apply map_length. Qed.

  Lemma tr_hs_diameter : lrel TR (fun x => @hs_diameter RNum p (t x)) (hs_diameter q t2).
  Proof.
    unfold hs_diameter. rewrite len_sigma.
    apply (lrel_mk1 TR (length (p_sigma p)) (fun i x => _)). intros i Hi. tr TR. lra.
  Qed.
  Lemma tr_zeta k : rl (fun x => zeta (p_m p) (s_rho (s x)) (hs_diameter p (t x)) k)
                       (zeta (p_m q) (s_rho s2) (hs_diameter q t2) k).
  Proof.
    unfold zeta. rewrite len_m. pose proof tr_rho. pose proof tr_hs_diameter.
    apply (tr_nsumi TR). intros i Hi. tr TR. rn. lra.
  Qed.
  (** packing fraction below one, composition not empty *)
  Hypothesis Hz2 : 0 <= zeta (p_m p) (s_rho (s x0)) (hs_diameter p (t x0)) 2.
  Hypothesis Hz3 : zeta (p_m p) (s_rho (s x0)) (hs_diameter p (t x0)) 3 < 1.
  Hypothesis Hx0 : forall i, (i < n)%nat -> 0 <= @ix RNum (s_x (s x0)) i.
  Hypothesis Hx1 : exists i, (i < n)%nat /\ 0 < @ix RNum (s_x (s x0)) i.
  Lemma d_pos i : (i < n)%nat -> 0 < @ix RNum (hs_diameter p (t x0)) i.
  Proof. intros Hi. rewrite hs_diameter_spec; auto. apply Di_pos; auto. Qed.

  Lemma tr_zeta_23 : rl (fun x => zeta_23 (p_m p) (s_x (s x)) (hs_diameter p (t x)))
                        (zeta_23 (p_m q) (s_x s2) (hs_diameter q t2)).
  Proof.
    unfold zeta_23. rewrite len_m. pose proof tr_x. pose proof tr_hs_diameter.
    apply (tr_div _ _ TR).
    - apply (tr_nsumi TR). intros i Hi. tr TR.
    - apply (tr_nsumi TR). intros i Hi. tr TR.
    - rewrite nsumi_R. apply Rgt_not_eq. destruct Hx1 as (i & Hi & Hp).
      apply (rsum_pos _ _ i).
      + intros j Hj. apply seq_in in Hj. rn. destruct (Hph j Hj) as (Hm & _).
        apply Rmult_le_pos; [apply Rmult_le_pos | left; exact Hm].
        * apply Hx0; auto.
        * left. apply pow_lt. apply d_pos; auto.
      + apply seq_in; auto.
      + rn. destruct (Hph i Hi) as (Hm & _).
        apply Rmult_lt_0_compat; [apply Rmult_lt_0_compat | exact Hm]; auto.
        apply pow_lt. apply d_pos; auto.
  Qed.

  Theorem tr_hs : rl (fun x => a_hs p (s x)) (a_hs q s2).
  Proof.
    unfold a_hs. cbn zeta.
    pose proof tr_zeta_23 as H23. pose proof (tr_zeta 0) as H0. pose proof (tr_zeta 1) as H1.
    pose proof (tr_zeta 2) as H2. pose proof (tr_zeta 3) as H3.
    assert (PI <> 0) by (pose proof PI_RGT_0; lra).
    tr TR.
    all: rn; try lra; auto.
  Qed.

  Lemma tr_g_hs d d2 z2 z22 z3 z32 : rl d d2 -> rl z2 z22 -> rl z3 z32 -> z3 x0 < 1 ->
    rl (fun x => @g_hs RNum (d x) (z2 x) (z3 x)) (g_hs d2 z22 z32).
  Proof. intros. unfold g_hs. cbn zeta. tr TR. all: rn; lra. Qed.

  Lemma g_pos (d z2 z3 : R) : 0 < d -> 0 <= z2 -> z3 < 1 -> 0 < @g_hs RNum d z2 z3.
  Proof.
    intros Hd H2 H3. unfold g_hs. cbn zeta. rn.
    replace (- / (z3 - 1)) with (/ (1 - z3)) by (field; lra).
    assert (0 < / (1 - z3)) by (apply Rinv_0_lt_compat; lra).
    set (f := / (1 - z3)) in *. assert (0 <= z2 * f * f) by (repeat apply Rmult_le_pos; lra).
    set (c := z2 * f * f) in *.
    assert (0 <= d * c) by (apply Rmult_le_pos; lra).
    assert (0 <= d ^ 2 * c ^ 2) by (apply Rmult_le_pos; apply pow2_ge_0).
    assert (0 <= d ^ 2 * c ^ 2 * (1 - z3)) by (apply Rmult_le_pos; lra).
    replace (d ^ 2 * c ^ 2 * (z3 - 1)) with (- (d ^ 2 * c ^ 2 * (1 - z3))) by ring. lra.
  Qed.

  Theorem tr_hc : rl (fun x => a_hc p (s x)) (a_hc q s2).
  Proof.
    unfold a_hc. cbn zeta. rewrite len_m.
    pose proof (tr_zeta 2) as H2. pose proof (tr_zeta 3) as H3. pose proof tr_rho. pose proof tr_hs_diameter.
    apply (tr_mul _ _ TR); auto. apply (tr_nsumi TR). intros i Hi.
    apply (tr_mul _ _ TR); [tr TR | ]. apply (tr_ln _ _ TR).
    - apply tr_g_hs; auto. apply (tr_ix TR); auto.
    - apply g_pos; [apply d_pos; auto | exact Hz2 | exact Hz3].
  Qed.

  (* dispersion *)
  Lemma tr_seg_radius : lrel TR (fun x => @seg_radius RNum p (t x)) (seg_radius q t2).
  Proof.
    unfold seg_radius. apply (lrel_map TR (fun _ d => @nmul RNum d (@nlit RNum 0.5%Q))); [apply tr_hs_diameter | ].
    intros f a H. tr TR.
  Qed.
  Lemma tr_packing : rl (fun x => packing p (t x) (s_rho (s x))) (packing q t2 (s_rho s2)).
  Proof.
    unfold packing. cbn zeta. rewrite len_m. pose proof tr_rho. pose proof tr_seg_radius. unfold frac_pi_3.
    repeat apply (tr_mul _ _ TR).
    - apply (tr_nsumi TR). intros i Hi. tr TR.
    - tr TR.
    - tr TR. rn. lra.
  Qed.
  Lemma tr_mean : rl (fun x => mean_segments p (s_x (s x))) (mean_segments q (s_x s2)).
  Proof.
    unfold mean_segments. rewrite len_m. pose proof tr_x. apply (tr_nsumi TR). intros i Hi. tr TR.
  Qed.
  Lemma mean_pos : 0 < mean_segments p (s_x (s x0)).
  Proof.
    unfold mean_segments. rewrite nsumi_R. destruct Hx1 as (i & Hi & Hp). apply (rsum_pos _ _ i).
    - intros j Hj. apply seq_in in Hj. rn. destruct (Hph j Hj) as (Hm & _). apply Rmult_le_pos; [apply Hx0; auto | left; exact Hm].
    - apply seq_in; auto.
    - rn. destruct (Hph i Hi) as (Hm & _). apply Rmult_lt_0_compat; auto.
  Qed.
  Lemma tr_run_pow e e2 i : rl e e2 -> rl (fun x => @run_pow RNum (e x) i) (run_pow e2 i).
  Proof. intros H. induction i; cbn; tr TR. Qed.
  Lemma tr_disp_series c0 c1 c2 m m2 e e2 : rl m m2 -> rl e e2 -> m x0 <> 0 ->
    rl (fun x => @disp_series RNum c0 c1 c2 (m x) (e x)) (disp_series c0 c1 c2 m2 e2).
  Proof.
    intros Hm He H. unfold disp_series. apply (tr_nsumi TR). intros i Hi.
    apply (tr_mul _ _ TR); [ | apply tr_run_pow; auto]. tr TR. all: auto.
  Qed.
  Lemma disp_c1_den (m e : R) : 0 < m -> 0 <= e < 1 ->
    0 < m * (e * 8 - e ^ 2 * 2) / (e - 1) ^ 4
        + (1 - m) * (e * 20 - e ^ 2 * 27 + e ^ 3 * 12 - e ^ 4 * 2) / ((e - 1) * (e - 2)) ^ 2 + 1.
  Proof.
    intros Hm He. set (D := (1 - e) ^ 4 * (2 - e) ^ 2).
    assert (HD : 0 < D) by (unfold D; apply Rmult_lt_0_compat; apply pow_lt; lra).
    replace (_ + 1) with
      ((e * (m * ((8 - 2 * e) * (2 - e) ^ 2 - (20 - 27 * e + 12 * e ^ 2 - 2 * e ^ 3) * (1 - e) ^ 2)
         + (20 - 27 * e + 12 * e ^ 2 - 2 * e ^ 3) * (1 - e) ^ 2) + D) / D)
      by (unfold D; field; lra).
    apply Rdiv_lt_0_compat; auto.
    assert (H1 : 0 < 20 - 27 * e + 12 * e ^ 2 - 2 * e ^ 3) by nra.
    assert (H2 : 0 <= (20 - 27 * e + 12 * e ^ 2 - 2 * e ^ 3) * (1 - e) ^ 2)
      by (apply Rmult_le_pos; [lra | apply pow2_ge_0]).
    assert (H3 : 0 < (8 - 2 * e) * (2 - e) ^ 2 - (20 - 27 * e + 12 * e ^ 2 - 2 * e ^ 3) * (1 - e) ^ 2).
    { replace (_ - _) with (6 * (1 - e) + 6 + 33 * e * (1 - e) - 37 * e ^ 2 * (1 - e) + 14 * e ^ 3 * (1 - e) - 2 * e ^ 4 * (1 - e)) by ring.
      assert (0 <= e * (1 - e)) by nra. assert (0 <= e ^ 2 * (1 - e)) by nra. nra. }
    set (A := (8 - 2 * e) * (2 - e) ^ 2 - _) in *. set (B := _ * (1 - e) ^ 2) in *.
    assert (0 < m * A) by (apply Rmult_lt_0_compat; auto).
    assert (0 <= e * (m * A + B)) by (apply Rmult_le_pos; lra). lra.
  Qed.
  Lemma tr_disp_c1 m m2 e e2 : rl m m2 -> rl e e2 -> 0 < m x0 -> 0 <= e x0 < 1 ->
    rl (fun x => @disp_c1 RNum (m x) (e x)) (disp_c1 m2 e2).
  Proof.
    intros Hm He H1 H2. unfold disp_c1. apply (tr_recip _ _ TR).
    - tr TR.
      + apply pow_nonzero. rn. lra.
      + apply pow_nonzero. rn. apply Rmult_integral_contrapositive_currified; lra.
    - rn. apply Rgt_not_eq. apply disp_c1_den; auto.
  Qed.
  Lemma tr_rho1mix : rl (fun x => rho1mix p (t x) (s_rho (s x))) (rho1mix q t2 (s_rho s2)).
  Proof.
    unfold rho1mix. cbn zeta. rewrite len_m. pose proof tr_rho.
    apply (tr_nsum TR). apply (lrel_flat_map TR). intros i _. apply (lrel_mk1 TR). intros j _. tr TR. lra.
  Qed.
  Lemma tr_rho2mix : rl (fun x => rho2mix p (t x) (s_rho (s x))) (rho2mix q t2 (s_rho s2)).
  Proof.
    unfold rho2mix. cbn zeta. rewrite len_m. pose proof tr_rho.
    apply (tr_nsum TR). apply (lrel_flat_map TR). intros i _. apply (lrel_mk1 TR). intros j _. tr TR. all: lra.
  Qed.
  Theorem tr_disp : 0 <= packing p (t x0) (s_rho (s x0)) < 1 -> rl (fun x => a_disp p (s x)) (a_disp q s2).
  Proof.
    intros Hpe. unfold a_disp. cbn zeta. pose proof mean_pos.
    pose proof tr_mean as Hm. pose proof tr_packing as Hpk.
    repeat first [apply (tr_mul _ _ TR) | apply (tr_sub _ _ TR) | apply (tr_opp _ _ TR)].
    - apply tr_rho1mix.
    - apply tr_disp_series; auto. lra.
    - tr TR.
    - apply tr_rho2mix.
    - apply Hm.
    - apply tr_disp_c1; auto.
    - apply tr_disp_series; auto. lra.
    - tr TR.
    - auto.
  Qed.

  (* polar terms *)
  Lemma tr_tri2 k diag off d2 o2 : (forall i, (i < k)%nat -> rl (diag i) (d2 i)) ->
    (forall i j, (i < k)%nat -> (j < k)%nat -> rl (off i j) (o2 i j)) ->
    lrel TR (fun x => @tri2 RNum k (fun i => diag i x) (fun i j => off i j x)) (tri2 k d2 o2).
  Proof.
    intros Hd Ho. unfold tri2. apply (lrel_flat_map TR). intros i Hi. apply in_seq in Hi.
    apply (lrel_cons TR (diag i)); [apply Hd; lia | ]. apply (lrel_map_nat TR).
    intros j Hj. unfold above in Hj. apply in_seq in Hj. apply Ho; lia.
  Qed.
  Lemma tr_tri3 k diag iij ijj ijk d2 iij2 ijj2 ijk2 : (forall i, (i < k)%nat -> rl (diag i) (d2 i)) ->
    (forall i j, (i < k)%nat -> (j < k)%nat -> rl (iij i j) (iij2 i j)) ->
    (forall i j, (i < k)%nat -> (j < k)%nat -> rl (ijj i j) (ijj2 i j)) ->
    (forall i j l, (i < k)%nat -> (j < k)%nat -> (l < k)%nat -> rl (ijk i j l) (ijk2 i j l)) ->
    lrel TR (fun x => @tri3 RNum k (fun i => diag i x) (fun i j => iij i j x) (fun i j => ijj i j x) (fun i j l => ijk i j l x))
      (tri3 k d2 iij2 ijj2 ijk2).
  Proof.
    intros Hd H1 H2 H3. unfold tri3. apply (lrel_flat_map TR). intros i Hi. apply in_seq in Hi.
    apply (lrel_cons TR (diag i)); [apply Hd; lia | ]. apply (lrel_flat_map TR).
    intros j Hj. unfold above in Hj. apply in_seq in Hj.
    apply (lrel_cons TR (iij i j)); [apply H1; lia | ]. apply (lrel_cons TR (ijj i j)); [apply H2; lia | ].
    apply (lrel_map_nat TR). intros l Hl. unfold above in Hl. apply in_seq in Hl. apply H3; lia.
  Qed.

  Lemma tr_mcap c : rl (fun _ => @mcap RNum p c) (mcap q c).
  Proof. unfold mcap. apply (tr_min _ _ TR); tr TR. Qed.
  Lemma mcap_p c : (c < n)%nat -> 0 < @mcap RNum p c.
  Proof. intros H. rewrite mcap_spec. apply mp_pos; auto. Qed.
  Lemma tr_mseg2 a b : (a < n)%nat -> (b < n)%nat -> rl (fun _ => @mseg2 RNum p a b) (mseg2 q a b).
  Proof.
    intros Ha Hb. unfold mseg2. apply (tr_sqrt _ _ TR).
    - apply (tr_mul _ _ TR); apply tr_mcap.
    - rn. apply Rmult_lt_0_compat; apply mcap_p; auto.
  Qed.
  Lemma tr_mseg3 a b c : (a < n)%nat -> (b < n)%nat -> (c < n)%nat -> rl (fun _ => @mseg3 RNum p a b c) (mseg3 q a b c).
  Proof.
    intros Ha Hb Hc. unfold mseg3. apply (tr_cbrt _ _ TR).
    - repeat apply (tr_mul _ _ TR); apply tr_mcap.
    - rn. repeat apply Rmult_lt_0_compat; apply mcap_p; auto.
  Qed.
  Lemma mseg2_p a b : (a < n)%nat -> (b < n)%nat -> 0 < @mseg2 RNum p a b.
  Proof. intros Ha Hb. unfold mseg2. rn. apply sqrt_lt_R0. apply Rmult_lt_0_compat; apply mcap_p; auto. Qed.
  Lemma mseg3_p a b c : (a < n)%nat -> (b < n)%nat -> (c < n)%nat -> 0 < @mseg3 RNum p a b c.
  Proof. intros Ha Hb Hc. unfold mseg3. rn. apply Rcbrt_pos. repeat apply Rmult_lt_0_compat; apply mcap_p; auto. Qed.
  Lemma tr_frac1 m m2 : rl m m2 -> m x0 <> 0 -> rl (fun x => @frac1 RNum (m x)) (frac1 m2).
  Proof. intros H H0. unfold frac1. tr TR. auto. Qed.
  Lemma tr_frac2 m m2 : rl m m2 -> m x0 <> 0 -> rl (fun x => @frac2 RNum (m x)) (frac2 m2).
  Proof. intros H H0. unfold frac2. apply (tr_div _ _ TR); auto. apply (tr_mul _ _ TR); [apply tr_frac1; auto | tr TR]. Qed.
  Lemma tr_etas e e2 i : rl e e2 -> rl (fun x => @etas RNum (e x) i) (etas e2 i).
  Proof. intros H. unfold etas. cbn zeta. destruct i as [ | [ | [ | [ | i]]]]; tr TR. Qed.
  Lemma tr_pair m1 m2 m1' m2' e e2 a b f f2 : rl m1 m1' -> rl m2 m2' -> rl e e2 -> rl f f2 ->
    rl (fun x => @pair_integral_ij RNum (m1 x) (m2 x) (e x) a b (f x)) (pair_integral_ij m1' m2' e2 a b f2).
  Proof.
    intros. unfold pair_integral_ij. apply (tr_nsumi TR). intros i Hi.
    apply (tr_mul _ _ TR); [apply tr_etas; auto | tr TR].
  Qed.
  Lemma tr_triplet m1 m2 m1' m2' e e2 c : rl m1 m1' -> rl m2 m2' -> rl e e2 ->
    rl (fun x => @triplet_integral_ijk RNum (m1 x) (m2 x) (e x) c) (triplet_integral_ijk m1' m2' e2 c).
  Proof.
    intros. unfold triplet_integral_ijk. apply (tr_nsumi TR). intros i Hi.
    apply (tr_mul _ _ TR); [apply tr_etas; auto | tr TR].
  Qed.
  Lemma tr_triplet_dq m1 m1' e e2 c : rl m1 m1' -> rl e e2 ->
    rl (fun x => @triplet_integral_ijk_dq RNum (m1 x) (e x) c) (triplet_integral_ijk_dq m1' e2 c).
  Proof.
    intros. unfold triplet_integral_ijk_dq. apply (tr_nsumi TR). intros i Hi.
    apply (tr_mul _ _ TR); [apply tr_etas; auto | tr TR].
  Qed.

  Lemma dip_lt i : (i < p_ndipole p)%nat -> (ixn (p_dipole_comp p) i < n)%nat.
  Proof. intros H. rewrite (w_nd _ W), (w_dip _ W) in H. rewrite (w_dip _ W). apply ixn_filter in H. tauto. Qed.
  Lemma quad_lt i : (i < p_nquadpole p)%nat -> (ixn (p_quadpole_comp p) i < n)%nat.
  Proof. intros H. rewrite (w_nq _ W), (w_quad _ W) in H. rewrite (w_quad _ W). apply ixn_filter in H. tauto. Qed.
  Lemma sij_p i j : (i < n)%nat -> (j < n)%nat -> 0 < @ix2 RNum (p_sigma_ij p) i j.
  Proof. intros. rewrite (w_sij _ W) by auto. apply Sij_pos; auto. Qed.
  Lemma sg_p i : (i < n)%nat -> 0 < @ix RNum (p_sigma p) i.
  Proof. intros H. apply (Hph i H). Qed.

  (** proves that a product of positive factors is not zero *)
  Ltac pz := rn; apply Rgt_not_eq; unfold Rgt; repeat first [apply pow_lt | apply Rmult_lt_0_compat]; try (apply sij_p; assumption); try (apply sg_p; assumption).
  Ltac trp1 := match goal with
    | |- rel _ (fun x => pair_integral_ij _ _ _ _ _ _) _ => apply tr_pair
    | |- rel _ (fun x => triplet_integral_ijk _ _ _ _) _ => apply tr_triplet
    | |- rel _ (fun x => triplet_integral_ijk_dq _ _ _) _ => apply tr_triplet_dq
    | |- rel _ (fun x => frac1 _) _ => apply tr_frac1
    | |- rel _ (fun x => frac2 _) _ => apply tr_frac2
    | |- rel _ (fun x => mcap _ _) _ => apply tr_mcap
    | |- rel _ (fun x => mseg2 _ _ _) _ => apply tr_mseg2; assumption
    | |- rel _ (fun x => mseg3 _ _ _ _) _ => apply tr_mseg3; assumption
    | |- _ => tr1 TR
    end.
  Ltac trp := repeat trp1.
  Lemma t_nz : t x0 <> 0. Proof. apply Rgt_not_eq. exact Ht. Qed.
  Ltac side := first
    [ exact t_nz
    | apply Rgt_not_eq; apply mcap_p; assumption
    | apply Rgt_not_eq; apply mseg2_p; assumption
    | apply Rgt_not_eq; apply mseg3_p; assumption
    | pz; fail ].

  Section Eta.
    Variables (e : Pt -> R) (e2 : car K).
    Hypothesis Hee : rl e e2.
    Lemma tr_dipole_phi2 : rl (fun x => dipole_phi2 p (t x) (s_rho (s x)) (e x)) (dipole_phi2 q t2 (s_rho s2) e2).
    Proof.
      unfold dipole_phi2. cbn zeta. pose proof tr_rho.
      change (p_ndipole q) with (p_ndipole p). change (p_dipole_comp q) with (p_dipole_comp p).
      apply (tr_mul _ _ TR); [ | tr TR]. apply (tr_nsubs TR). apply tr_tri2.
      - intros i Hi. pose proof (dip_lt i Hi). trp. all: side.
      - intros i j Hi Hj. pose proof (dip_lt i Hi) as Ha. pose proof (dip_lt j Hj) as Hb.
        trp. all: side.
    Qed.
    Lemma tr_pi_sq : rl (fun _ => @pi_sq_43 RNum) pi_sq_43.
    Proof. unfold pi_sq_43. tr TR; rn; lra. Qed.
    Lemma tr_dipole_phi3 : rl (fun x => dipole_phi3 p (t x) (s_rho (s x)) (e x)) (dipole_phi3 q t2 (s_rho s2) e2).
    Proof.
      unfold dipole_phi3. cbn zeta. pose proof tr_rho. pose proof tr_pi_sq.
      change (p_ndipole q) with (p_ndipole p). change (p_dipole_comp q) with (p_dipole_comp p).
      apply (tr_mul _ _ TR); [ | tr TR]. apply (tr_nsubs TR). apply tr_tri3.
      - intros i Hi. pose proof (dip_lt i Hi). trp. all: side.
      - intros i j Hi Hj. pose proof (dip_lt i Hi). pose proof (dip_lt j Hj). trp. all: side.
      - intros i j Hi Hj. pose proof (dip_lt i Hi). pose proof (dip_lt j Hj). trp. all: side.
      - intros i j k Hi Hj Hk. pose proof (dip_lt i Hi). pose proof (dip_lt j Hj). pose proof (dip_lt k Hk). trp. all: side.
    Qed.
    Lemma tr_quad_phi2 : rl (fun x => quad_phi2 p (t x) (s_rho (s x)) (e x)) (quad_phi2 q t2 (s_rho s2) e2).
    Proof.
      unfold quad_phi2. cbn zeta. pose proof tr_rho.
      change (p_nquadpole q) with (p_nquadpole p). change (p_quadpole_comp q) with (p_quadpole_comp p).
      apply (tr_mul _ _ TR); [ | tr TR]. apply (tr_nsubs TR). apply tr_tri2.
      - intros i Hi. pose proof (quad_lt i Hi). trp. all: side.
      - intros i j Hi Hj. pose proof (quad_lt i Hi). pose proof (quad_lt j Hj). trp. all: side.
    Qed.
    Lemma tr_quad_phi3 : rl (fun x => quad_phi3 p (t x) (s_rho (s x)) (e x)) (quad_phi3 q t2 (s_rho s2) e2).
    Proof.
      unfold quad_phi3. cbn zeta. pose proof tr_rho.
      change (p_nquadpole q) with (p_nquadpole p). change (p_quadpole_comp q) with (p_quadpole_comp p).
      apply (tr_mul _ _ TR); [ | tr TR]. apply (tr_nsum TR). apply tr_tri3.
      - intros i Hi. pose proof (quad_lt i Hi). trp. all: side.
      - intros i j Hi Hj. pose proof (quad_lt i Hi). pose proof (quad_lt j Hj). trp. all: side.
      - intros i j Hi Hj. pose proof (quad_lt i Hi). pose proof (quad_lt j Hj). trp. all: side.
      - intros i j k Hi Hj Hk. pose proof (quad_lt i Hi). pose proof (quad_lt j Hj). pose proof (quad_lt k Hk). trp. all: side.
    Qed.
    Lemma tr_dq_phi2 var : rl (fun x => dq_phi2 p var (t x) (s_rho (s x)) (e x)) (dq_phi2 q var t2 (s_rho s2) e2).
    Proof.
      unfold dq_phi2. cbn zeta. pose proof tr_rho.
      change (p_nquadpole q) with (p_nquadpole p). change (p_quadpole_comp q) with (p_quadpole_comp p).
      change (p_ndipole q) with (p_ndipole p). change (p_dipole_comp q) with (p_dipole_comp p).
      apply (tr_mul _ _ TR); [ | tr TR]. apply (tr_nsubs TR). apply (lrel_flat_map TR).
      intros i Hi. apply in_seq in Hi. apply (lrel_mk1 TR). intros j Hj.
      assert (H1 := dip_lt i). assert (H2 := quad_lt j). specialize (H1 ltac:(lia)). specialize (H2 ltac:(lia)).
      destruct var; trp. all: side.
    Qed.
    Lemma tr_dq_phi3 : rl (fun x => dq_phi3 p (t x) (s_rho (s x)) (e x)) (dq_phi3 q t2 (s_rho s2) e2).
    Proof.
      unfold dq_phi3. cbn zeta. pose proof tr_rho.
      change (p_nquadpole q) with (p_nquadpole p). change (p_quadpole_comp q) with (p_quadpole_comp p).
      change (p_ndipole q) with (p_ndipole p). change (p_dipole_comp q) with (p_dipole_comp p).
      apply (tr_mul _ _ TR); [ | tr TR]. apply (tr_nsum TR). apply (lrel_flat_map TR).
      intros i Hi. apply in_seq in Hi. apply (lrel_flat_map TR).
      intros j Hj. apply in_seq in Hj.
      assert (H1 := dip_lt i). assert (H2 := quad_lt j). specialize (H1 ltac:(lia)). specialize (H2 ltac:(lia)).
      apply (lrel_app TR); apply (lrel_mk1 TR); intros k Hk.
      - pose proof (dip_lt k Hk). trp. all: side.
      - pose proof (quad_lt k Hk). trp. all: side.
    Qed.
  End Eta.

  Theorem tr_dipole :
    padeok TR (fun x => dipole_phi2 p (t x) (s_rho (s x)) (packing p (t x) (s_rho (s x))))
              (fun x => dipole_phi3 p (t x) (s_rho (s x)) (packing p (t x) (s_rho (s x)))) ->
    rl (fun x => a_dipole p (s x)) (a_dipole q s2).
  Proof.
    intros H. pose proof tr_packing as Hpk. unfold a_dipole. cbn zeta.
    apply (tr_pade _ _ TR); auto; [apply tr_dipole_phi2 | apply tr_dipole_phi3]; auto.
  Qed.
  Theorem tr_quadrupole :
    padeok TR (fun x => quad_phi2 p (t x) (s_rho (s x)) (packing p (t x) (s_rho (s x))))
              (fun x => quad_phi3 p (t x) (s_rho (s x)) (packing p (t x) (s_rho (s x)))) ->
    rl (fun x => a_quadrupole p (s x)) (a_quadrupole q s2).
  Proof.
    intros H. pose proof tr_packing as Hpk. unfold a_quadrupole. cbn zeta.
    apply (tr_pade _ _ TR); auto; [apply tr_quad_phi2 | apply tr_quad_phi3]; auto.
  Qed.
  Theorem tr_dq var :
    padeok TR (fun x => dq_phi2 p var (t x) (s_rho (s x)) (packing p (t x) (s_rho (s x))))
              (fun x => dq_phi3 p (t x) (s_rho (s x)) (packing p (t x) (s_rho (s x)))) ->
    rl (fun x => a_dq p var (s x)) (a_dq q var s2).
  Proof.
    intros H. pose proof tr_packing as Hpk. unfold a_dq. cbn zeta.
    apply (tr_pade _ _ TR); auto; [apply tr_dq_phi2 | apply tr_dq_phi3]; auto.
  Qed.

  (* association *)
  Lemma tr_n2 : rl (fun x => assoc_n2 p (t x) (s_rho (s x))) (assoc_n2 q t2 (s_rho s2)).
  Proof.
    unfold assoc_n2. cbn zeta. rewrite len_m. pose proof tr_rho. pose proof tr_seg_radius.
    repeat apply (tr_mul _ _ TR); try (tr TR; fail). apply (tr_nsumi TR). intros i Hi. tr TR.
  Qed.
  Lemma radius_pos i : (i < n)%nat -> 0 < @ix RNum (seg_radius p (t x0)) i.
  Proof.
    intros Hi. rewrite (seg_radius_spec p W (t x0) i Hi).
    pose proof (Di_pos p Hph (t x0) Ht i Hi). lra.
  Qed.
  Lemma tr_strength ai aj n2 n3i xi n2' n3i' xi' : (ai < n)%nat -> (aj < n)%nat ->
    rl n2 n2' -> rl n3i n3i' -> rl xi xi' ->
    rl (fun x => association_strength p (t x) (seg_radius p (t x)) (n2 x) (n3i x) (xi x) ai aj)
       (association_strength q t2 (seg_radius q t2) n2' n3i' xi' ai aj).
  Proof.
    intros Hi Hj H1 H2 H3. unfold association_strength. cbn zeta. pose proof tr_seg_radius.
    pose proof (radius_pos ai Hi). pose proof (radius_pos aj Hj). pose proof t_nz.
    tr TR; auto; cbv beta; rn; try lra.
  Qed.
  Let n3i := fun x => @nrecip RNum (@nadd RNum (@nopp RNum (packing p (t x) (s_rho (s x)))) (@nlit RNum 1%Q)).
  Let n3i2 := nrecip (nadd (nopp (packing q t2 (s_rho s2))) (nlit 1%Q)).
  Lemma tr_n3i : 0 <= packing p (t x0) (s_rho (s x0)) < 1 -> rl n3i n3i2.
  Proof. intros Hpe. unfold n3i, n3i2. pose proof tr_packing. tr TR. rn. lra. Qed.

  Lemma tr_f_assoc f f2 : rl f f2 -> 0 < f x0 -> rl (fun x => @f_assoc RNum (f x)) (f_assoc f2).
  Proof. intros H H0. unfold f_assoc. tr TR. auto. Qed.

  Lemma sqrt_eps_c : @sqrt_eps RNum = / 67108864. Proof. exact sqrt_eps_R. Qed.

  Lemma tr_frac_ab d d2 na nb na2 nb2 : rl d d2 -> rl (fun _ => na) na2 -> rl (fun _ => nb) nb2 ->
    0 <= d x0 -> 0 < na -> 0 < nb -> brok TR (fun _ => @sqrt_eps RNum) d ->
    rl (fun x => @assoc_site_frac_ab RNum (d x) na nb) (assoc_site_frac_ab d2 na2 nb2).
  Proof.
    intros Hd Ha Hb H0 Ha0 Hb0 Hbr. unfold assoc_site_frac_ab. apply (tr_br _ _ TR); auto.
    assert (E := tr_ltb _ _ TR (fun _ => @sqrt_eps RNum) d sqrt_eps d2 ltac:(apply (tr_lit _ _ TR)) Hd).
    rewrite E. cbv beta. change (@nltb RNum) with Rltb. rewrite sqrt_eps_c.
    destruct (Rltb (/ 67108864) (d x0)) eqn:El0.
    - apply Rltb_true in El0. assert (0 < d x0) by lra. tr TR; rn.
      + pose proof (disc_pos (d x0) na nb H Ha0 Hb0). lra.
      + assert (0 < d x0 * na) by (apply Rmult_lt_0_compat; auto). lra.
    - tr TR.
  Qed.
  Lemma tr_frac_a d d2 na na2 : rl d d2 -> rl (fun _ => na) na2 ->
    0 <= d x0 -> 0 < na -> brok TR (fun _ => @sqrt_eps RNum) d ->
    rl (fun x => @assoc_site_frac_a RNum (d x) na) (assoc_site_frac_a d2 na2).
  Proof.
    intros Hd Ha H0 Ha0 Hbr. unfold assoc_site_frac_a. apply (tr_br _ _ TR); auto.
    assert (E := tr_ltb _ _ TR (fun _ => @sqrt_eps RNum) d sqrt_eps d2 ltac:(apply (tr_lit _ _ TR)) Hd).
    rewrite E. cbv beta. change (@nltb RNum) with Rltb. rewrite sqrt_eps_c.
    destruct (Rltb (/ 67108864) (d x0)) eqn:El0.
    - apply Rltb_true in El0. assert (0 < d x0) by lra. assert (0 < d x0 * na) by (apply Rmult_lt_0_compat; auto).
      tr TR; rn; nra.
    - tr TR.
  Qed.

  Hypothesis Hpe : 0 <= packing p (t x0) (s_rho (s x0)) < 1.
  Variable a : nat.
  Hypothesis Ha : p_assoc_comp p = [a].
  Let na := @ix RNum (p_na p) a.
  Let nb := @ix RNum (p_nb p) a.
  Definition drho (x : Pt) : R :=
    @nmul RNum (association_strength p (t x) (seg_radius p (t x)) (assoc_n2 p (t x) (s_rho (s x))) (n3i x) (@n1 RNum) a a)
      (@ix RNum (s_rho (s x)) a).
  Lemma a_lt : (a < n)%nat.
  Proof. exact (assoc_lt p W a Ha). Qed.
  Lemma tr_drho : rl drho (nmul (association_strength q t2 (seg_radius q t2) (assoc_n2 q t2 (s_rho s2)) n3i2 n1 a a) (ix (s_rho s2) a)).
  Proof.
    unfold drho. apply (tr_mul _ _ TR).
    - apply tr_strength; try exact a_lt; [exact tr_n2 | exact (tr_n3i Hpe) | exact (tr_n1 TR)].
    - apply (tr_ix TR). exact tr_rho.
  Qed.

  Theorem tr_assoc : 0 <= drho x0 -> 0 < na -> (0 < nb -> na + nb <= 67108864) ->
    brok TR (fun _ => @sqrt_eps RNum) drho -> rl (fun x => a_assoc p (s x)) (a_assoc q s2).
  Proof.
    intros Hd0 Ha0 Hab Hbr. unfold a_assoc. change (p_assoc_comp q) with (p_assoc_comp p). rewrite Ha. change (ixn [a] 0) with a.
    cbv zeta.
    assert (Ea : rl (fun _ => na) (ix (p_na q) a)) by exact (tr_ix1 TR (p_na p) a).
    assert (Eb : rl (fun _ => nb) (ix (p_nb q) a)) by exact (tr_ix1 TR (p_nb p) a).
    assert (Em : rl (fun x => @ix RNum (s_moles (s x)) a) (ix (s_moles s2) a)) by (apply (tr_ix TR); exact Tm).
    assert (El := tr_ltb _ _ TR _ _ _ _ (tr_n0 TR) Eb). rewrite El. cbv beta.
    change (@ix RNum (p_na p) a) with na. change (@ix RNum (p_nb p) a) with nb.
    pose proof tr_drho as Hd.
    destruct (@nltb RNum (@n0 RNum) nb) eqn:El0.
    - change (@nltb RNum) with Rltb in El0. apply Rltb_true in El0. assert (Hb0 : 0 < nb) by (unfold n0 in El0; rn_in El0; lra). specialize (Hab Hb0). clear El0.
      assert (Hx := tr_frac_ab drho _ na nb _ _ Hd Ea Eb Hd0 Ha0 Hb0 Hbr).
      set (fx := fun x => @assoc_site_frac_ab RNum (drho x) na nb) in *.
      assert (P : 0 < fx x0 /\ 0 < (fx x0 - 1) * (na / nb) + 1).
      { unfold fx. destruct (Rlt_or_le (/ 67108864) (drho x0)) as [C | C].
        - rewrite assoc_site_frac_ab_above by auto.
          destruct (frac_ab_law (drho x0) na nb) as ([? _] & [? _] & _); auto; lra.
        - destruct (Req_dec (drho x0) 0) as [E | E].
          + rewrite E, assoc_site_frac_ab_below by lra. split; [lra | ].
            replace ((1 + 0 * nb * (0 * (nb + na) - 1) - 1) * (na / nb) + 1) with 1 by ring. lra.
          + rewrite assoc_site_frac_ab_below by auto.
            assert (drho x0 * (na + nb) <= 1).
            { apply Rle_trans with (/ 67108864 * 67108864); [ | lra]. apply Rmult_le_compat; lra. }
            destruct (frac_ab_expansion (drho x0) na nb) as ([? _] & [? _] & _); auto; lra. }
      destruct P as [P1 P2].
      apply (tr_mul _ _ TR); auto. apply (tr_add _ _ TR); apply (tr_mul _ _ TR); auto.
      + apply (tr_f_assoc fx); auto.
      + apply (tr_f_assoc (fun x => @nadd RNum (@nmul RNum (@nsub RNum (fx x) (@nlit RNum 1%Q)) (@ndiv RNum na nb)) (@nlit RNum 1%Q))).
        * tr TR. lra.
        * rn. exact P2.
    - clear El0.
      assert (Hx := tr_frac_a drho _ na _ Hd Ea Hd0 Ha0 Hbr).
      assert (P : 0 < @assoc_site_frac_a RNum (drho x0) na).
      { destruct (Rlt_or_le (/ 67108864) (drho x0)) as [C | C].
        - pose proof (assoc_site_frac_a_gt2 (drho x0) na C Ha0). lra.
        - unfold assoc_site_frac_a. rewrite sqrt_eps_R. rn. rewrite (proj2 (Rltb_false _ _)) by auto.
          generalize (drho x0 * na). intros y. pose proof (pow2_ge_0 (y - / 4)). nra. }
      apply (tr_mul _ _ TR); auto. apply (tr_mul _ _ TR); auto.
      exact (tr_f_assoc (fun x => @assoc_site_frac_a RNum (drho x) na) _ Hx P).
  Qed.
End Contributions.
