(** Every contribution of the equation of state as volume times a textbook energy density. *)
From Coq Require Import ZArith QArith Reals Lra Lia List Bool Psatz.
From Verif Require Import Num RNum RSum Tables M_Params F_Params M_Eos Spec F_Spec F_SpecPolar F_SpecAssoc.
Import ListNotations.
Local Open Scope R_scope.

Lemma pade_R (a b v : R) : @pade RNum a b v = v * pade2 a b.
Proof. unfold pade, pade2; rn. unfold Rdiv. ring. Qed.

Lemma Zeta_pos_gen p t rho k : phys p -> (forall i, (i < length (p_m p))%nat -> 0 < Di (mix_of p) t i) ->
  (forall i, (i < length (p_m p))%nat -> 0 <= rho i) ->
  (exists i, (i < length (p_m p))%nat /\ 0 < rho i) -> 0 < Zeta (mix_of p) t rho k.
Proof.
  intros Hph HD Hr (i & Hi & Hp). unfold Zeta. apply Rmult_lt_0_compat.
  { pose proof PI_RGT_0. lra. }
  apply (rsum_pos _ _ i).
  - intros j Hj. apply seq_in in Hj. change (N (mix_of p)) with (length (p_m p)) in Hj.
    apply Rmult_le_pos; [apply Rmult_le_pos; auto; left; apply Hph; auto | ].
    left. apply pow_lt. auto.
  - apply seq_in; auto.
  - apply Rmult_lt_0_compat; [apply Rmult_lt_0_compat; auto; apply Hph; auto | ].
    apply pow_lt; auto.
Qed.

(** a physically meaningful state: positive temperature and volume, non-negative amounts, not
    empty, packing fraction below one *)
Record phys_state (p : params RNum) (t v : R) (moles : list R) : Prop := {
  ps_t : 0 < t;
  ps_v : 0 < v;
  ps_len : length moles = length (p_m p);
  ps_nonneg : forall i, (i < length (p_m p))%nat -> 0 <= nth i moles 0;
  ps_nonempty : exists i, (i < length (p_m p))%nat /\ 0 < nth i moles 0;
  ps_eta : Eta (mix_of p) t (fun i => nth i moles 0 / v) < 1 }.

Section Contrib.
  Variable p : params RNum.
  Hypothesis W : wfp p.
  Hypothesis Hph : phys p.
  Let X := mix_of p.
  Let n := length (p_m p).
  Variables (t v : R) (moles : list R).
  Hypothesis PS : phys_state p t v moles.
  Let s := @state_new RNum t v moles.
  Let rho i := nth i moles 0 / v.

  Lemma rho_nonneg i : (i < n)%nat -> 0 <= rho i.
  Proof.
    intros Hi. unfold rho. apply Rmult_le_pos; [apply (ps_nonneg _ _ _ _ PS); auto | ].
    left. apply Rinv_0_lt_compat. apply (ps_v _ _ _ _ PS).
  Qed.
  Lemma rho_nonempty : exists i, (i < n)%nat /\ 0 < rho i.
  Proof.
    destruct (ps_nonempty _ _ _ _ PS) as (i & Hi & Hp). exists i; split; auto.
    unfold rho. apply Rdiv_lt_0_compat; auto. apply (ps_v _ _ _ _ PS).
  Qed.
  Lemma D_pos i : (i < n)%nat -> 0 < Di X t i.
  Proof. apply (Di_pos p Hph). apply (ps_t _ _ _ _ PS). Qed.
  Lemma Zeta_pos k : 0 < Zeta X t rho k.
  Proof. apply Zeta_pos_gen; auto; [apply D_pos | apply rho_nonneg | apply rho_nonempty]. Qed.
  Lemma Zeta3_lt1 : Zeta X t rho 3 < 1.
  Proof. apply (ps_eta _ _ _ _ PS). Qed.
  Lemma Rho_pos : 0 < Rho X rho.
  Proof.
    destruct rho_nonempty as (i & Hi & Hp). unfold Rho. apply (rsum_pos _ _ i); auto.
    - intros j Hj. apply seq_in in Hj. apply rho_nonneg; auto.
    - apply seq_in; auto.
  Qed.
  Lemma Mbar_pos : 0 < Mbar X rho.
  Proof.
    unfold Mbar. apply Rdiv_lt_0_compat; [ | apply Rho_pos].
    destruct rho_nonempty as (i & Hi & Hp). apply (rsum_pos _ _ i); auto.
    - intros j Hj. apply seq_in in Hj. apply Rmult_le_pos; [apply rho_nonneg; auto | ].
      left; apply Hph; auto.
    - apply seq_in; auto.
    - apply Rmult_lt_0_compat; auto. apply Hph; auto.
  Qed.

  Let Hv : v <> 0.
  Proof. pose proof (ps_v _ _ _ _ PS). lra. Qed.
  Let Lm : length moles = n := ps_len _ _ _ _ PS.

  Theorem hs_textbook : a_hs p s = v * f_hs X t rho.
  Proof.
    apply a_hs_spec; auto.
    - pose proof Rho_pos; unfold rho in *; intros E; fold X in E. lra.
    - pose proof (Zeta_pos 3). unfold rho, X in *; lra.
    - pose proof Zeta3_lt1. unfold rho, X in *; lra.
  Qed.
  Theorem hc_textbook : a_hc p s = v * f_hc X t rho.
  Proof.
    apply a_hc_spec; auto.
    - pose proof Zeta3_lt1. unfold rho, X in *; lra.
    - intros i Hi. pose proof (D_pos i Hi). unfold X in *; lra.
  Qed.
  Theorem disp_textbook : a_disp p s = v * f_disp X t rho.
  Proof. apply a_disp_spec; auto. Qed.

  Let Hr : forall i, (i < n)%nat -> @ix RNum (s_rho s) i = rho i.
  Proof. intros. apply (s_rho_ix p t v moles); auto. Qed.
  Let Hpack : packing p t (s_rho s) = Eta X t rho.
  Proof. apply packing_spec; auto. Qed.

  Theorem dipole_textbook : a_dipole p s = v * f_dd X t rho.
  Proof.
    unfold a_dipole. change (s_t s) with t. change (s_v s) with v.
    rewrite Hpack, pade_R. unfold X.
    rewrite (dipole_phi2_spec p W Hph t _ rho Hr), (dipole_phi3_spec p W Hph t _ rho Hr).
    reflexivity.
  Qed.
  Theorem quadrupole_code : a_quadrupole p s = v * pade2 (qq2_code X t rho) (qq3 X t rho).
  Proof.
    unfold a_quadrupole. change (s_t s) with t. change (s_v s) with v.
    rewrite Hpack, pade_R. unfold X.
    rewrite (quad_phi2_spec p W Hph t _ rho Hr), (quad_phi3_spec p W Hph t _ rho Hr).
    reflexivity.
  Qed.
  (** with a common diameter of all quadrupolar species the code agrees with the literature *)
  Lemma qq2_code_equal : (forall i j, (i < n)%nat -> (j < n)%nat -> Qu2 X i <> 0 -> Qu2 X j <> 0 ->
      Sg X i = Sg X j) -> qq2_code X t rho = qq2 X t rho.
  Proof.
    intros H. unfold qq2_code, qq2. f_equal. apply Sum_ext; intros i Hi. apply Sum_ext; intros j Hj.
    change (N X) with n in *.
    destruct (Req_EM_T (Qu2 X i) 0) as [E | Ei]; [rewrite E; unfold Rdiv; ring | ].
    destruct (Req_EM_T (Qu2 X j) 0) as [E | Ej]; [rewrite E; unfold Rdiv; ring | ].
    pose proof (H i j Hi Hj Ei Ej) as E.
    replace (Sij X i j) with (Sg X (Nat.min i j)); auto.
    unfold Sij. destruct (Nat.min_spec i j) as [[_ ->] | [_ ->]]; lra.
  Qed.
  Theorem quadrupole_textbook :
    (forall i j, (i < n)%nat -> (j < n)%nat -> Qu2 X i <> 0 -> Qu2 X j <> 0 -> Sg X i = Sg X j) ->
    a_quadrupole p s = v * f_qq X t rho.
  Proof. intros H. rewrite quadrupole_code, qq2_code_equal by auto. reflexivity. Qed.
  Theorem dq_textbook var :
    a_dq p var s = v * f_dq X t rho (fst (dq_exps var)) (snd (dq_exps var)).
  Proof.
    unfold a_dq. change (s_t s) with t. change (s_v s) with v.
    rewrite Hpack, pade_R. unfold X.
    rewrite (dq_phi2_spec p W Hph t _ rho Hr), (dq_phi3_spec p W t _ rho Hr).
    reflexivity.
  Qed.

  (* association with one associating component *)
  Variable a : nat.
  Hypothesis Ha : p_assoc_comp p = [a].

  Lemma assoc_unique i : (i < n)%nat -> (Kab X i <> 0 <-> i = a).
  Proof.
    intros Hi. assert (In i (p_assoc_comp p) <-> Kab X i <> 0) as E.
    { rewrite (w_ass _ W), filter_In, seq_in, nonzero_R. fold n. change (Kab X i) with (@ix RNum (p_kappa_ab p) i). tauto. }
    rewrite <- E, Ha. simpl. intuition.
  Qed.
  Lemma assoc_lt : (a < n)%nat.
  Proof.
    assert (In a (p_assoc_comp p)) as E by (rewrite Ha; left; auto).
    rewrite (w_ass _ W), filter_In, seq_in in E. tauto.
  Qed.
  Lemma Delta_zero i j : (i < n)%nat -> (j < n)%nat -> i <> a \/ j <> a -> Delta X t rho i j = 0.
  Proof.
    intros Hi Hj H. unfold Delta, Kapij.
    assert (Kab X i * Kab X j = 0) as E.
    { destruct H as [H | H].
      - destruct (Req_EM_T (Kab X i) 0) as [-> | E]; [ring | ]. apply assoc_unique in E; auto; contradiction.
      - destruct (Req_EM_T (Kab X j) 0) as [-> | E]; [ring | ]. apply assoc_unique in E; auto; contradiction. }
    rewrite E, sqrt_0. ring.
  Qed.
  Lemma assoc_deltarho :
    (association_strength p t (seg_radius p t) (assoc_n2 p t (s_rho s))
      (nrecip (- packing p t (s_rho s) + $1)) n1 a a * ix (s_rho s) a)%num
    = Delta X t rho a a * rho a.
  Proof.
    rewrite Hpack, Hr by apply assoc_lt.
    replace (assoc_n2 p t (s_rho s)) with (6 * Zeta X t rho 2)
      by (symmetry; apply assoc_n2_spec; auto).
    pose proof Zeta3_lt1.
    rn. replace (- Eta X t rho + 1) with (1 - Zeta X t rho 3) by (unfold Eta; ring).
    rewrite (association_strength_spec p W Hph t v moles); auto; try apply assoc_lt.
    - apply (ps_t _ _ _ _ PS).
    - unfold rho, X in *. lra.
  Qed.

  (** site fractions the code uses, as functions over all components *)
  Definition xa_code (i : nat) : R :=
    if Nat.eqb i a then @assoc_site_frac_ab RNum (Delta X t rho a a * rho a) (Na X a) (Nb X a) else 1.
  Definition xb_code (i : nat) : R :=
    if Nat.eqb i a then (xa_code a - 1) * (Na X a / Nb X a) + 1 else 1.

  Lemma fx_1 : fx 1 = 0.
  Proof. unfold fx. rewrite ln_1. lra. Qed.
  Lemma f_assoc_R (x : R) : @f_assoc RNum x = fx x.
  Proof. unfold f_assoc, fx. rn. lra. Qed.

  Theorem assoc_two_site_energy : 0 < Nb X a ->
    a_assoc p s = v * f_assoc_xx X rho xa_code xb_code.
  Proof.
    intros Hb. unfold a_assoc. rewrite Ha. change (ixn [a] 0) with a. cbv zeta.
    change (s_t s) with t. rewrite assoc_deltarho.
    change (@ix RNum (p_na p) a) with (Na X a). change (@ix RNum (p_nb p) a) with (Nb X a).
    rn. rewrite (proj2 (Rltb_true 0 (Nb X a))) by auto. rewrite !f_assoc_R.
    unfold f_assoc_xx. change (N X) with n. rewrite (Sum_single n a).
    - unfold xb_code, xa_code. rewrite Nat.eqb_refl.
      change (@ix RNum (s_moles s) a) with (nth a moles 0).
      rn. set (xa := assoc_site_frac_ab _ _ _). set (F := fx xa). set (G := fx _).
      change (rho a) with (nth a moles 0 / v). field. auto.
    - apply assoc_lt.
    - intros j Hj Hn. unfold xb_code, xa_code. apply Nat.eqb_neq in Hn. rewrite Hn, fx_1. ring.
  Qed.

  Theorem assoc_two_site_mass_action : 0 < Na X a -> 0 < Nb X a ->
    / 67108864 < Delta X t rho a a * rho a ->
    mass_action X t rho xa_code xb_code /\
    (forall i, 0 < xa_code i <= 1 /\ 0 < xb_code i <= 1).
  Proof.
    intros Hna Hnb Hd.
    set (d := Delta X t rho a a * rho a) in *.
    destruct (frac_ab_law d (Na X a) (Nb X a)) as (Pa & Pb & L1 & L2); auto; [lra | ].
    assert (Exa : xa_code a = frac_ab d (Na X a) (Nb X a)).
    { unfold xa_code. rewrite Nat.eqb_refl. apply assoc_site_frac_ab_above; auto. }
    assert (Exb : xb_code a = (frac_ab d (Na X a) (Nb X a) - 1) * (Na X a / Nb X a) + 1).
    { unfold xb_code. rewrite Nat.eqb_refl, Exa. auto. }
    split.
    - intros i Hi. change (N X) with n in *.
      rewrite (Sum_single n a), (Sum_single n a).
      + destruct (Nat.eq_dec i a) as [-> | Hn].
        * rewrite Exa, Exb. split.
          -- eapply eq_trans; [ | exact L1]. set (x := frac_ab _ _ _). unfold d. ring.
          -- eapply eq_trans; [ | exact L2]. set (x := frac_ab _ _ _). unfold d. ring.
        * rewrite Delta_zero by auto using assoc_lt. unfold xb_code, xa_code.
          apply Nat.eqb_neq in Hn. rewrite Hn. lra.
      + apply assoc_lt.
      + intros j Hj Hn. rewrite Delta_zero by auto. ring.
      + apply assoc_lt.
      + intros j Hj Hn. rewrite Delta_zero by auto. ring.
    - intros i. destruct (Nat.eq_dec i a) as [-> | Hn].
      + rewrite Exa, Exb. lra.
      + unfold xb_code, xa_code. apply Nat.eqb_neq in Hn. rewrite Hn. lra.
  Qed.
End Contrib.
