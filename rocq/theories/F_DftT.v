(** Transfer of the Helmholtz energy functionals: the evaluation with nested dual numbers at a
    grid point represents the derivatives of the plain evaluation with respect to temperature and
    weighted densities. *)
From Coq Require Import ZArith QArith Reals Lra Lia List Bool.
From Coquelicot Require Import Coquelicot.
From Verif Require Import Num RNum RSum Tables M_Params F_Params M_Eos M_Dft Spec F_Spec F_SpecPolar F_SpecAssoc
  F_Contrib F_Cross F_Transfer F_TransferS XNum DNum F_Level P_Dual F_Virial F_DualRun F_Dft P_Dual3.
Import ListNotations.
Local Open Scope R_scope.
Set Bullet Behavior "Strict Subproofs".

(** the Pade approximant of the functionals (without the volume) *)
Lemma d_pade_sep (L : level) f g a b : rel (lT L) f a -> rel (lT L) g b -> f (lz L) <> g (lz L) ->
  rel (lT L) (fun z => @d_pade RNum (f z) (g z)) (d_pade a b).
Proof.
  intros A B N.
  assert (Hr : rel (lT L) (fun x => @ndiv RNum (@nmul RNum (f x) (f x)) (@nsub RNum (f x) (g x))) (ndiv (nmul a a) (nsub a b))).
  { apply (tr_div _ _ (lT L)); [apply (tr_mul _ _ (lT L)) | apply (tr_sub _ _ (lT L)) | rn; lra]; auto. }
  unfold d_pade. cbn zeta. rewrite (rel_nan L _ _ Hr). exact Hr.
Qed.
Lemma d_pade_nan n f g (a b : car (lK (dual n))) : rel (TRn n) f a -> rel (TRn n) g b ->
  f (lz (dual n)) = 0 -> g (lz (dual n)) = 0 -> nisnan (ndiv (nmul a a) (nsub a b)) = true.
Proof.
  revert f g a b. induction n as [ | n IH]; intros f g a b A B Ef Eg.
  - cbn in A, B. subst a b. change (f tt = 0) in Ef. change (g tt = 0) in Eg. rewrite Ef, Eg. cbn.
    destruct (Req_EM_T (0 + - 0) 0); [ | lra]. rewrite Rmult_0_l, sgn_inf_0. reflexivity.
  - destruct a as [a a'], b as [b b']. destruct A as [A _]. destruct B as [B _]. exact (IH _ _ a b A B Ef Eg).
Qed.
Lemma d_pade_zero n f g (a b : car (lK (dual n))) : rel (TRn n) f a -> rel (TRn n) g b ->
  f (lz (dual n)) = 0 -> g (lz (dual n)) = 0 -> rel (TRn n) f (d_pade a b).
Proof. intros A B Ef Eg. unfold d_pade. cbn zeta. rewrite (d_pade_nan n f g a b) by auto. exact A. Qed.

Section Functionals.
  Variable p : params RNum.
  Hypothesis W : wfp p.
  Hypothesis Hph : phys p.
  Variable k : nat.
  Let TR : Transfer (lK (dual k)) (lz (dual k)) := TRn k.
  Notation rl := (rel TR).
  Notation x0 := (lz (dual k)).
  Let q : params (lK (dual k)) := plift (emb TR) p.
  Let n := length (p_m p).
  Variables (t : pt k -> R) (t2 : car (lK (dual k))).
  Variables (wd : pt k -> list R) (wd2 : list (car (lK (dual k)))).
  Hypothesis Tt : rl t t2.
  Hypothesis Tw : lrel TR wd wd2.
  Hypothesis Ht : 0 < t x0.

  Let st (x : pt k) : state RNum := mkState (K := RNum) (t x) 1 nil nil nil.
  Let st2 : state (lK (dual k)) := mkState t2 n1 nil nil nil.
  Lemma qlen : length (p_m q) = n.
  Proof. exact (len_m TR p). Qed.
  Lemma w_len x : length (wd x) = length wd2.
  Proof. exact (lrel_length TR wd wd2 x Tw). Qed.
  Lemma w_ix i : rl (fun x => @ix RNum (wd x) i) (ix wd2 i).
  Proof. apply (tr_ix TR). exact Tw. Qed.
  Lemma T_hs : lrel TR (fun x => @hs_diameter RNum p (t x)) (hs_diameter q t2).
  Proof. exact (tr_hs_diameter TR p st st2 Tt Ht). Qed.
  Lemma T_seg : lrel TR (fun x => @seg_radius RNum p (t x)) (seg_radius q t2).
  Proof. exact (tr_seg_radius TR p st st2 Tt Ht). Qed.
  Lemma hs_p i : (i < n)%nat -> 0 < @ix RNum (hs_diameter p (t x0)) i.
  Proof. exact (d_pos p W Hph st Ht i). Qed.
  Lemma seg_p i : (i < n)%nat -> 0 < @ix RNum (seg_radius p (t x0)) i.
  Proof. exact (radius_pos p W Hph st Ht i). Qed.
  Lemma sep_br f g a b : rl f a -> rl g b -> f x0 <> g x0 -> brok TR f g.
  Proof. exact (brok_sep k f g a b). Qed.

  (* ---------------------------------------------------------------------------- chains *)
  (** [lambda] with the sign it has at the point: the plain function away from zero, and its
      branch for positive arguments at zero *)
  Definition lam_branch (l : pt k -> R) (x : pt k) : R := if Rltb (l x0) 0 then - l x + @f_eps RNum else l x + @f_eps RNum.
  Lemma T_lam l l2 : rl l l2 -> rl (lam_branch l) (lambda_reg l2).
  Proof.
    intros H. unfold lambda_reg. rewrite (tr_ltb _ _ TR _ _ _ _ H (tr_n0 TR)).
    replace (@nltb RNum (l x0) (@n0 RNum)) with (Rltb (l x0) 0) by (unfold n0; rn; reflexivity). unfold lam_branch.
    destruct (Rltb (l x0) 0); unfold f_eps; tr TR.
  Qed.
  Lemma lam_plain l l2 : rl l l2 -> l x0 <> 0 -> near (dual k) (fun x => lam_branch l x = @lambda_reg RNum (l x)).
  Proof.
    intros H N. unfold lam_branch. destruct (Rlt_or_le (l x0) 0) as [C | C].
    - rewrite (proj2 (Rltb_true _ _)) by auto. eapply near_imp; [ | exact (rel_lt (dual k) _ _ 0 H C)].
      intros z Hz. cbv beta in Hz. unfold lambda_reg. rn. rewrite (proj2 (Rltb_true _ _)) by auto. reflexivity.
    - assert (C' : 0 < l x0) by lra. rewrite (proj2 (Rltb_false _ _)) by auto. eapply near_imp; [ | exact (rel_gt (dual k) _ _ 0 H C')].
      intros z Hz. cbv beta in Hz. unfold lambda_reg. rn. rewrite (proj2 (Rltb_false _ _)) by lra. reflexivity.
  Qed.
  Lemma lam_nonneg l x : 0 <= l x0 -> 0 <= l x -> lam_branch l x = @lambda_reg RNum (l x).
  Proof. intros H0 H. unfold lam_branch. rewrite (proj2 (Rltb_false _ _)) by auto. rewrite lambda_reg_R by auto. reflexivity. Qed.
  Lemma f_eps_p : 0 < @f_eps RNum.
  Proof. exact f_eps_pos. Qed.
  Lemma lam_pos l : 0 < lam_branch l x0.
  Proof.
    pose proof f_eps_p. unfold lam_branch. destruct (Rltb (l x0) 0) eqn:E.
    - apply Rltb_true in E. lra.
    - apply Rltb_false in E. lra.
  Qed.

  Definition chain_gen (m : nat) (lam : nat -> pt k -> R) (x : pt k) : R :=
    @nsubs RNum (mk1 m (fun i =>
      @nmul RNum (@nmul RNum (@nsub RNum (@nln RNum (@nmul RNum (@chain_yi RNum (@ix RNum (hs_diameter p (t x)) i) (@ix RNum (wd x) (2 * m))
         (@nrecip RNum (@nadd RNum (@nopp RNum (@ix RNum (wd x) (2 * m + 1))) (@nlit RNum 1%Q)))) (lam i x))) (@nlit RNum 1%Q))
         (@ix RNum (wd x) i)) (@nsub RNum (@ix RNum (p_m p) i) (@nlit RNum 1%Q)))).
  Lemma chain_yi_pos (d z2 z3 : R) : 0 < d -> 0 <= z2 -> z3 < 1 ->
    0 < @chain_yi RNum d z2 (@nrecip RNum (@nadd RNum (@nopp RNum z3) (@nlit RNum 1%Q))).
  Proof.
    intros Hd H2 H3. unfold chain_yi. cbn zeta. rn. assert (0 < / (- z3 + 1)) by (apply Rinv_0_lt_compat; lra).
    set (f := / (- z3 + 1)) in *. assert (0 <= z2 * d) by (apply Rmult_le_pos; lra).
    assert (0 <= z2 * d * f) by (apply Rmult_le_pos; lra). assert (0 <= z2 * d * f * f) by (apply Rmult_le_pos; lra).
    assert (0 <= z2 * d * f * f * (z2 * d * f * (1 / 2) + 3 / 2)) by (apply Rmult_le_pos; lra).
    lra.
  Qed.
  Let m := Nat.div (length wd2 - 2) 2.
  Hypothesis Hm : (m <= n)%nat.
  Lemma T_chain_gen lam : (forall i, (i < m)%nat -> rl (lam i) (lambda_reg (ix wd2 (m + i))) /\ 0 < lam i x0) ->
    0 <= @ix RNum (wd x0) (2 * m) -> @ix RNum (wd x0) (2 * m + 1) < 1 ->
    rl (chain_gen m lam) (phi_chain q t2 wd2).
  Proof.
    intros Hl H2 H3. unfold chain_gen, phi_chain. cbv zeta. fold m. apply (tr_nsubs TR).
    apply (lrel_mk1 TR m). intros i Hi. destruct (Hl i Hi) as [L1 L2]. pose proof T_hs. pose proof Tw.
    apply (tr_mul _ _ TR); [apply (tr_mul _ _ TR) | tr TR]; [ | tr TR].
    apply (tr_sub _ _ TR); [ | tr TR]. apply (tr_ln _ _ TR).
    - apply (tr_mul _ _ TR); [ | exact L1]. unfold chain_yi. cbn zeta. tr TR. all: rn; lra.
    - rn. apply Rmult_lt_0_compat; [ | exact L2]. apply chain_yi_pos; auto. apply hs_p. lia.
  Qed.
  Lemma chain_plain x : phi_chain p (t x) (wd x) = chain_gen m (fun i x => @lambda_reg RNum (@ix RNum (wd x) (m + i))) x.
  Proof. unfold phi_chain. cbv zeta. lenR. rewrite w_len. reflexivity. Qed.

  (* ------------------------------------------------------------------------ attraction *)
  Lemma T_att_eta : rl (fun x => att_eta p (t x) (wd x)) (att_eta q t2 wd2).
  Proof.
    unfold att_eta. cbn zeta. rewrite qlen. pose proof Tw. pose proof T_seg. unfold frac_pi_3.
    apply (tr_nsumi TR). intros i Hi. tr TR. rn. lra.
  Qed.
  Lemma T_rhog : rl (fun x => @nsumi RNum n (fun i => @ix RNum (wd x) i)) (nsumi n (fun i => ix wd2 i)).
  Proof. apply (tr_nsumi TR). intros i Hi. apply w_ix. Qed.
  Definition total_density (l : list R) : R := Sum i < n, @ix RNum l i.
  Hypothesis Hrho : forall i, (i < n)%nat -> 0 <= @ix RNum (wd x0) i.
  Lemma m_bar_pos : 0 < att_m_bar p (wd x0).
  Proof.
    unfold att_m_bar. cbn zeta. change (@nltb RNum) with Rltb. destruct (Rltb _ _) eqn:E; [ | unfold n1; rn; lra].
    apply Rltb_true in E. pose proof f_eps_p. rewrite !nsumi_R in *. fold n. fold n in E. rn.
    apply Rdiv_lt_0_compat; [ | lra].
    assert (exists i, (i < n)%nat /\ 0 < @ix RNum (wd x0) i) as (i & Hi & Hp).
    { assert (Hs : 0 < Sum i < n, @ix RNum (wd x0) i) by lra. clear - Hs Hrho.
      destruct (Classical_Prop.classic (exists i, (i < n)%nat /\ 0 < @ix RNum (wd x0) i)) as [? | C]; auto. exfalso.
      assert (Sum i < n, @ix RNum (wd x0) i = 0); [ | lra]. apply rsum_zero. intros i Hi. apply seq_in in Hi.
      destruct (Rle_lt_or_eq_dec _ _ (Hrho i Hi)); auto. exfalso. apply C. exists i; auto. }
    apply (rsum_pos _ _ i).
    - intros j Hj. apply seq_in in Hj. destruct (Hph j Hj) as (Hmm & _). apply Rmult_le_pos; [auto | left; exact Hmm].
    - apply seq_in; auto.
    - destruct (Hph i Hi) as (Hmm & _). apply Rmult_lt_0_compat; auto.
  Qed.
  Hypothesis Hsep : total_density (wd x0) <> @f_eps RNum.
  Lemma T_m_bar : rl (fun x => att_m_bar p (wd x)) (att_m_bar q wd2).
  Proof.
    unfold att_m_bar. cbn zeta. rewrite qlen. fold n. pose proof T_rhog as Hg. pose proof Tw.
    assert (Hs : @nsumi RNum n (fun i => @ix RNum (wd x0) i) <> @f_eps RNum) by (rewrite nsumi_R; exact Hsep).
    assert (He : rl (fun _ => @f_eps RNum) f_eps) by apply (tr_lit _ _ TR).
    apply (tr_br _ _ TR (fun _ => @f_eps RNum) (fun x => @nsumi RNum n (fun i => @ix RNum (wd x) i))
       (fun x => @ndiv RNum (@nsumi RNum n (fun i => @nmul RNum (@ix RNum (wd x) i) (@ix RNum (p_m p) i))) (@nsumi RNum n (fun i => @ix RNum (wd x) i)))
       (fun _ => @n1 RNum)).
    - apply (sep_br _ _ _ _ He Hg). auto.
    - rewrite (tr_ltb _ _ TR _ _ _ _ He Hg). change (@nltb RNum) with Rltb. destruct (Rltb _ _) eqn:E; [ | apply (tr_n1 TR)].
      apply Rltb_true in E. pose proof f_eps_p. apply (tr_div _ _ TR); auto.
      + apply (tr_nsumi TR). intros i Hi. tr TR.
      + lra.
  Qed.
  Lemma T_att_series c0 c1 c2 mm m2 e e2 : rl mm m2 -> rl e e2 -> mm x0 <> 0 ->
    rl (fun x => @att_series RNum c0 c1 c2 (mm x) (e x)) (att_series c0 c1 c2 m2 e2).
  Proof.
    intros Hmm He H. unfold att_series. cbn zeta. apply (tr_nsumi TR). intros i Hi.
    apply (tr_mul _ _ TR); [ | apply (tr_run_pow TR); auto]. tr TR. all: auto.
  Qed.
  Lemma T_att_c1 mm m2 e e2 : rl mm m2 -> rl e e2 -> 0 < mm x0 -> 0 <= e x0 < 1 ->
    rl (fun x => @att_c1 RNum (mm x) (e x)) (att_c1 m2 e2).
  Proof.
    intros Hmm He H1 H2. unfold att_c1. apply (tr_recip _ _ TR).
    - tr TR.
      + apply pow_nonzero. rn. lra.
      + apply pow_nonzero. rn. apply Rmult_integral_contrapositive_currified; lra.
    - rn. apply Rgt_not_eq. pose proof (disp_c1_den (mm x0) (e x0) H1 H2) as D.
      apply (Rlt_le_trans _ _ _ D). right. unfold Rdiv. ring.
  Qed.
  Lemma T_att_mix1 : rl (fun x => att_rho1mix p (t x) (wd x)) (att_rho1mix q t2 wd2).
  Proof.
    unfold att_rho1mix. cbn zeta. rewrite qlen. pose proof Tw.
    apply (tr_nsum TR). apply (lrel_flat_map TR). intros i _. apply (lrel_mk1 TR). intros j _. tr TR. lra.
  Qed.
  Lemma T_att_mix2 : rl (fun x => att_rho2mix p (t x) (wd x)) (att_rho2mix q t2 wd2).
  Proof.
    unfold att_rho2mix. cbn zeta. rewrite qlen. pose proof Tw.
    apply (tr_nsum TR). apply (lrel_flat_map TR). intros i _. apply (lrel_mk1 TR). intros j _. tr TR. all: lra.
  Qed.
  Hypothesis Heta : att_eta p (t x0) (wd x0) < 1.
  Lemma eta_nonneg : 0 <= att_eta p (t x0) (wd x0).
  Proof.
    unfold att_eta. cbn zeta. rewrite nsumi_R. apply rsum_nonneg. intros i Hi. apply seq_in in Hi. unfold frac_pi_3. rn.
    destruct (Hph i Hi) as (Hmm & _). pose proof (seg_p i Hi). pose proof PI_RGT_0. change (@length R (p_m p)) with n in *.
    apply Rmult_le_pos; [apply Hrho; auto | ]. left. apply Rmult_lt_0_compat; [ | lra]. repeat apply Rmult_lt_0_compat; try lra; auto.
  Qed.
  Theorem T_att_disp : rl (fun x => phi_att_disp p (t x) (wd x)) (phi_att_disp q t2 wd2).
  Proof.
    unfold phi_att_disp. cbn zeta. pose proof m_bar_pos. pose proof eta_nonneg.
    pose proof T_m_bar as Hmb. pose proof T_att_eta as Hpk.
    repeat first [apply (tr_mul _ _ TR) | apply (tr_sub _ _ TR) | apply (tr_opp _ _ TR)].
    - apply T_att_mix1.
    - apply T_att_series; auto. lra.
    - tr TR.
    - apply T_att_mix2.
    - apply Hmb.
    - apply T_att_c1; auto.
    - apply T_att_series; auto. lra.
    - tr TR.
  Qed.

  (* ----------------------------------------------------------------------------- polar *)
  Lemma T_dpair m1 m2 m1' m2' e e2 a b f f2 : rl m1 m1' -> rl m2 m2' -> rl e e2 -> rl f f2 ->
    rl (fun x => @d_pair_integral_ij RNum (m1 x) (m2 x) (e x) a b (f x)) (d_pair_integral_ij m1' m2' e2 a b f2).
  Proof.
    intros. unfold d_pair_integral_ij. apply (tr_nsumi TR). intros i Hi.
    apply (tr_mul _ _ TR); [apply (tr_etas TR); auto | tr TR].
  Qed.
  Lemma T_dtriplet m1 m2 m1' m2' e e2 c : rl m1 m1' -> rl m2 m2' -> rl e e2 ->
    rl (fun x => @d_triplet_integral_ijk RNum (m1 x) (m2 x) (e x) c) (d_triplet_integral_ijk m1' m2' e2 c).
  Proof.
    intros. unfold d_triplet_integral_ijk. apply (tr_nsumi TR). intros i Hi.
    apply (tr_mul _ _ TR); [apply (tr_etas TR); auto | tr TR].
  Qed.
  Lemma T_dtriplet_dq m1 m1' e e2 c : rl m1 m1' -> rl e e2 ->
    rl (fun x => @d_triplet_integral_ijk_dq RNum (m1 x) (e x) c) (d_triplet_integral_ijk_dq m1' e2 c).
  Proof.
    intros. unfold d_triplet_integral_ijk_dq. apply (tr_nsumi TR). intros i Hi.
    apply (tr_mul _ _ TR); [apply (tr_etas TR); auto | tr TR].
  Qed.
  Let dlt := F_TransferS.dip_lt p W.
  Let qlt := F_TransferS.quad_lt p W.
  Lemma q_mcap c : rl (fun _ => @mcap RNum p c) (mcap q c).
  Proof. exact (tr_mcap TR p c). Qed.
  Lemma q_mseg2 a b : (a < n)%nat -> (b < n)%nat -> rl (fun _ => @mseg2 RNum p a b) (mseg2 q a b).
  Proof. exact (tr_mseg2 TR p Hph a b). Qed.
  Lemma q_mseg3 a b c : (a < n)%nat -> (b < n)%nat -> (c < n)%nat -> rl (fun _ => @mseg3 RNum p a b c) (mseg3 q a b c).
  Proof. exact (tr_mseg3 TR p Hph a b c). Qed.
  Lemma t_nz0 : t x0 <> 0. Proof. lra. Qed.
  Ltac pz := rn; apply Rgt_not_eq; unfold Rgt; repeat first [apply pow_lt | apply Rmult_lt_0_compat];
    try (apply (F_TransferS.sij_p p W Hph); assumption); try (apply (F_TransferS.sg_p p Hph); assumption).
  Ltac trp1 := match goal with
    | |- rel _ (fun x => d_pair_integral_ij _ _ _ _ _ _) _ => apply T_dpair
    | |- rel _ (fun x => d_triplet_integral_ijk _ _ _ _) _ => apply T_dtriplet
    | |- rel _ (fun x => d_triplet_integral_ijk_dq _ _ _) _ => apply T_dtriplet_dq
    | |- rel _ (fun x => frac1 _) _ => apply (tr_frac1 TR)
    | |- rel _ (fun x => frac2 _) _ => apply (tr_frac2 TR)
    | |- rel _ (fun x => mcap _ _) _ => apply q_mcap
    | |- rel _ (fun x => mseg2 _ _ _) _ => apply q_mseg2; assumption
    | |- rel _ (fun x => mseg3 _ _ _ _) _ => apply q_mseg3; assumption
    | |- _ => tr1 TR
    end.
  Ltac trp := repeat trp1.
  Ltac side := first
    [ exact t_nz0
    | apply Rgt_not_eq; apply (F_TransferS.mcap_p p Hph); assumption
    | apply Rgt_not_eq; apply (F_TransferS.mseg2_p p Hph); assumption
    | apply Rgt_not_eq; apply (F_TransferS.mseg3_p p Hph); assumption
    | pz; fail ].
  Section Eta.
    Variables (e : pt k -> R) (e2 : car (lK (dual k))).
    Hypothesis Hee : rl e e2.
    Lemma T_dipole_phi2 : rl (fun x => d_dipole_phi2 p (t x) (wd x) (e x)) (d_dipole_phi2 q t2 wd2 e2).
    Proof.
      unfold d_dipole_phi2. cbn zeta. pose proof Tw.
      change (p_ndipole q) with (p_ndipole p). change (p_dipole_comp q) with (p_dipole_comp p).
      apply (tr_mul _ _ TR); [ | tr TR]. apply (tr_nsubs TR). apply (tr_tri2 TR p).
      - intros i Hi. pose proof (dlt i Hi). trp. all: side.
      - intros i j Hi Hj. pose proof (dlt i Hi). pose proof (dlt j Hj). trp. all: side.
    Qed.
    Lemma T_dipole_phi3 : rl (fun x => d_dipole_phi3 p (t x) (wd x) (e x)) (d_dipole_phi3 q t2 wd2 e2).
    Proof.
      unfold d_dipole_phi3. cbn zeta. pose proof Tw. pose proof (tr_pi_sq TR).
      change (p_ndipole q) with (p_ndipole p). change (p_dipole_comp q) with (p_dipole_comp p).
      apply (tr_mul _ _ TR); [ | tr TR]. apply (tr_nsubs TR). apply (tr_tri3 TR p).
      - intros i Hi. pose proof (dlt i Hi). trp. all: side.
      - intros i j Hi Hj. pose proof (dlt i Hi). pose proof (dlt j Hj). trp. all: side.
      - intros i j Hi Hj. pose proof (dlt i Hi). pose proof (dlt j Hj). trp. all: side.
      - intros i j l Hi Hj Hl. pose proof (dlt i Hi). pose proof (dlt j Hj). pose proof (dlt l Hl). trp. all: side.
    Qed.
    Lemma T_quad_phi2 : rl (fun x => d_quad_phi2 p (t x) (wd x) (e x)) (d_quad_phi2 q t2 wd2 e2).
    Proof.
      unfold d_quad_phi2. cbn zeta. pose proof Tw.
      change (p_nquadpole q) with (p_nquadpole p). change (p_quadpole_comp q) with (p_quadpole_comp p).
      apply (tr_mul _ _ TR); [ | tr TR]. apply (tr_nsubs TR). apply (tr_tri2 TR p).
      - intros i Hi. pose proof (qlt i Hi). trp. all: side.
      - intros i j Hi Hj. pose proof (qlt i Hi). pose proof (qlt j Hj). trp. all: side.
    Qed.
    Lemma T_quad_phi3 : rl (fun x => d_quad_phi3 p (t x) (wd x) (e x)) (d_quad_phi3 q t2 wd2 e2).
    Proof.
      unfold d_quad_phi3. cbn zeta. pose proof Tw.
      change (p_nquadpole q) with (p_nquadpole p). change (p_quadpole_comp q) with (p_quadpole_comp p).
      apply (tr_mul _ _ TR); [ | tr TR]. apply (tr_nsum TR). apply (tr_tri3 TR p).
      - intros i Hi. pose proof (qlt i Hi). trp. all: side.
      - intros i j Hi Hj. pose proof (qlt i Hi). pose proof (qlt j Hj). trp. all: side.
      - intros i j Hi Hj. pose proof (qlt i Hi). pose proof (qlt j Hj). trp. all: side.
      - intros i j l Hi Hj Hl. pose proof (qlt i Hi). pose proof (qlt j Hj). pose proof (qlt l Hl). trp. all: side.
    Qed.
    Lemma T_dq_phi2 : rl (fun x => d_dq_phi2 p (t x) (wd x) (e x)) (d_dq_phi2 q t2 wd2 e2).
    Proof.
      unfold d_dq_phi2. cbn zeta. pose proof Tw.
      change (p_nquadpole q) with (p_nquadpole p). change (p_quadpole_comp q) with (p_quadpole_comp p).
      change (p_ndipole q) with (p_ndipole p). change (p_dipole_comp q) with (p_dipole_comp p).
      apply (tr_mul _ _ TR); [ | tr TR]. apply (tr_nsubs TR). apply (lrel_flat_map TR).
      intros i Hi. apply in_seq in Hi. apply (lrel_mk1 TR). intros j Hj.
      assert (H1 := dlt i). assert (H2 := qlt j). specialize (H1 ltac:(lia)). specialize (H2 ltac:(lia)).
      trp. all: side.
    Qed.
    Lemma T_dq_phi3 : rl (fun x => d_dq_phi3 p (t x) (wd x) (e x)) (d_dq_phi3 q t2 wd2 e2).
    Proof.
      unfold d_dq_phi3. cbn zeta. pose proof Tw.
      change (p_nquadpole q) with (p_nquadpole p). change (p_quadpole_comp q) with (p_quadpole_comp p).
      change (p_ndipole q) with (p_ndipole p). change (p_dipole_comp q) with (p_dipole_comp p).
      apply (tr_mul _ _ TR); [ | tr TR]. apply (tr_nsum TR). apply (lrel_flat_map TR).
      intros i Hi. apply in_seq in Hi. apply (lrel_flat_map TR).
      intros j Hj. apply in_seq in Hj.
      assert (H1 := dlt i). assert (H2 := qlt j). specialize (H1 ltac:(lia)). specialize (H2 ltac:(lia)).
      apply (lrel_app TR); apply (lrel_mk1 TR); intros l Hl.
      - pose proof (dlt l Hl). trp. all: side.
      - pose proof (qlt l Hl). trp. all: side.
    Qed.
  End Eta.

  (** the Pade term, or its second order term if both orders vanish at the point *)
  Definition pade_branch (f g : pt k -> R) (x : pt k) : R :=
    if Req_EM_T (f x0) (g x0) then f x else @d_pade RNum (f x) (g x).
  Definition no_pole (f g : pt k -> R) : Prop := f x0 = g x0 -> f x0 = 0.
  Lemma T_pade f g a b : rl f a -> rl g b -> no_pole f g -> rl (pade_branch f g) (d_pade a b).
  Proof.
    intros A B N. unfold pade_branch. destruct (Req_EM_T (f x0) (g x0)) as [E | E].
    - apply (d_pade_zero k f g a b A B); [exact (N E) | rewrite <- E; exact (N E)].
    - exact (d_pade_sep (dual k) f g a b A B E).
  Qed.
  Lemma pade_branch_sep f g x : f x0 <> g x0 -> pade_branch f g x = @d_pade RNum (f x) (g x).
  Proof. intros E. unfold pade_branch. destruct (Req_EM_T (f x0) (g x0)); [contradiction | reflexivity]. Qed.
  Let eta x := att_eta p (t x) (wd x).
  Definition dd2_ x := d_dipole_phi2 p (t x) (wd x) (eta x).
  Definition dd3_ x := d_dipole_phi3 p (t x) (wd x) (eta x).
  Definition qq2_ x := d_quad_phi2 p (t x) (wd x) (eta x).
  Definition qq3_ x := d_quad_phi3 p (t x) (wd x) (eta x).
  Definition dq2_ x := d_dq_phi2 p (t x) (wd x) (eta x).
  Definition dq3_ x := d_dq_phi3 p (t x) (wd x) (eta x).
  Definition polar_branch (x : pt k) : R :=
    @nsum RNum ((if Nat.ltb 0 (p_ndipole p) then [pade_branch dd2_ dd3_ x] else [])
      ++ (if Nat.ltb 0 (p_nquadpole p) then [pade_branch qq2_ qq3_ x] else [])
      ++ (if Nat.ltb 0 (p_ndipole p) && Nat.ltb 0 (p_nquadpole p) then [pade_branch dq2_ dq3_ x] else [])).
  Lemma T_polar :
    (p_ndipole p <> 0%nat -> no_pole dd2_ dd3_) -> (p_nquadpole p <> 0%nat -> no_pole qq2_ qq3_) ->
    (p_ndipole p <> 0%nat -> p_nquadpole p <> 0%nat -> no_pole dq2_ dq3_) ->
    rl polar_branch (phi_polar q t2 wd2).
  Proof.
    intros H1 H2 H3. unfold phi_polar, polar_branch. cbv zeta. apply (tr_nsum TR).
    change (p_nquadpole q) with (p_nquadpole p). change (p_ndipole q) with (p_ndipole p). pose proof T_att_eta as He.
    repeat apply (lrel_app TR).
    - destruct (Nat.ltb_spec 0 (p_ndipole p)); [ | apply (lrel_nil TR)].
      apply (lrel_cons TR (pade_branch dd2_ dd3_)); [ | apply (lrel_nil TR)].
      apply T_pade; [apply T_dipole_phi2 | apply T_dipole_phi3 | apply H1; lia]; exact He.
    - destruct (Nat.ltb_spec 0 (p_nquadpole p)); [ | apply (lrel_nil TR)].
      apply (lrel_cons TR (pade_branch qq2_ qq3_)); [ | apply (lrel_nil TR)].
      apply T_pade; [apply T_quad_phi2 | apply T_quad_phi3 | apply H2; lia]; exact He.
    - destruct (Nat.ltb_spec 0 (p_ndipole p)); cbn [andb]; [ | apply (lrel_nil TR)].
      destruct (Nat.ltb_spec 0 (p_nquadpole p)); [ | apply (lrel_nil TR)].
      apply (lrel_cons TR (pade_branch dq2_ dq3_)); [ | apply (lrel_nil TR)].
      apply T_pade; [apply T_dq_phi2 | apply T_dq_phi3 | apply H3; lia]; exact He.
  Qed.
End Functionals.
