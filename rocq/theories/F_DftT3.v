(** Transfer of the chain and attraction functionals of a single component to dual numbers. *)
From Coq Require Import ZArith QArith Reals Lra Lia List Bool.
From Coquelicot Require Import Coquelicot.
From Verif Require Import Num RNum RSum Tables M_Params F_Params M_Eos M_Dft Spec F_Spec F_SpecPolar F_SpecAssoc
  F_Contrib F_Cross F_Transfer F_TransferS XNum DNum F_Level P_Dual F_Virial F_DualRun F_Dft P_Dual3 F_DftT F_DftT2.
Import ListNotations.
Local Open Scope R_scope.
Set Bullet Behavior "Strict Subproofs".

Section PurePolar.
  Context {K : Num}.
  Notation T := (car K).
  (** the two orders of the polar terms of a single component *)
  Definition pdd2 (p : params K) (t rho : T) : T :=
    let eta := pure_eta p t rho in
    let e := nmul (nrecip t) (ix (p_epsilon_k p) 0) in
    let s3 := npowi (ix (p_sigma p) 0) 3 in
    let mu2_term := nmul (nmul e s3) (ix (p_mu2 p) 0) in
    let m := nmin (ix (p_m p) 0) (nlit 2%Q) in
    let m1 := ndiv (nsub m (nlit 1%Q)) m in
    let m2 := ndiv (nmul m1 (nsub m (nlit 2%Q))) m in
    nmul (nmul (nopp (nmul rho rho)) (d_pair_integral_ij m1 m2 eta AD BD e)) (nmul (ndiv (nmul mu2_term mu2_term) s3) npi).
  Definition pdd3 (p : params K) (t rho : T) : T :=
    let eta := pure_eta p t rho in
    let e := nmul (nrecip t) (ix (p_epsilon_k p) 0) in
    let s3 := npowi (ix (p_sigma p) 0) 3 in
    let mu2_term := nmul (nmul e s3) (ix (p_mu2 p) 0) in
    let m := nmin (ix (p_m p) 0) (nlit 2%Q) in
    let m1 := ndiv (nsub m (nlit 1%Q)) m in
    let m2 := ndiv (nmul m1 (nsub m (nlit 2%Q))) m in
    nmul (nmul (nopp (nmul (nmul rho rho) rho)) (d_triplet_integral_ijk m1 m2 eta CD))
      (nmul (ndiv (nmul (nmul mu2_term mu2_term) mu2_term) s3) pi_sq_43).
  Definition pqq2 (p : params K) (t rho : T) : T :=
    let eta := pure_eta p t rho in
    let e := nmul (nrecip t) (ix (p_epsilon_k p) 0) in
    let q2_term := nmul (nmul e (npowi (ix (p_sigma p) 0) 5)) (ix (p_q2 p) 0) in
    let m := nmin (ix (p_m p) 0) (nlit 2%Q) in
    let m1 := ndiv (nsub m (nlit 1%Q)) m in
    let m2 := ndiv (nmul m1 (nsub m (nlit 2%Q))) m in
    nmul (nmul (nopp (nmul rho rho)) (d_pair_integral_ij m1 m2 eta AQ BQ e))
      (nmul (nmul (ndiv (nmul q2_term q2_term) (npowi (ix (p_sigma p) 0) 7)) npi) (nlit 0.5625%Q)).
  Definition pqq3 (p : params K) (t rho : T) : T :=
    let eta := pure_eta p t rho in
    let e := nmul (nrecip t) (ix (p_epsilon_k p) 0) in
    let s3 := npowi (ix (p_sigma p) 0) 3 in
    let q2_term := nmul (nmul e (npowi (ix (p_sigma p) 0) 5)) (ix (p_q2 p) 0) in
    let m := nmin (ix (p_m p) 0) (nlit 2%Q) in
    let m1 := ndiv (nsub m (nlit 1%Q)) m in
    let m2 := ndiv (nmul m1 (nsub m (nlit 2%Q))) m in
    nmul (nmul (nmul (nmul rho rho) rho) (d_triplet_integral_ijk m1 m2 eta CQ))
      (nmul (nmul (nmul (ndiv (nmul (nmul q2_term q2_term) q2_term) (npowi s3 3)) npi) npi) (nlit 0.5625%Q)).
  Lemma pure_dipole_pade p t rho : phi_pure_dipole p t rho = d_pade (pdd2 p t rho) (pdd3 p t rho).
  Proof. reflexivity. Qed.
  Lemma pure_quadrupole_pade p t rho : phi_pure_quadrupole p t rho = d_pade (pqq2 p t rho) (pqq3 p t rho).
  Proof. reflexivity. Qed.
End PurePolar.

Section PureB.
  Variable p : params RNum.
  Hypothesis W : wfp p.
  Hypothesis Hph : phys p.
  Hypothesis Hone : length (p_m p) = 1%nat.
  Variable k : nat.
  Let TR : Transfer (lK (dual k)) (lz (dual k)) := TRn k.
  Notation rl := (rel TR).
  Notation x0 := (lz (dual k)).
  Let q : params (lK (dual k)) := plift (emb TR) p.
  Variables (t : pt k -> R) (t2 : car (lK (dual k))).
  Variables (wd : pt k -> list R) (wd2 : list (car (lK (dual k)))).
  Hypothesis Tt : rl t t2.
  Hypothesis Tw : lrel TR wd wd2.
  Hypothesis Ht : 0 < t x0.
  Let L0 : (0 < length (p_m p))%nat. Proof. rewrite Hone. auto. Qed.
  Let w_ix := w_ix k wd wd2 Tw.
  Let m0 : R := @ix RNum (p_m p) 0.
  Let mp : 0 < m0. Proof. apply (Hph 0%nat L0). Qed.
  Let sp : 0 < @ix RNum (p_sigma p) 0. Proof. apply (Hph 0%nat L0). Qed.
  Let Tm : rl (fun _ => m0) (ix (p_m q) 0). Proof. exact (tr_ix1 TR (p_m p) 0). Qed.
  Let Ts : rl (fun _ => @ix RNum (p_sigma p) 0) (ix (p_sigma q) 0). Proof. exact (tr_ix1 TR (p_sigma p) 0). Qed.

  (* ----------------------------------------------------------------------------- chain *)
  Definition pure_chain_gen (lam : pt k -> R) (x : pt k) : R :=
    @nmul RNum (@nopp RNum (@nmul RNum (@nsub RNum (@nln RNum (@nmul RNum (@pure_chain_y RNum (@ix RNum (wd x) 2)) (lam x))) (@nlit RNum 1%Q))
      (@nsub RNum m0 (@nlit RNum 1%Q)))) (@ix RNum (wd x) 0).
  Lemma pure_y_pos (e : R) : e < 1 -> 0 < @pure_chain_y RNum e.
  Proof.
    intros H. unfold pure_chain_y. rn. apply (Rlt_le_trans _ ((1 - e / 2) / (1 - e) ^ 3)); [ | right; field; lra].
    apply Rdiv_lt_0_compat; [lra | apply pow_lt; lra].
  Qed.
  Lemma T_pure_chain_gen lam : rl lam (lambda_reg (ix wd2 1)) -> 0 < lam x0 -> @ix RNum (wd x0) 2 < 1 ->
    rl (pure_chain_gen lam) (phi_pure_chain q wd2).
  Proof.
    intros Hl Hp He. unfold pure_chain_gen, phi_pure_chain. cbv zeta. pose proof (w_ix 0). pose proof (w_ix 2) as H2.
    apply (tr_mul _ _ TR); [ | auto]. apply (tr_opp _ _ TR). apply (tr_mul _ _ TR); [ | tr TR].
    apply (tr_sub _ _ TR); [ | tr TR]. apply (tr_ln _ _ TR).
    - apply (tr_mul _ _ TR); auto. unfold pure_chain_y. tr TR. apply pow_nonzero. rn. lra.
    - rn. apply Rmult_lt_0_compat; auto. apply pure_y_pos; auto.
  Qed.
  Lemma pure_chain_plain x : phi_pure_chain p (wd x) = pure_chain_gen (fun x => @lambda_reg RNum (@ix RNum (wd x) 1)) x.
  Proof. reflexivity. Qed.

  (* ------------------------------------------------------------------------ attraction *)
  Let rho x := @ix RNum (wd x) 0.
  Let rho2 := ix wd2 0.
  Let Trho : rl rho rho2. Proof. exact (w_ix 0). Qed.
  Lemma T_pure_eta : rl (fun x => pure_eta p (t x) (rho x)) (pure_eta q t2 rho2).
  Proof. unfold pure_eta, frac_pi_6. pose proof (T_hs p k t t2 Tt Ht). tr TR. all: rn; lra. Qed.
  Hypothesis Hrho : 0 <= rho x0.
  Hypothesis Heta : pure_eta p (t x0) (rho x0) < 1.
  Lemma pure_eta_nonneg : 0 <= pure_eta p (t x0) (rho x0).
  Proof.
    unfold pure_eta, frac_pi_6. pose proof (hs_p p W Hph k t Ht 0 L0). pose proof PI_RGT_0. pose proof mp. unfold m0 in *. rn.
    apply Rmult_le_pos; [ | left; apply pow_lt; auto]. apply Rmult_le_pos; [ | lra]. apply Rmult_le_pos; [auto | lra].
  Qed.
  Lemma T_pure_series c0 c1 c2 e e2 : rl e e2 ->
    rl (fun x => @pure_series RNum c0 c1 c2 m0 (e x)) (pure_series c0 c1 c2 (ix (p_m q) 0) e2).
  Proof. intros He. unfold pure_series. cbn zeta. pose proof mp. apply (tr_nsumi TR). intros i Hi. tr TR. all: lra. Qed.
  Lemma T_pure_c1 e e2 : rl e e2 -> 0 <= e x0 < 1 -> rl (fun x => @pure_c1 RNum m0 (e x)) (pure_c1 (ix (p_m q) 0) e2).
  Proof.
    intros He H2. pose proof mp. unfold pure_c1. apply (tr_recip _ _ TR).
    - tr TR.
      + apply pow_nonzero. rn. lra.
      + apply pow_nonzero. rn. apply Rmult_integral_contrapositive_currified; lra.
    - rn. apply Rgt_not_eq. pose proof (disp_c1_den m0 (e x0) mp H2) as D.
      apply (Rlt_le_trans _ _ _ D). right. field. lra.
  Qed.
  Lemma T_pure_disp : rl (fun x => phi_pure_disp p (t x) (rho x)) (phi_pure_disp q t2 rho2).
  Proof.
    unfold phi_pure_disp. cbn zeta. pose proof T_pure_eta as He. pose proof pure_eta_nonneg. pose proof mp. fold m0.
    pose proof (T_pure_series A0 A1 A2 _ _ He). pose proof (T_pure_series B0 B1 B2 _ _ He). pose proof (T_pure_c1 _ _ He (conj H Heta)).
    tr TR. all: lra.
  Qed.
  Lemma T_mcap0 : rl (fun _ => @nmin RNum (@ix RNum (p_m p) 0) (@nlit RNum 2%Q)) (nmin (ix (p_m q) 0) (nlit 2%Q)).
  Proof. exact (tr_min _ _ TR _ _ _ _ Tm (tr_lit _ _ TR 2%Q)). Qed.
  Lemma mcap0_nz : @nmin RNum (@ix RNum (p_m p) 0) (@nlit RNum 2%Q) <> 0.
  Proof. pose proof mp. rn. unfold m0 in *. apply Rgt_not_eq. apply Rmin_glb_lt; lra. Qed.
  Hypothesis Hdd : p_ndipole p <> 0%nat -> no_pole k (fun x => pdd2 p (t x) (rho x)) (fun x => pdd3 p (t x) (rho x)).
  Hypothesis Hqq : p_nquadpole p <> 0%nat -> no_pole k (fun x => pqq2 p (t x) (rho x)) (fun x => pqq3 p (t x) (rho x)).
  Ltac trq1 := match goal with
    | |- rel _ (fun x => d_pair_integral_ij _ _ _ _ _ _) _ => apply T_dpair
    | |- rel _ (fun x => d_triplet_integral_ijk _ _ _ _) _ => apply T_dtriplet
    | |- rel _ (fun x => nmin _ _) _ => apply T_mcap0
    | |- rel _ (fun x => pure_eta _ _ _) _ => apply T_pure_eta
    | |- rel _ (fun x => rho x) _ => apply Trho
    | |- _ => tr1 TR
    end.
  Lemma T_pdd2 : rl (fun x => pdd2 p (t x) (rho x)) (pdd2 q t2 rho2).
  Proof. unfold pdd2. cbv zeta. pose proof mcap0_nz. repeat trq1. all: try assumption; try lra. all: rn; try (apply pow_nonzero); lra. Qed.
  Lemma T_pdd3 : rl (fun x => pdd3 p (t x) (rho x)) (pdd3 q t2 rho2).
  Proof. unfold pdd3, pi_sq_43. cbv zeta. pose proof mcap0_nz. repeat trq1. all: try assumption; try lra. all: rn; try (apply pow_nonzero); lra. Qed.
  Lemma T_pqq2 : rl (fun x => pqq2 p (t x) (rho x)) (pqq2 q t2 rho2).
  Proof. unfold pqq2. cbv zeta. pose proof mcap0_nz. repeat trq1. all: try assumption; try lra. all: rn; try (apply pow_nonzero); lra. Qed.
  Lemma T_pqq3 : rl (fun x => pqq3 p (t x) (rho x)) (pqq3 q t2 rho2).
  Proof. unfold pqq3. cbv zeta. pose proof mcap0_nz. repeat trq1. all: try assumption; try lra. all: rn; repeat (apply pow_nonzero); lra. Qed.
  Definition pure_att_branch (x : pt k) : R :=
    let phi := phi_pure_disp p (t x) (rho x) in
    let phi := if Nat.ltb 0 (p_ndipole p) then phi + pade_branch k (fun x => pdd2 p (t x) (rho x)) (fun x => pdd3 p (t x) (rho x)) x else phi in
    if Nat.ltb 0 (p_nquadpole p) then phi + pade_branch k (fun x => pqq2 p (t x) (rho x)) (fun x => pqq3 p (t x) (rho x)) x else phi.
  Theorem T_pure_att : rl pure_att_branch (phi_pure_att q t2 wd2).
  Proof.
    unfold pure_att_branch, phi_pure_att. cbv zeta. fold rho2.
    change (p_ndipole q) with (p_ndipole p). change (p_nquadpole q) with (p_nquadpole p). pose proof T_pure_disp as Td.
    assert (T1 : rl (fun x => if Nat.ltb 0 (p_ndipole p) then phi_pure_disp p (t x) (rho x) + pade_branch k (fun x => pdd2 p (t x) (rho x)) (fun x => pdd3 p (t x) (rho x)) x
        else phi_pure_disp p (t x) (rho x))
       (if Nat.ltb 0 (p_ndipole p) then nadd (phi_pure_disp q t2 rho2) (phi_pure_dipole q t2 rho2) else phi_pure_disp q t2 rho2)).
    { destruct (Nat.ltb_spec 0 (p_ndipole p)); [ | exact Td].
      apply (tr_add _ _ TR); [exact Td | ]. exact (T_pade k _ _ _ _ T_pdd2 T_pdd3 (Hdd ltac:(lia))). }
    destruct (Nat.ltb_spec 0 (p_nquadpole p)); [ | exact T1].
    apply (tr_add _ _ TR); [exact T1 | ]. exact (T_pade k _ _ _ _ T_pqq2 T_pqq3 (Hqq ltac:(lia))).
  Qed.
End PureB.
