(** C40: virial coefficients. *)
From Coq Require Import ZArith QArith Reals Lra Lia String List Bool.
From Coquelicot Require Import Coquelicot.
From Interval Require Import Tactic.
From Verif Require Import Num RNum RSum Tables M_Params F_Params M_Eos M_Virial Spec F_Spec F_SpecPolar F_SpecAssoc
  F_Contrib F_Cross F_Total F_Limit P_Limit P_Select F_Transfer XNum F_Transfer2 DNum F_Level P_Dual F_Virial F_Taylor F_Virial2 Samples F_Lump P_Assoc2 P_Split P_Conform F_Perturb.
Import ListNotations.
Local Open Scope R_scope.
Set Bullet Behavior "Strict Subproofs".
Notation length := List.length.

(** The evaluation at zero density with n infinitesimals on the density. *)
Definition at_zero_density (n : nat) (lu : lu_solver (lK (dual n))) (p : params RNum) (o : options RNum) (t : R) (x : list R)
  : option (dnum n) :=
  residual lu (with_options (plift (emb (TRn n)) p) (lift_options (emb (TRn n)) o))
    (@state_virial (lK (dual n)) (emb (TRn n) t) (seed n 0 (repeat 1 n)) (map (emb (TRn n)) x)).
(** feos_core second_virial_coefficient (external crate): mixed coefficient times 0.5 *)
Definition second_virial lu p o t x : option xr :=
  match at_zero_density 2 lu p o t x with
  | Some a => Some (@nmul XNum (coef 2 [true; true] a) (@nlit XNum 0.5%Q))
  | None => None
  end.
(** feos_core third_virial_coefficient (external crate): third coefficient divided by 3 *)
Definition third_virial lu p o t x : option xr :=
  match at_zero_density 3 lu p o t x with
  | Some a => Some (@ndiv XNum (coef 3 [true; true; true] a) (@nlit XNum 3%Q))
  | None => None
  end.

Lemma aff_nil n c z : aff n c [] z = c.
Proof. induction n as [ | n IH]; cbn [aff hd tl]; [reflexivity | ]. rewrite IH. ring. Qed.

Section C40.
  Variables (prs : list (pure_record RNum)) (bin : list (list R)) (p : params RNum).
  Hypothesis Hp : from_records prs bin = Some p.
  Hypothesis Hph : phys p.
  (** temperature and mole fractions *)
  Variables (t : R) (x : list R).
  Hypothesis Ht : 0 < t.
  Hypothesis Hlen : length x = length (p_m p).
  Hypothesis Hnn : forall i, (i < length (p_m p))%nat -> 0 <= nth i x 0.
  Hypothesis Hsum : rsum x (fun xi => xi) = 1.
  Let W : wfp p := wfp_from_records _ _ _ Hp.
  Let X := mix_of p.
  Let rho (v : R) := fun i => nth i x 0 / v.
  (** one mole (molecule) in the volume v *)
  Let st (v : R) := @state_new RNum t v x.

  Lemma frac_ne : exists i, (i < length (p_m p))%nat /\ 0 < nth i x 0.
  Proof.
    rewrite <- Hlen.
    destruct (Forall_dec (fun xi => xi <= 0) (fun xi => Rle_dec xi 0) x) as [F | F].
    - exfalso. assert (rsum x (fun xi => xi) <= rsum x (fun _ => 0)).
      { apply rsum_le. intros a Ha. rewrite Forall_forall in F. auto. }
      rewrite (rsum_zero x (fun _ => 0)) in H by auto. lra.
    - apply neg_Forall_Exists_neg in F; [ | intros; apply Rle_dec].
      apply Exists_exists in F. destruct F as (a & Ha & Pa). destruct (In_nth _ _ 0 Ha) as (i & Hi & E).
      exists i. split; auto. rewrite E. lra.
  Qed.
  Let Hne := frac_ne.
  Let PS (v : R) := eventually_state p Hph t x Ht Hlen Hnn Hne v.

  Lemma virial_state r : r <> 0 -> @state_virial RNum t r x = @state_new RNum t 1 (scaled r x).
  Proof.
    intros Hr. unfold state_virial, state_new, scaled. f_equal.
    - rewrite map_map. apply map_ext. intros a. unfold n1. rn. ring.
    - rewrite map_map. apply map_ext. intros a. rn. field.
    - rewrite nsum_R, map_map. change (map (fun n => r * n) x) with (scaled r x). rewrite rsum_scaled, Hsum.
      rewrite <- (map_id x) at 1. apply map_ext. intros a. rn. field. auto.
  Qed.
  Lemma virial_scaled v : 0 < v -> @state_virial RNum t (/ v) x = @state_new RNum t (/ v * v) (scaled (/ v) x).
  Proof. intros Hv. rewrite Rinv_l by lra. apply virial_state. apply Rinv_neq_0_compat. lra. Qed.
  Lemma low_scaled o v : 0 < v -> low p o (@state_virial RNum t (/ v) x) = / v * low p o (st v).
  Proof.
    intros Hv. rewrite virial_scaled by auto. assert (Hk : / v <> 0) by (apply Rinv_neq_0_compat; lra).
    unfold low, st. rewrite ext_hs, ext_hc, ext_disp by auto.
    assert (E1 : dd2_term p (@state_new RNum t (/ v * v) (scaled (/ v) x)) = / v * dd2_term p (@state_new RNum t v x)).
    { unfold dd2_term. rewrite scaled_rho by auto. change (s_t (@state_new RNum t (/ v * v) (scaled (/ v) x))) with t.
      change (s_t (@state_new RNum t v x)) with t. change (s_v (@state_new RNum t (/ v * v) (scaled (/ v) x))) with (/ v * v).
      change (s_v (@state_new RNum t v x)) with v. set (A := dipole_phi2 _ _ _ _). change (A * (/ v * v) = / v * (A * v)). ring. }
    assert (E2 : qq2_term p (@state_new RNum t (/ v * v) (scaled (/ v) x)) = / v * qq2_term p (@state_new RNum t v x)).
    { unfold qq2_term. rewrite scaled_rho by auto. change (s_t (@state_new RNum t (/ v * v) (scaled (/ v) x))) with t.
      change (s_t (@state_new RNum t v x)) with t. change (s_v (@state_new RNum t (/ v * v) (scaled (/ v) x))) with (/ v * v).
      change (s_v (@state_new RNum t v x)) with v. set (A := quad_phi2 _ _ _ _). change (A * (/ v * v) = / v * (A * v)). ring. }
    assert (E3 : dq2_term p (o_dq o) (@state_new RNum t (/ v * v) (scaled (/ v) x)) = / v * dq2_term p (o_dq o) (@state_new RNum t v x)).
    { unfold dq2_term. rewrite scaled_rho by auto. change (s_t (@state_new RNum t (/ v * v) (scaled (/ v) x))) with t.
      change (s_t (@state_new RNum t v x)) with t. change (s_v (@state_new RNum t (/ v * v) (scaled (/ v) x))) with (/ v * v).
      change (s_v (@state_new RNum t v x)) with v. set (A := dq_phi2 _ _ _ _ _). change (A * (/ v * v) = / v * (A * v)). ring. }
    rewrite E1, E2, E3. unfold assoc_low. destruct (Nat.eqb (p_nassoc p) 1); [rewrite ext_assoc by auto | ]; ring.
  Qed.

  (** second order terms in closed form *)
  Let Hr v i : (i < length (p_m p))%nat -> @ix RNum (s_rho (st v)) i = rho v i := s_rho_ix p t v x Hlen i.
  Let Hpack v : packing p t (s_rho (st v)) = Eta X t (rho v) := packing_spec p W t v x Hlen.
  Lemma dd2_term_v v : dd2_term p (st v) = v * ((/ v) ^ 2 * polyn (dd_alpha p t x) 5 (/ v)).
  Proof.
    unfold dd2_term. change (s_t (st v)) with t. change (s_v (st v)) with v. rewrite Hpack. unfold X.
    rewrite (dipole_phi2_spec p W Hph t _ (rho v) (Hr v)). fold X. rewrite <- dd2_v. apply Rmult_comm.
  Qed.
  Lemma qq2_term_v v : qq2_term p (st v) = v * ((/ v) ^ 2 * polyn (qq_alpha p t x) 5 (/ v)).
  Proof.
    unfold qq2_term. change (s_t (st v)) with t. change (s_v (st v)) with v. rewrite Hpack. unfold X.
    rewrite (quad_phi2_spec p W Hph t _ (rho v) (Hr v)). fold X. rewrite <- qq2_v. apply Rmult_comm.
  Qed.
  Lemma dq2_term_v var v : dq2_term p var (st v) = v * ((/ v) ^ 2 * polyn (dq_alpha p t x var) 4 (/ v)).
  Proof.
    unfold dq2_term. change (s_t (st v)) with t. change (s_v (st v)) with v. rewrite Hpack. unfold X.
    rewrite (dq_phi2_spec p W Hph t _ (rho v) (Hr v) var). fold X. rewrite <- dq2_v. apply Rmult_comm.
  Qed.
  Let Z3 := Zeta X t (fun i => nth i x 0) 3.
  Lemma dipole_v v : Z3 < v -> a_dipole p (st v)
    = v * pade2 ((/ v) ^ 2 * polyn (dd_alpha p t x) 5 (/ v)) ((/ v) ^ 3 * polyn (dd_beta p t x) 4 (/ v)).
  Proof.
    intros Hv. unfold st. rewrite (dipole_textbook p W Hph t v x) by (apply PS; auto).
    unfold f_dd. f_equal. f_equal; [apply dd2_v | apply dd3_v].
  Qed.
  Lemma quadrupole_v v : Z3 < v -> a_quadrupole p (st v)
    = v * pade2 ((/ v) ^ 2 * polyn (qq_alpha p t x) 5 (/ v)) ((/ v) ^ 3 * polyn (qq_beta p t x) 4 (/ v)).
  Proof.
    intros Hv. unfold st. rewrite (quadrupole_code p W Hph t v x) by (apply PS; auto).
    f_equal. f_equal; [apply qq2_v | apply qq3_v].
  Qed.
  Lemma dq_v var v : Z3 < v -> a_dq p var (st v)
    = v * pade2 ((/ v) ^ 2 * polyn (dq_alpha p t x var) 4 (/ v)) ((/ v) ^ 3 * polyn (dq_beta p t x) 3 (/ v)).
  Proof.
    intros Hv. unfold st. rewrite (dq_textbook p W Hph t v x) by (apply PS; auto).
    unfold f_dq. f_equal. f_equal; [apply dq2_v | apply dq3_v].
  Qed.

  Lemma low_vanishes o : vanishes (fun v => low p o (st v)).
  Proof.
    unfold low.
    apply (vanishes_plus (fun v => _ + _) (fun v => assoc_low p (st v))).
    2:{ unfold assoc_low. destruct (Nat.eqb_spec (p_nassoc p) 1) as [E | E]; [ | apply vanishes_0].
        rewrite (w_na _ W) in E. destruct (p_assoc_comp p) as [ | a [ | b r]] eqn:Ea; try discriminate.
        apply (C06_association p W Hph t x Ht Hlen Hnn Hne a Ea). }
    apply (vanishes_plus (fun v => _ + _) (fun v => dq2_term p (o_dq o) (st v))).
    2:{ apply (vanishes_eventually _ _ 0 (fun v _ => dq2_term_v (o_dq o) v)). apply second_vanishes. }
    apply (vanishes_plus (fun v => _ + _) (fun v => qq2_term p (st v))).
    2:{ apply (vanishes_eventually _ _ 0 (fun v _ => qq2_term_v v)). apply second_vanishes. }
    apply (vanishes_plus (fun v => _ + _) (fun v => dd2_term p (st v))).
    2:{ apply (vanishes_eventually _ _ 0 (fun v _ => dd2_term_v v)). apply second_vanishes. }
    apply (vanishes_plus (fun v => _ + _) (fun v => a_disp p (st v))); [ | apply C06_dispersion; auto].
    apply (vanishes_plus (fun v => a_hs p (st v)) (fun v => a_hc p (st v))); [apply C06_hard_sphere | apply C06_hard_chain]; auto.
  Qed.
  Let F o r := low p o (@state_virial RNum t r x).
  Lemma F_v o : vanishes (fun v => v * F o (/ v)).
  Proof.
    apply (vanishes_eventually _ _ 0) with (2 := low_vanishes o). intros v Hv. unfold F. rewrite low_scaled by auto. field. lra.
  Qed.

  (** the evaluation at zero density represents the function F of the density *)
  Lemma zero_density n lu o : exists a, at_zero_density n lu p o t x = Some a /\
    represents n (fun z => F o (aff n 0 (repeat 1 n) z)) a.
  Proof.
    pose proof (aff_nil n t) as Et.
    assert (Es : seed n t [] = emb (TRn n) t).
    { pose proof (rel_aff n t []) as R1. eapply (rel_fun (dual n)); [exact R1 | ].
      eapply (rel_near (dual n)); [ | apply (tr_emb _ _ (TRn n))]. eapply near_imp; [ | apply near_true]. intros z _. cbv beta. rewrite Et. reflexivity. }
    destruct (v_residual p W Hph n t [] (repeat 1 n) x Ht Hlen Hnn Hne lu o) as (a & E & R1).
    exists a. split.
    - rewrite <- E. unfold at_zero_density, vparams, vdual. rewrite Es. reflexivity.
    - apply rel_represents. eapply (rel_near (dual n)); [ | exact R1]. eapply near_imp; [ | apply near_true].
      intros z _. unfold F, vpath. rewrite Et. reflexivity.
  Qed.
  Lemma at_half r : @nmul XNum (Fin r) (@nlit XNum 0.5%Q) = Fin (r / 2).
  Proof. cbn. f_equal. lits. lra. Qed.
  Lemma at_third r : @ndiv XNum (Fin r) (@nlit XNum 3%Q) = Fin (r / 3).
  Proof. cbn. destruct (Req_EM_T _ _) as [E | E]; [exfalso; revert E; lits; lra | ]. f_equal. Qed.

  (** real evaluation at low density *)
  Definition full (o : options RNum) (s : state RNum) : R :=
    a_hs p s + a_hc p s + a_disp p s + a_dipole p s + a_quadrupole p s + a_dq p (o_dq o) s + assoc_low p s.
  Lemma full_residual lu o : exists V1, forall v, V1 < v -> residual lu (with_options p o) (st v) = Some (full o (st v)).
  Proof.
    assert (A : exists V1, forall v, V1 < v -> assoc_term lu o p (st v) = Some (assoc_low p (st v))).
    { unfold assoc_term, assoc_low. destruct (p_nassoc p) as [ | [ | k]] eqn:E; cbn [Nat.eqb].
      - exists 0. auto.
      - exists 0. auto.
      - destruct (C06_cross_association p t x lu (o_max_iter o) (o_tol o)) as (V1 & H). exists V1. auto. }
    destruct A as (V1 & HA). exists V1. intros v Hv. rewrite residual_total, HA by auto. reflexivity.
  Qed.
  Lemma full_low o v : Z3 < v -> full o (st v) = low p o (st v)
    + (a_dipole p (st v) - dd2_term p (st v)) + (a_quadrupole p (st v) - qq2_term p (st v))
    + (a_dq p (o_dq o) (st v) - dq2_term p (o_dq o) (st v)).
  Proof. intros _. unfold full, low. ring. Qed.

  Theorem C40_second_virial lu lu2 o :
    regular2 (dd_alpha p t x) (dd_beta p t x) -> regular2 (qq_alpha p t x) (qq_beta p t x) ->
    regular2 (dq_alpha p t x (o_dq o)) (dq_beta p t x) ->
    exists B, second_virial lu2 p o t x = Some (Fin B) /\
      forall eps, 0 < eps -> exists V0, forall v, V0 < v ->
        exists a, residual lu (with_options p o) (@state_new RNum t v x) = Some a /\ Rabs (v * a - B) < eps.
  Proof.
    intros R1 R2 R3. destruct (zero_density 2 lu2 o) as (a & E & Rep).
    destruct (Rep [true; true] eq_refl) as (r & Ec & Pr). cbn [repeat] in Pr.
    exists (r / 2). split; [unfold second_virial; rewrite E, Ec; f_equal; apply at_half | ].
    destruct (taylor2 (F o) r Pr) as (c0 & c1 & Fl).
    destruct (expand2 (F o) c0 c1 (r / 2) Fl (F_v o)) as (_ & T).
    destruct (full_residual lu o) as (V1 & HR).
    assert (TT : tends (fun v => v * full o (st v)) (r / 2)).
    { replace (r / 2) with (r / 2 + 0) by ring.
      apply (tends_eventually _ (fun v => v * (v * F o (/ v))
         + (v * (a_dipole p (st v) - dd2_term p (st v)) + v * (a_quadrupole p (st v) - qq2_term p (st v))
            + v * (a_dq p (o_dq o) (st v) - dq2_term p (o_dq o) (st v)))) _ Z3).
      - intros v Hv. rewrite full_low by auto. unfold F. assert (0 < v) by (apply (vpos p Hph t x Ht Hnn Hne); exact Hv).
        rewrite low_scaled by auto. field. lra.
      - apply (tends_plus (fun v => v * (v * F o (/ v)))); auto. unfold tends.
        apply (vanishes_eventually _ (fun v => v * (a_dipole p (st v) - dd2_term p (st v)) + v * (a_quadrupole p (st v) - qq2_term p (st v))
            + v * (a_dq p (o_dq o) (st v) - dq2_term p (o_dq o) (st v))) 0); [intros; ring | ].
        apply (vanishes_plus (fun v => _ + _) (fun v => v * (a_dq p (o_dq o) (st v) - dq2_term p (o_dq o) (st v)))).
        + apply (vanishes_plus (fun v => v * (a_dipole p (st v) - dd2_term p (st v))) (fun v => v * (a_quadrupole p (st v) - qq2_term p (st v)))).
          * apply (vanishes_eventually _ _ Z3) with (2 := diff_regular _ _ 3 3 R1). intros v Hv. rewrite dipole_v, dd2_term_v by auto. reflexivity.
          * apply (vanishes_eventually _ _ Z3) with (2 := diff_regular _ _ 3 3 R2). intros v Hv. rewrite quadrupole_v, qq2_term_v by auto. reflexivity.
        + apply (vanishes_eventually _ _ Z3) with (2 := diff_regular _ _ 2 2 R3). intros v Hv. rewrite dq_v, dq2_term_v by auto. reflexivity. }
    intros eps He. destruct (TT eps He) as (V0 & HV). exists (Rmax V0 V1). intros v Hv.
    pose proof (Rmax_l V0 V1). pose proof (Rmax_r V0 V1). exists (full o (st v)). split; [apply HR; lra | apply HV; lra].
  Qed.

  (** The third coefficient misses the leading third order term b of every polar contribution
      present in the mixture. *)
  Theorem C40_third_virial_shift lu lu2 lu3 o b1 b2 b3 :
    lead (dd_alpha p t x) (dd_beta p t x) b1 -> lead (qq_alpha p t x) (qq_beta p t x) b2 ->
    lead (dq_alpha p t x (o_dq o)) (dq_beta p t x) b3 ->
    exists B C, second_virial lu2 p o t x = Some (Fin B) /\ third_virial lu3 p o t x = Some (Fin C) /\
      forall eps, 0 < eps -> exists V0, forall v, V0 < v ->
        exists a, residual lu (with_options p o) (@state_new RNum t v x) = Some a /\
          Rabs (2 * v * (v * a - B) - (C + 2 * (b1 + b2 + b3))) < eps.
  Proof.
    intros L1 L2 L3.
    destruct (zero_density 2 lu2 o) as (a & E & Rep).
    destruct (Rep [true; true] eq_refl) as (r & Ec & Pr). cbn [repeat] in Pr.
    destruct (zero_density 3 lu3 o) as (a' & E' & Rep').
    destruct (Rep' [true; true; true] eq_refl) as (r' & Ec' & Pr'). cbn [repeat] in Pr'.
    exists (r / 2), (r' / 3). split; [unfold second_virial; rewrite E, Ec; f_equal; apply at_half | ].
    split; [unfold third_virial; rewrite E', Ec'; f_equal; apply at_third | ].
    destruct (taylor2 (F o) r Pr) as (c0 & c1 & Fl).
    destruct (expand2 (F o) c0 c1 (r / 2) Fl (F_v o)) as (_ & T).
    destruct (taylor3 (F o) r' Pr') as (e0 & e1 & e2 & Fl').
    destruct (expand3 (F o) e0 e1 e2 (r' / 6) Fl' (F_v o)) as (T' & T3).
    assert (He2 : e2 = r / 2) by (eapply tends_unique; [exact T' | exact T]). subst e2.
    destruct (full_residual lu o) as (V1 & HR).
    assert (TT : tends (fun v => 2 * v * (v * full o (st v) - r / 2)) (r' / 3 + 2 * (b1 + b2 + b3))).
    { replace (r' / 3 + 2 * (b1 + b2 + b3)) with (2 * (r' / 6 + (b1 + b2 + b3))) by lra.
      apply (tends_eventually _ (fun v => 2 * (v * (v * (v * F o (/ v)) - r / 2)
         + (v * (v * (a_dipole p (st v) - dd2_term p (st v))) + v * (v * (a_quadrupole p (st v) - qq2_term p (st v)))
            + v * (v * (a_dq p (o_dq o) (st v) - dq2_term p (o_dq o) (st v)))))) _ Z3).
      - intros v Hv. rewrite full_low by auto. unfold F. assert (0 < v) by (apply (vpos p Hph t x Ht Hnn Hne); exact Hv).
        rewrite low_scaled by auto. field. lra.
      - apply (tends_scal 2 (fun v => _ + _)). apply (tends_plus (fun v => v * (v * (v * F o (/ v)) - r / 2))); auto.
        apply (tends_plus (fun v => _ + _) (fun v => v * (v * (a_dq p (o_dq o) (st v) - dq2_term p (o_dq o) (st v))))).
        + apply (tends_plus (fun v => v * (v * (a_dipole p (st v) - dd2_term p (st v)))) (fun v => v * (v * (a_quadrupole p (st v) - qq2_term p (st v))))).
          * apply (tends_eventually _ _ _ Z3) with (2 := diff_lead _ _ 3 3 _ L1). intros v Hv. rewrite dipole_v, dd2_term_v by auto. reflexivity.
          * apply (tends_eventually _ _ _ Z3) with (2 := diff_lead _ _ 3 3 _ L2). intros v Hv. rewrite quadrupole_v, qq2_term_v by auto. reflexivity.
        + apply (tends_eventually _ _ _ Z3) with (2 := diff_lead _ _ 2 2 _ L3). intros v Hv. rewrite dq_v, dq2_term_v by auto. reflexivity. }
    intros eps He. destruct (TT eps He) as (V0 & HV). exists (Rmax V0 V1). intros v Hv.
    pose proof (Rmax_l V0 V1). pose proof (Rmax_r V0 V1). exists (full o (st v)). split; [apply HR; lra | apply HV; lra].
  Qed.

  (** At zero density the evaluation with derivatives of any order in temperature and density
      succeeds, and every coefficient is a finite number. *)
  Theorem C40_finite n lu o dt dr : exists a,
    residual lu (with_options (plift (emb (TRn n)) p) (lift_options (emb (TRn n)) o))
      (@state_virial (lK (dual n)) (seed n t dt) (seed n 0 dr) (map (emb (TRn n)) x)) = Some a /\
    forall s, length s = n -> exists r, coef n s a = Fin r.
  Proof.
    destruct (v_residual p W Hph n t dt dr x Ht Hlen Hnn Hne lu o) as (a & E & R1).
    exists a. split; [exact E | ]. intros s Hs. destruct (rel_represents n _ _ R1 s Hs) as (r & Er & _). exists r. auto.
  Qed.
  (** Two or more associating components: the coefficient is that of the mixture without
      association. *)
  Theorem C40_no_cross_association lu2 o : (2 <= p_nassoc p)%nat ->
    regular2 (dd_alpha p t x) (dd_beta p t x) -> regular2 (qq_alpha p t x) (qq_beta p t x) ->
    regular2 (dq_alpha p t x (o_dq o)) (dq_beta p t x) ->
    exists B, second_virial lu2 p o t x = Some (Fin B) /\
      tends (fun v => let s := @state_new RNum t v x in
        v * (a_hs p s + a_hc p s + a_disp p s + a_dipole p s + a_quadrupole p s + a_dq p (o_dq o) s)) B.
  Proof.
    intros Hn R1 R2 R3.
    destruct (C40_second_virial (fun _ _ => None) lu2 o R1 R2 R3) as (B & E & H).
    exists B. split; auto. destruct (full_residual (fun _ _ => None) o) as (V1 & HR).
    intros eps He. destruct (H eps He) as (V0 & HV). exists (Rmax V0 V1). intros v Hv.
    pose proof (Rmax_l V0 V1). pose proof (Rmax_r V0 V1).
    destruct (HV v ltac:(lra)) as (a & Ea & Hb). change (@state_new RNum t v x) with (st v) in *. rewrite HR in Ea by lra.
    apply Some_inj in Ea. unfold full, assoc_low in Ea. destruct (Nat.eqb_spec (p_nassoc p) 1); [lia | ].
    cbv zeta. rewrite Rplus_0_r in Ea. rewrite Ea. exact Hb.
  Qed.

  (** no polar resonance: every polar component has at least one segment, and the temperature is
      not below its dispersion energy *)
  Hypothesis warm : forall i, (i < length (p_m p))%nat ->
    @ix RNum (p_mu2 p) i <> 0 \/ @ix RNum (p_q2 p) i <> 0 -> 1 <= @ix RNum (p_m p) i /\ @ix RNum (p_epsilon_k p) i <= t.
  Lemma strong_regular2 alpha beta : strong alpha -> regular2 alpha beta.
  Proof. intros [H | H]; [left; auto | right; tauto]. Qed.
  Theorem C40_second_virial_warm lu lu2 o :
    exists B, second_virial lu2 p o t x = Some (Fin B) /\
      forall eps, 0 < eps -> exists V0, forall v, V0 < v ->
        exists a, residual lu (with_options p o) (@state_new RNum t v x) = Some a /\ Rabs (v * a - B) < eps.
  Proof.
    apply C40_second_virial; apply strong_regular2;
      [apply (strong_dd _ _ _ Hp) | apply (strong_qq _ _ _ Hp) | apply (strong_dq _ _ _ Hp)]; auto.
  Qed.
End C40.

(** Temperature derivative of the second virial coefficient: one more infinitesimal, on the
    temperature. *)
Section Temperature.
  Variables (prs : list (pure_record RNum)) (bin : list (list R)) (p : params RNum).
  Hypothesis Hp : from_records prs bin = Some p.
  Hypothesis Hph : phys p.
  Variables (x : list R).
  Hypothesis Hlen : length x = length (p_m p).
  Hypothesis Hnn : forall i, (i < length (p_m p))%nat -> 0 <= nth i x 0.
  Hypothesis Hsum : rsum x (fun xi => xi) = 1.
  Let W : wfp p := wfp_from_records _ _ _ Hp.
  Let Hne := frac_ne p x Hlen Hsum.

  Lemma second_value lu2 o T : 0 < T -> exists b, second_virial lu2 p o T x = Some (Fin b) /\
    partial 2 [true; true] (fun z => low p o (@state_virial RNum T (aff 2 0 [1; 1] z) x)) (2 * b).
  Proof.
    intros HT. destruct (zero_density _ _ _ Hp Hph T x HT Hlen Hnn Hsum 2 lu2 o) as (a & E & Rep).
    destruct (Rep [true; true] eq_refl) as (r & Ec & Pr). cbn [repeat] in Pr.
    exists (r / 2). split; [unfold second_virial; rewrite E, Ec; f_equal; apply at_half | ].
    replace (2 * (r / 2)) with r by field. exact Pr.
  Qed.
  Theorem C40_temperature_derivative lu2 lu3 o (t : R) : 0 < t -> exists a r,
    residual lu3 (with_options (plift (emb (TRn 3)) p) (lift_options (emb (TRn 3)) o))
      (@state_virial (lK (dual 3)) (seed 3 t [0; 0; 1]) (seed 3 0 [1; 1; 0]) (map (emb (TRn 3)) x)) = Some a /\
    @nmul XNum (coef 3 [true; true; true] a) (@nlit XNum 0.5%Q) = Fin r /\
    exists B : R -> R, (forall T, 0 < T -> second_virial lu2 p o T x = Some (Fin (B T))) /\ is_derive B t r.
  Proof.
    intros Ht.
    destruct (v_residual p W Hph 3 t [0; 0; 1] [1; 1; 0] x Ht Hlen Hnn Hne lu3 o) as (a & E & R1).
    destruct (rel_represents 3 _ _ R1 [true; true; true] eq_refl) as (r & Er & Pr).
    exists a, (r / 2). split; [exact E | ]. rewrite Er. split; [apply at_half | ].
    set (B := fun T => match second_virial lu2 p o T x with Some (Fin b) => b | _ => 0 end).
    exists B. split.
    { intros T HT. destruct (second_value lu2 o T HT) as (b & Eb & _). unfold B. rewrite Eb. reflexivity. }
    destruct Pr as (g & Hg & h & Hh & k & Hk & Ek). cbn in Hg, Hh, Hk, Ek. subst r.
    assert (P : locally 0 (fun w => h (w, tt) = 2 * B (t + w))).
    { assert (L : locally 0 (fun w => 0 < t + w)).
      { exists (mkposreal t Ht). intros w Hw. change (Rabs (w - 0) < t) in Hw. apply Rabs_def2 in Hw. lra. }
      eapply filter_imp; [ | exact (filter_and _ _ L (filter_and _ _ Hg Hh))]. intros w (Lw & Gw & Hw). cbv beta in *.
      destruct (second_value lu2 o (t + w) Lw) as (b & Eb & Pb). unfold B. rewrite Eb.
      apply (partial_unique 2 [true; true] (fun z => low p o (@state_virial RNum (t + w) (aff 2 0 [1; 1] z) x))); auto.
      exists (fun y => g (fst y, (w, tt))). split.
      - cbn. eapply filter_imp; [ | exact Gw]. intros y Hy. cbv beta in *. eapply is_derive_ext; [ | exact Hy].
        intros u. cbv beta. unfold vpath. f_equal. cbn [aff hd tl fst snd]. f_equal; ring.
      - exists (fun _ => h (w, tt)). cbn. split; auto. }
    apply (is_derive_shift B (fun w => B (t + w)) t); [reflexivity | ].
    apply (is_derive_ext (fun w => / 2 * (2 * B (t + w)))); [intros w; toReq; field | ].
    replace (k tt / 2) with (/ 2 * k tt) by field.
    apply (is_derive_scal (fun w => 2 * B (t + w)) 0 (/ 2)).
    eapply is_derive_ext_loc; [exact P | exact Hk].
  Qed.
End Temperature.

(** For mixtures without polar components the third coefficient is right as well. *)
Section Nonpolar.
  Variables (prs : list (pure_record RNum)) (bin : list (list R)) (p : params RNum).
  Hypothesis Hp : from_records prs bin = Some p.
  Hypothesis Hph : phys p.
  Variables (t : R) (x : list R).
  Hypothesis Ht : 0 < t.
  Hypothesis Hlen : length x = length (p_m p).
  Hypothesis Hnn : forall i, (i < length (p_m p))%nat -> 0 <= nth i x 0.
  Hypothesis Hsum : rsum x (fun xi => xi) = 1.
  Hypothesis nonpolar : forall i, (i < length (p_m p))%nat -> @ix RNum (p_mu2 p) i = 0 /\ @ix RNum (p_q2 p) i = 0.

  Lemma pair_none C (w : nat -> nat -> R) c : (forall i j, (i < length (p_m p))%nat -> w i j = 0) ->
    forall l, pair_coef p t x C w c l = 0.
  Proof.
    intros H l. unfold pair_coef.
    assert (E : (Sum i < length (p_m p), Sum j < length (p_m p), nth i x 0 * nth j x 0 * w i j * c l i j) = 0).
    { apply rsum_zero. intros i Hi. apply seq_in in Hi. apply rsum_zero. intros j _. rewrite H by auto. ring. }
    change (N (mix_of p)) with (length (p_m p)). rewrite E. ring.
  Qed.
  Lemma pair_none_r C (w : nat -> nat -> R) c : (forall i j, (j < length (p_m p))%nat -> w i j = 0) ->
    forall l, pair_coef p t x C w c l = 0.
  Proof.
    intros H l. unfold pair_coef.
    assert (E : (Sum i < length (p_m p), Sum j < length (p_m p), nth i x 0 * nth j x 0 * w i j * c l i j) = 0).
    { apply rsum_zero. intros i _. apply rsum_zero. intros j Hj. apply seq_in in Hj. rewrite H by auto. ring. }
    change (N (mix_of p)) with (length (p_m p)). rewrite E. ring.
  Qed.
  Theorem C40_third_virial lu lu2 lu3 o :
    exists B C, second_virial lu2 p o t x = Some (Fin B) /\ third_virial lu3 p o t x = Some (Fin C) /\
      forall eps, 0 < eps -> exists V0, forall v, V0 < v ->
        exists a, residual lu (with_options p o) (@state_new RNum t v x) = Some a /\
          Rabs (2 * v * (v * a - B) - C) < eps.
  Proof.
    destruct (C40_third_virial_shift _ _ _ Hp Hph t x Ht Hlen Hnn Hsum lu lu2 lu3 o 0 0 0) as (B & C & E1 & E2 & H).
    - left. split; auto. apply pair_none. intros i j Hi. destruct (nonpolar i Hi) as [E _].
      change (@ix RNum (p_mu2 p) i) with (Mu2 (mix_of p) i) in E. rewrite E. ring.
    - left. split; auto. apply pair_none. intros i j Hi. destruct (nonpolar i Hi) as [_ E].
      change (@ix RNum (p_q2 p) i) with (Qu2 (mix_of p) i) in E. rewrite E. ring.
    - left. split; auto. apply pair_none. intros i j Hi. destruct (nonpolar i Hi) as [E _].
      change (@ix RNum (p_mu2 p) i) with (Mu2 (mix_of p) i) in E. rewrite E. ring.
    - exists B, C. split; auto. split; auto. intros eps He. destruct (H eps He) as (V0 & HV). exists V0. intros v Hv.
      destruct (HV v Hv) as (a & Ea & HB). exists a. split; auto. replace (C + 2 * (0 + 0 + 0)) with C in HB by ring. auto.
  Qed.
End Nonpolar.

(* ------------------------------------------------------------------- non-trivial cases *)

(** dimethyl ether, carbon dioxide and water at 350 K *)
Example C40_second_virial_case lu2 : exists B, second_virial lu2 sample default_options 350 [0.25; 0.25; 0.5] = Some (Fin B) /\
  forall eps, 0 < eps -> exists V0, forall v, V0 < v ->
    exists a, residual (fun _ _ => None) (eos_new sample) (@state_new RNum 350 v [0.25; 0.25; 0.5]) = Some a /\ Rabs (v * a - B) < eps.
Proof.
  apply (C40_second_virial_warm _ _ _ sample_ok sample_phys).
  - lra.
  - reflexivity.
  - intros i Hi. cbn in Hi. destruct i as [ | [ | [ | i]]]; cbn; try lra; lia.
  - cbn. lra.
  - intros i Hi Hpol. cbn in Hi. destruct i as [ | [ | [ | i]]]; try lia.
    + split; cbn; lra.
    + split; cbn; lra.
    + exfalso. destruct Hpol as [H | H]; apply H.
      * change (@mu2_of RNum 0 1.065587 3.000683 366.5121 = 0). unfold mu2_of. rn. unfold Rdiv. ring.
      * change (@q2_of RNum 0 1.065587 3.000683 366.5121 = 0). unfold q2_of. rn. unfold Rdiv. ring.
Qed.

Lemma water_mu2 : @mu2_of RNum 0 1.065587 3.000683 366.5121 = 0.
Proof. unfold mu2_of. rn. unfold Rdiv. ring. Qed.
Lemma water_q2 : @q2_of RNum 0 1.065587 3.000683 366.5121 = 0.
Proof. unfold q2_of. rn. unfold Rdiv. ring. Qed.
(** water at 350 K *)
Example C40_third_virial_case lu2 lu3 : exists B C, second_virial lu2 w1 default_options 350 [1] = Some (Fin B) /\
  third_virial lu3 w1 default_options 350 [1] = Some (Fin C) /\
  forall eps, 0 < eps -> exists V0, forall v, V0 < v ->
    exists a, residual (fun _ _ => None) (eos_new w1) (@state_new RNum 350 v [1]) = Some a /\ Rabs (2 * v * (v * a - B) - C) < eps.
Proof.
  apply (C40_third_virial _ _ _ w1_ok w1_phys).
  - lra.
  - reflexivity.
  - intros i Hi. cbn in Hi. destruct i as [ | i]; cbn; try lra; lia.
  - cbn. lra.
  - intros i Hi. cbn in Hi. destruct i as [ | i]; [ | lia]. split; [exact water_mu2 | exact water_q2].
Qed.

(* ------------------------------------------------------------------- third coefficient *)

Lemma dme_mu2 : 0 < Mu2 (mix_of t_dme) 0.
Proof. change (Mu2 (mix_of t_dme) 0) with (@mu2_of RNum 1.3 2.2634 3.2723 210.29). unfold mu2_of, e_m19, kb_conv. rn. lits. interval. Qed.
Lemma dme_q2 : Qu2 (mix_of t_dme) 0 = 0.
Proof. change (Qu2 (mix_of t_dme) 0) with (@q2_of RNum 0 2.2634 3.2723 210.29). unfold q2_of. rn. unfold Rdiv. ring. Qed.
Lemma dme_mp : mp (mix_of t_dme) 0 = 2.
Proof. unfold mp. change (M (mix_of t_dme) 0) with 2.2634. rewrite Rmin_right; lra. Qed.
Lemma dme_w : 0 < Wi (mix_of t_dme) 350 3 0.
Proof.
  unfold Wi. change (Ep (mix_of t_dme) 0) with 210.29. change (Sg (mix_of t_dme) 0) with 3.2723. lra.
Qed.
Lemma dme_s : Sij (mix_of t_dme) 0 0 = 3.2723.
Proof. unfold Sij. change (Sg (mix_of t_dme) 0) with 3.2723. lra. Qed.
Lemma dme_alpha : dd_alpha t_dme 350 [1] 0%nat <> 0.
Proof.
  pose proof dme_mu2 as Hmu. pose proof dme_w as Hw. pose proof dme_s as Hs.
  assert (Hc : 0 < pair_int t_dme 350 AD BD 0 0 0).
  { unfold pair_int, m2. rewrite dme_mp. replace (2 * 2) with (2 ^ 2) by ring. rewrite sqrt_pow2 by lra.
    unfold Eij0. change (Ep (mix_of t_dme) 0) with 210.29. rewrite sqrt_square by lra.
    unfold cm, q1, q12, lit2, AD, BD. cbn [nth]. unfold Rlit, Q2R. cbn [Qnum Qden]. interval. }
  unfold dd_alpha, pair_coef. change (N (mix_of t_dme)) with 1%nat. unfold rsum. cbn [seq map fold_right nth]. rewrite pow_O, Hs.
  revert Hmu Hw Hc. generalize (Mu2 (mix_of t_dme) 0) (Wi (mix_of t_dme) 350 3 0) (pair_int t_dme 350 AD BD 0 0 0). intros m w c Hm Hw Hc.
  assert (0 < w * w * m * m * c * PI) by (apply Rmult_lt_0_compat; [repeat apply Rmult_lt_0_compat; lra | apply PI_RGT_0]).
  intros E. apply (Rlt_irrefl 0). rewrite <- E at 2. nra.
Qed.
Lemma dme_beta : dd_beta t_dme 350 [1] 0%nat <> 0.
Proof.
  pose proof dme_mu2 as Hmu. pose proof dme_w as Hw. pose proof dme_s as Hs.
  assert (Hc : cm CD 0 (m3 (mix_of t_dme) 0 0 0) < 0).
  { unfold m3. rewrite dme_mp, cbrt_pos by lra.
    unfold cm, q1, q12, lit2, CD. cbn [nth]. unfold Rlit, Q2R. cbn [Qnum Qden]. interval. }
  unfold dd_beta, triple_coef. change (N (mix_of t_dme)) with 1%nat. unfold rsum. cbn [seq map fold_right nth]. rewrite pow_O, Hs.
  revert Hmu Hw Hc. generalize (Mu2 (mix_of t_dme) 0) (Wi (mix_of t_dme) 350 3 0) (cm CD 0 (m3 (mix_of t_dme) 0 0 0)). intros m w c Hm Hw Hc.
  assert (0 < w * w * w * m * m * m * - c * PI ^ 2).
  { apply Rmult_lt_0_compat; [repeat apply Rmult_lt_0_compat; lra | apply pow_lt; apply PI_RGT_0]. }
  intros E. apply (Rlt_irrefl 0). rewrite <- E at 2. nra.
Qed.

(** The third virial coefficient of dimethyl ether at 350 K is not the limit of
    2 v (v A - B): it lacks the leading triple term of the dipoles. *)
Theorem C40_third_virial_refuted :
  exists (p : params RNum) (prs : list (pure_record RNum)) bin (t : R), from_records prs bin = Some p /\ phys p /\ 0 < t /\
  forall lu lu2 lu3, exists B C d, d <> 0 /\
    second_virial lu2 p default_options t [1] = Some (Fin B) /\ third_virial lu3 p default_options t [1] = Some (Fin C) /\
    forall eps, 0 < eps -> exists V0, forall v, V0 < v ->
      exists a, residual lu (eos_new p) (@state_new RNum t v [1]) = Some a /\ Rabs (2 * v * (v * a - B) - (C + d)) < eps.
Proof.
  exists t_dme, [pr_dme], (zeros 1), 350. split; [exact t_dme_ok | ]. split; [exact t_dme_phys | ]. split; [lra | ].
  intros lu lu2 lu3.
  assert (D : dd_alpha t_dme 350 [1] 0%nat <> 0) by exact dme_alpha.
  assert (DB : dd_beta t_dme 350 [1] 0%nat <> 0) by exact dme_beta.
  destruct (C40_third_virial_shift _ _ _ t_dme_ok t_dme_phys 350 [1]) with (lu := lu) (lu2 := lu2) (lu3 := lu3)
    (o := @default_options RNum) (b1 := dd_beta t_dme 350 [1] 0%nat) (b2 := 0) (b3 := 0) as (B & C & E1 & E2 & H).
  - lra.
  - reflexivity.
  - intros i Hi. cbn in Hi. destruct i as [ | i]; cbn; try lra; lia.
  - cbn. lra.
  - right. auto.
  - left. split; auto. apply pair_none. intros i j Hi. cbn in Hi. replace i with 0%nat by lia. rewrite dme_q2. ring.
  - left. split; auto. apply (pair_none_r t_dme 350 [1]). intros i j Hj. cbn in Hj. replace j with 0%nat by lia. rewrite dme_q2. ring.
  - exists B, C, (2 * (dd_beta t_dme 350 [1] 0%nat + 0 + 0)). split; [lra | ]. auto.
Qed.

(* ------------------------------------------------------------------- one associating component or two *)


Lemma w1_Delta u : 0 <= u <= / 1000 -> 1 < Delta (mix_of w1) 350 (fun i => nth i [1] 0 * u) 0 0 < 10 ^ 4.
Proof.
  intros Hu. unfold Delta, Gij, Zeta, Kapij, Sij, Di. cbn.
  split; interval.
Qed.
Lemma w1_state v : 1000 <= v -> phys_state w1 350 v [1].
Proof.
  intros Hv. apply phys_state_intro; [exact w1_phys | lra | lra | reflexivity | | | ].
  - intros i Hi. cbn in Hi. destruct i as [ | i]; cbn; try lra; lia.
  - exists 0%nat. cbn. split; [lia | lra].
  - cbn. lra.
Qed.
Lemma ww_half_state v : 1000 <= v -> phys_state ww 350 v [1 / 2; 1 / 2].
Proof.
  intros Hv. apply phys_state_intro; [exact ww_phys | lra | lra | reflexivity | | | ].
  - intros i Hi. cbn in Hi. destruct i as [ | [ | i]]; cbn; try lra; lia.
  - exists 0%nat. cbn. split; [lia | lra].
  - cbn. lra.
Qed.
Lemma fx_le y : 0 < y -> fx y <= (y - 1) / 2.
Proof. intros Hy. unfold fx. pose proof (exp_ineq1_le (ln y)) as H. rewrite exp_ln in H by auto. lra. Qed.
Lemma w1_bonding v : 10 ^ 12 < v -> v * a_assoc w1 (@state_new RNum 350 v [1]) <= - (1 / 2).
Proof.
  intros Hv. assert (Hv' : 1000 <= v) by (simpl in Hv; lra).
  assert (Hu : 0 <= / v <= / 1000) by (split; [left; apply Rinv_0_lt_compat; lra | apply Rinv_le_contravar; lra]).
  pose proof (w1_Delta (/ v) Hu) as HD.
  unfold a_assoc. rewrite w1_comp. change (ixn [0%nat] 0) with 0%nat. cbv zeta.
  change (s_t (@state_new RNum 350 v [1])) with 350.
  rewrite (assoc_deltarho w1 (wfp_from_records _ _ _ w1_ok) w1_phys 350 v [1] (w1_state v Hv') 0 w1_comp).
  change (Delta (mix_of w1) 350 (fun i : nat => nth i [1] 0 / v) 0 0) with (Delta (mix_of w1) 350 (fun i => nth i [1] 0 * / v) 0 0).
  change (nth 0 [1] 0) with 1.
  change (@ix RNum (p_na w1) 0) with 1. change (@ix RNum (p_nb w1) 0) with 1.
  change (@ix RNum (s_moles (@state_new RNum 350 v [1])) 0) with 1.
  change (@nltb RNum n0 1) with (Rltb (@n0 RNum) 1). rewrite (proj2 (Rltb_true _ _)) by (rn; lra).
  set (D := Delta _ _ _ _ _) in *. rewrite !f_assoc_R.
  assert (Hd : 0 < D * (1 / v) <= / 10 ^ 8).
  { split.
    - apply Rmult_lt_0_compat; [lra | ]. apply Rdiv_lt_0_compat; lra.
    - apply Rle_trans with (10 ^ 4 * / 10 ^ 12); [ | right; field].
      apply Rmult_le_compat; [lra | unfold Rdiv; lra | lra | ]. unfold Rdiv. rewrite Rmult_1_l.
      apply Rinv_le_contravar; [apply pow_lt; lra | lra]. }
  assert (Ev : v * (D * (1 / v)) = D) by (field; lra).
  set (d := D * (1 / v)) in *. rewrite assoc_site_frac_ab_below by lra.
  assert (Hx : fx (1 + d * 1 * (d * (1 + 1) - 1)) <= - d / 4).
  { eapply Rle_trans; [apply fx_le; nra | ]. nra. }
  set (y := 1 + d * 1 * (d * (1 + 1) - 1)) in *.
  rn. replace ((y - 1) * (1 / 1) + 1) with y by field. nra.
Qed.
(** Water at 350 K, described as one component or as two identical ones, has different second
    virial coefficients, although its energy is the same up to the tolerance of the solver at all
    densities that are not tiny (C05). *)
Theorem C40_split_refuted lu2 lu2' : exists B B',
  subset w1 [0; 0]%nat = Some ww /\
  second_virial lu2 w1 default_options 350 [1] = Some (Fin B) /\
  second_virial lu2' ww default_options 350 [1 / 2; 1 / 2] = Some (Fin B') /\
  B + 1 / 2 <= B'.
Proof.
  assert (nz : forall (p : params RNum), (forall i, (i < length (p_m p))%nat -> @ix RNum (p_mu2 p) i = 0 /\ @ix RNum (p_q2 p) i = 0) ->
    forall i, (i < length (p_m p))%nat -> @ix RNum (p_mu2 p) i <> 0 \/ @ix RNum (p_q2 p) i <> 0 -> 1 <= @ix RNum (p_m p) i /\ @ix RNum (p_epsilon_k p) i <= 350).
  { intros p H i Hi [E | E]; exfalso; apply E; apply H; auto. }
  destruct (C40_second_virial_warm _ _ _ w1_ok w1_phys 350 [1]) with (lu := fun (_ : list (list R)) (_ : list R) => @None (list R)) (lu2 := lu2) (o := @default_options RNum)
    as (B & E & H); [lra | reflexivity | | cbn; lra | | ].
  { intros i Hi. cbn in Hi. destruct i as [ | i]; cbn; try lra; lia. }
  { apply nz. intros i Hi. cbn in Hi. destruct i as [ | i]; [ | lia]. split; [exact water_mu2 | exact water_q2]. }
  destruct (C40_second_virial_warm _ _ _ ww_ok ww_phys 350 [1 / 2; 1 / 2]) with (lu := fun (_ : list (list R)) (_ : list R) => @None (list R)) (lu2 := lu2') (o := @default_options RNum)
    as (B' & E' & H'); [lra | reflexivity | | cbn; lra | | ].
  { intros i Hi. cbn in Hi. destruct i as [ | [ | i]]; cbn; try lra; lia. }
  { apply nz. intros i Hi. cbn in Hi. destruct i as [ | [ | i]]; [ | | lia]; (split; [exact water_mu2 | exact water_q2]). }
  exists B, B'. split; [exact w1_twice | ]. split; auto. split; auto.
  destruct (full_residual w1 350 [1] (fun _ _ => None) default_options) as (V1 & R1).
  destruct (full_residual ww 350 [1 / 2; 1 / 2] (fun _ _ => None) default_options) as (V2 & R2).
  apply Rnot_lt_le. intros C.
  set (e := (B + 1 / 2 - B') / 2). assert (He : 0 < e) by (unfold e; lra).
  destruct (H e He) as (V3 & H3). destruct (H' e He) as (V4 & H4).
  set (v := Rmax (Rmax (Rmax V1 V2) (Rmax V3 V4)) (10 ^ 12) + 1).
  pose proof (Rmax_l V1 V2). pose proof (Rmax_r V1 V2). pose proof (Rmax_l V3 V4). pose proof (Rmax_r V3 V4).
  pose proof (Rmax_l (Rmax V1 V2) (Rmax V3 V4)). pose proof (Rmax_r (Rmax V1 V2) (Rmax V3 V4)).
  pose proof (Rmax_l (Rmax (Rmax V1 V2) (Rmax V3 V4)) (10 ^ 12)). pose proof (Rmax_r (Rmax (Rmax V1 V2) (Rmax V3 V4)) (10 ^ 12)).
  assert (Hv : V1 < v /\ V2 < v /\ V3 < v /\ V4 < v /\ 10 ^ 12 < v) by (unfold v; repeat split; lra).
  clearbody v. destruct Hv as (L1 & L2 & L3 & L4 & L5). assert (L6 : 1000 <= v) by (simpl in L5; lra).
  destruct (H3 v L3) as (a & Ea & Ba). destruct (H4 v L4) as (a' & Ea' & Ba').
  rewrite R1 in Ea by auto. apply Some_inj in Ea. rewrite R2 in Ea' by auto. apply Some_inj in Ea'.
  assert (RG : regrouped [0; 0]%nat (length (p_m w1)) [1 / 2; 1 / 2] [1]).
  { split; [reflexivity | ]. split; [reflexivity | ]. intros j Hj. cbn in Hj. replace j with 0%nat by lia. cbn. lra. }
  pose proof (lump_hs _ _ ww w1 [0; 0]%nat w1_ok w1_twice w1_phys 350 v _ _ RG (ww_half_state v L6)) as P1.
  pose proof (lump_hc _ _ ww w1 [0; 0]%nat w1_ok w1_twice w1_phys 350 v _ _ RG (ww_half_state v L6)) as P2.
  pose proof (lump_disp _ _ ww w1 [0; 0]%nat w1_ok w1_twice 350 v _ _ RG (ww_half_state v L6)) as P3.
  pose proof (lump_dipole _ _ ww w1 [0; 0]%nat w1_ok w1_twice w1_phys 350 v _ _ RG (ww_half_state v L6)) as P4.
  assert (P5 : a_quadrupole ww (@state_new RNum 350 v [1 / 2; 1 / 2]) = a_quadrupole w1 (@state_new RNum 350 v [1])).
  { apply (lump_quadrupole _ _ ww w1 [0; 0]%nat w1_ok w1_twice w1_phys 350 v _ _ RG (ww_half_state v L6)).
    intros i j Hi Hj. change (N (mix_of w1)) with 1%nat in Hi, Hj. replace i with j by lia. auto. }
  pose proof (lump_dq _ _ ww w1 [0; 0]%nat w1_ok w1_twice w1_phys 350 v _ _ RG (ww_half_state v L6) (o_dq (@default_options RNum))) as P6.
  pose proof (w1_bonding v L5) as PB.
  unfold full, assoc_low in Ea, Ea'. rewrite w1_nassoc in Ea. rewrite ww_nassoc in Ea'. cbn [Nat.eqb] in Ea, Ea'.
  rewrite P1, P2, P3, P4, P5, P6 in Ea'. revert Ea Ea' PB.
  generalize (a_assoc w1 (@state_new RNum 350 v [1])). generalize (a_hs w1 (@state_new RNum 350 v [1])).
  generalize (a_hc w1 (@state_new RNum 350 v [1])). generalize (a_disp w1 (@state_new RNum 350 v [1])).
  generalize (a_dipole w1 (@state_new RNum 350 v [1])). generalize (a_quadrupole w1 (@state_new RNum 350 v [1])).
  generalize (a_dq w1 (o_dq (@default_options RNum)) (@state_new RNum 350 v [1])).
  intros r1 r2 r3 r4 r5 r6 r7 Ea Ea' PB.
  change (car RNum) with R in *.
  apply Rabs_def2 in Ba. apply Rabs_def2 in Ba'. assert (Q : @eq R a (a' + r7)) by (rewrite <- Ea, <- Ea'; ring). subst a.
  assert (v * (a' + r7) = v * a' + v * r7) by ring. destruct Ba as [_ Ba], Ba' as [Ba' _]. fold e in Ba, Ba'. assert (B - B' + 1 / 2 = 2 * e) by (unfold e; field). clearbody e.
  rewrite Q in Ba. lra.
Qed.

Print Assumptions C40_second_virial.
Print Assumptions C40_second_virial_warm.
Print Assumptions C40_third_virial_shift.
Print Assumptions C40_third_virial.
Print Assumptions C40_third_virial_refuted.
Print Assumptions C40_finite.
Print Assumptions C40_temperature_derivative.
Print Assumptions C40_no_cross_association.
Print Assumptions C40_split_refuted.
