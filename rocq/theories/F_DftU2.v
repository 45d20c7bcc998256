(** The functional of a uniform fluid in dual numbers: each contribution is the one of the
    equation of state divided by the volume. *)
From Coq Require Import ZArith QArith Reals Lra Lia List Bool.
From Coquelicot Require Import Coquelicot.
From Verif Require Import Num RNum RSum Tables M_Params F_Params M_Eos M_Dft Spec F_Spec F_SpecPolar F_SpecAssoc
  F_Contrib F_Cross F_Total F_Transfer F_TransferS XNum DNum F_Level P_Dual F_DualNewton F_DualRun P_Dual3 F_Dft F_Dft2 P_Dft F_DftT F_DftT2 F_DftT3 P_DftD F_DftU P_Dual4.
From Verif Require F_Transfer2.
Import ListNotations.
Local Open Scope R_scope.
Set Bullet Behavior "Strict Subproofs".
Notation length := List.length.

Section Same.
  Variable k : nat.
  Lemma rel_same f g (a b : dnum k) : rel (TRn k) f a -> rel (TRn k) g b -> near (dual k) (fun z => f z = g z) -> a = b.
  Proof. intros A B E. apply (rel_fun (dual k) g); auto. exact (rel_near (dual k) f g a E A). Qed.
  Lemma lrel_same fl gl (a b : list (dnum k)) : lrel (TRn k) fl a -> lrel (TRn k) gl b -> near (dual k) (fun z => fl z = gl z) -> a = b.
  Proof.
    intros A B E. pose proof (near_z (dual k) _ E) as E0. cbv beta in E0.
    assert (L : length a = length b).
    { rewrite <- (lrel_length (TRn k) _ _ (lz (dual k)) A), <- (lrel_length (TRn k) _ _ (lz (dual k)) B), E0. reflexivity. }
    apply (nth_ext _ _ n0 n0); auto. intros i Hi.
    apply (rel_same (fun z => @ix RNum (fl z) i) (fun z => @ix RNum (gl z) i)).
    - exact (tr_ix (TRn k) _ _ i A).
    - exact (tr_ix (TRn k) _ _ i B).
    - eapply near_imp; [ | exact E]. intros z ->. reflexivity.
  Qed.
  (** a dual number with finite coefficients is related to some function *)
  Lemma finite_rel (a : dnum k) : (forall s, length s = k -> exists r, coef k s a = Fin r) -> exists f, rel (TRn k) f a.
  Proof.
    revert a. induction k as [ | m IH]; intros a H.
    - destruct (H [] eq_refl) as (r & E). exists (fun _ => r). cbn in *. congruence.
    - destruct a as [a b]. destruct (IH a) as (f & F).
      { intros s Hs. exact (H (false :: s) (f_equal S Hs)). }
      destruct (IH b) as (g & G).
      { intros s Hs. exact (H (true :: s) (f_equal S Hs)). }
      exists (fun z => f (snd z) + fst z * g (snd z)). split.
      + eapply (rel_near (dual m)); [ | exact F]. eapply (near_imp (dual m)); [ | apply (near_true (dual m))]. intros y _. cbn. ring.
      + exists g. split; [exact G | ]. eapply (near_imp (dual m)); [ | apply (near_true (dual m))]. intros y _. cbn [fst snd].
        auto_derive; auto. ring.
  Qed.
  Lemma xadd_fin x y w : xadd x y = Fin w -> (exists u, x = Fin u) /\ exists u, y = Fin u.
  Proof. destruct x, y; cbn; intros E; try discriminate; eauto. Qed.
End Same.
Lemma finite_factor k : forall (f : pt k -> R) (a y : dnum k), rel (TRn k) f y -> f (lz (dual k)) <> 0 ->
  (forall s, length s = k -> exists r, coef k s (nmul a y) = Fin r) -> forall s, length s = k -> exists r, coef k s a = Fin r.
Proof.
  induction k as [ | m IH]; intros f a y T Z H.
  - intros s _. specialize (H [] eq_refl). cbn in *. subst y. destruct a; cbn in *; eauto; destruct H as (r & H);
      unfold sgn_inf in H; repeat match type of H with context [if ?b then _ else _] => destruct b end; try discriminate; cbn in Z; lra.
  - destruct a as [a b']. destruct y as [y y']. cbn [fst snd] in *. destruct T as (T & _). assert (Ha : forall s, length s = m -> exists r, coef m s a = Fin r).
    { apply (IH _ _ y T Z). intros s Hs. exact (H (false :: s) (f_equal S Hs)). }
    assert (Hb : forall s, length s = m -> exists r, coef m s b' = Fin r).
    { apply (IH _ _ y T Z). intros s Hs. destruct (H (true :: s) (f_equal S Hs)) as (r & E).
      change (coef m s (nadd (nmul a y') (nmul b' y)) = Fin r) in E. rewrite coef_add in E.
      apply xadd_fin in E. exact (proj2 E). }
    intros [ | b s] Hs; [discriminate | ]. cbn [List.length] in Hs. injection Hs as Hs. destruct b; [exact (Hb s Hs) | exact (Ha s Hs)].
Qed.

Section Mixture.
  Variables (prs : list (pure_record RNum)) (bin : list (list R)) (p : params RNum).
  Hypothesis Hp : from_records prs bin = Some p.
  Hypothesis Hph : phys p.
  Let W : wfp p := wfp_from_records prs bin p Hp.
  Let X := mix_of p.
  Let c := length (p_m p).
  Variables (n : nat) (t v : R) (dt dv : list R) (seeds : list (R * list R)).
  Notation moles := (map fst seeds).
  Notation zn := (lz (dual n)).
  Notation rl := (rel (TRn n)).
  Hypothesis PS : phys_state p t v moles.
  Hypothesis Hpos : forall i, (i < c)%nat -> 0 < nth i moles 0.
  Hypothesis He : @f_eps RNum < density moles v.
  Hypothesis Hn : 1 / 100000 < Eta X t (fun i => nth i moles 0 / v).
  Notation tz := (aff n t dt). Notation vz := (aff n v dv).
  Notation mz := (fun z : pt n => map (fun md => aff n (fst md) (snd md) z) seeds).
  Notation rz z := (fun i => nth i (mz z) 0 / vz z).
  Notation td := (seed n t dt). Notation vd := (seed n v dv).
  Notation q := (dparams p n).
  Notation st := (path n t v dt dv seeds).
  Notation s2 := (dstate n t v dt dv seeds).
  Notation r := (fun z => s_rho (st z)).
  Notation r2 := (s_rho s2).
  Let Tt : rl tz td := rel_aff n t dt.
  Let Tv : rl vz vd := rel_aff n v dv.
  Let TM : lrel (TRn n) mz (map (fun md => seed n (fst md) (snd md)) seeds) := Tm n seeds.
  Let PSz : phys_state p (tz zn) (vz zn) (mz zn) := PS' p n t v dt dv seeds PS.
  Let Ht0 : 0 < tz zn := ps_t _ _ _ _ PSz.
  Let Hv0 : 0 < vz zn := ps_v _ _ _ _ PSz.
  Lemma U_r : lrel (TRn n) r r2.
  Proof. exact (F_Transfer2.tr_rho (TRn n) p tz vz td vd mz _ Tv TM PSz). Qed.
  Lemma mz0 : mz zn = moles.
  Proof. apply map_ext. intros md. apply aff_base. Qed.
  Lemma Lmz z : length (mz z) = c.
  Proof. cbv beta. rewrite map_length. pose proof (ps_len _ _ _ _ PS) as L. rewrite map_length in L. exact L. Qed.
  Lemma Lr2 : length r2 = c.
  Proof. etransitivity; [symmetry; exact (lrel_length (TRn n) _ _ zn U_r) | ]. cbn. rewrite map_length. apply Lmz. Qed.
  Lemma U_pack : rl (fun z => packing p (tz z) (r z)) (packing q td r2).
  Proof. exact (F_Transfer2.tr_packing (TRn n) p tz vz td vd mz _ Tt Tv TM PSz). Qed.
  Lemma packz z : packing p (tz z) (r z) = Eta X (tz z) (rz z).
  Proof. apply (packing_spec p W). apply Lmz. Qed.
  Lemma U_mole i : rl (fun z => nth i (mz z) 0) (ix (map (fun md => seed n (fst md) (snd md)) seeds) i).
  Proof. exact (tr_ix (TRn n) _ _ i TM). Qed.

  Definition good (z : pt n) : Prop := phys_state p (tz z) (vz z) (mz z) /\
    @f_eps RNum < density (mz z) (vz z) /\ 1 / 100000 <= Eta X (tz z) (rz z) /\ (forall i, (i < c)%nat -> 0 < nth i (mz z) 0).
  Lemma near_good : near (dual n) good.
  Proof.
    pose proof (rel_gt (dual n) _ _ 0 Tt Ht0) as N1. pose proof (rel_gt (dual n) _ _ 0 Tv Hv0) as N2.
    assert (N3 : near (dual n) (fun z => forall i, (i < c)%nat -> 0 < nth i (mz z) 0)).
    { apply (P_DftD.near_all n c (fun i z => 0 < nth i (mz z) 0)). intros i Hi. apply (rel_gt (dual n) _ _ 0 (U_mole i)).
      cbv beta. rewrite mz0. auto. }
    assert (N4 : near (dual n) (fun z => packing p (tz z) (r z) < 1)).
    { apply (rel_lt (dual n) _ _ 1 U_pack). cbv beta. rewrite packz. apply (ps_eta _ _ _ _ PSz). }
    assert (N5 : near (dual n) (fun z => 1 / 100000 < packing p (tz z) (r z))).
    { apply (rel_gt (dual n) _ _ _ U_pack). cbv beta. rewrite packz, !aff_base, mz0. exact Hn. }
    assert (N6 : near (dual n) (fun z => @f_eps RNum < @ndiv RNum (@nsum RNum (mz z)) (vz z))).
    { apply (rel_gt (dual n) _ _ _ (tr_div _ _ (TRn n) _ _ _ _ (tr_nsum (TRn n) _ _ TM) Tv ltac:(lra))). cbv beta.
      rewrite mz0, aff_base, nsum_R. exact He. }
    eapply near_imp; [ | exact (near_and (dual n) _ _ (near_and (dual n) _ _ N1 N2) (near_and (dual n) _ _ N3 (near_and (dual n) _ _ N4 (near_and (dual n) _ _ N5 N6))))].
    intros z [[A1 A2] [A3 [A4 [A5 A6]]]]. rewrite packz in A4, A5. rewrite nsum_R in A6.
    split; [ | split; [exact A6 | split; [lra | exact A3]]].
    constructor; auto.
    - apply Lmz.
    - intros i Hi. left. auto.
    - destruct (ps_nonempty _ _ _ _ PS) as (i & Hi & _). exists i. split; auto.
  Qed.
  Lemma same f g (a b : dnum n) : rl f a -> rl g b -> (forall z, good z -> f z = g z) -> a = b.
  Proof. intros A B E. apply (rel_same n f g a b A B). eapply near_imp; [exact E | exact near_good]. Qed.
  Lemma lsame fl gl (a b : list (dnum n)) : lrel (TRn n) fl a -> lrel (TRn n) gl b -> (forall z, good z -> fl z = gl z) -> a = b.
  Proof. intros A B E. apply (lrel_same n fl gl a b A B). eapply near_imp; [exact E | exact near_good]. Qed.
  Lemma via f g (a : dnum n) : (forall z, good z -> f z = g z) -> rl f a -> rl g a.
  Proof. intros E. apply (rel_near (dual n)). eapply near_imp; [exact E | exact near_good]. Qed.
  Lemma good0 : good zn.
  Proof. exact (near_z (dual n) _ near_good). Qed.

  (* ------------------------------------------------------- hard spheres and chains *)
  Lemma bulk_n3_pack z : bulk_n3 p n tz r z = packing p (tz z) (r z).
  Proof. reflexivity. Qed.
  Theorem U_fmt_eos : ext_fmt_bulk q td r2 = ndiv (a_hs q s2) vd.
  Proof.
    apply (same (fun z => @ext_fmt_bulk RNum p (tz z) (r z)) (fun z => @ndiv RNum (a_hs p (st z)) (vz z))).
    - apply (U_fmt p n tz td r r2 Tt U_r Ht0).
      + rewrite bulk_n3_pack, packz. apply (ps_eta _ _ _ _ PSz).
      + rewrite bulk_n3_pack, packz, n3_cutoff_R, !aff_base, mz0. lra.
    - apply (tr_div _ _ (TRn n)); [ | exact Tv | lra].
      exact (F_Transfer2.tr_hs (TRn n) p W Hph _ _ _ _ _ _ Tt Tv TM PSz).
    - intros z (PZ & _ & Ez & _). exact (C09_hard_sphere prs bin p Hp Hph _ _ _ PZ Ez).
  Qed.

  (* ------------------------------------------------------------------------ chains *)
  Section Dim.
  Variable dim : nat.
  Let cw z := @bulk_wd RNum (chain_weight_functions p (tz z)) dim (r z).
  Let cw2 := bulk_wd (chain_weight_functions q td) dim r2.
  Let Tc : lrel (TRn n) cw cw2 := U_chain p W Hph n tz td r r2 Tt U_r Ht0 Lr2 dim.
  Lemma chain_at z : good z -> cw z = (r z) ++ mk1 c (@ix RNum (r z)) ++ [Zeta X (tz z) (rz z) 2; Zeta X (tz z) (rz z) 3].
  Proof. intros (PZ & _). unfold cw. exact (chain_wd p W Hph (tz z) (vz z) (mz z) PZ dim). Qed.
  Lemma Lr z : length (r z) = c.
  Proof. etransitivity; [exact (lrel_length (TRn n) _ _ z U_r) | apply Lr2]. Qed.
  Lemma chain_len : length cw2 = (2 * c + 2)%nat.
  Proof.
    etransitivity; [symmetry; exact (lrel_length (TRn n) _ _ zn Tc) | ]. rewrite (chain_at zn good0).
    rewrite !app_length, mk1_length. lenR. rewrite Lr. cbn [length]. lia.
  Qed.
  Theorem U_chain_rel : rl (fun z => phi_chain p (tz z) (cw z)) (phi_chain q td cw2).
  Proof.
    assert (Em : Nat.div (length cw2 - 2) 2 = c).
    { rewrite chain_len. replace (2 * c + 2 - 2)%nat with (c * 2)%nat by lia. apply Nat.div_mul. lia. }
    pose proof (T_chain_gen p W Hph n tz td cw cw2 Tt Tc Ht0) as T. rewrite Em in T.
    specialize (T (Nat.le_refl _) (fun i => lam_branch n (fun x => @ix RNum (cw x) (c + i)))).
    pose proof good0 as G0. destruct G0 as (PZ & _ & _ & Pz).
    assert (A1 : forall i, (i < c)%nat -> @ix RNum (cw zn) (c + i) = nth i (mz zn) 0 / vz zn).
    { intros i Hi. rewrite (chain_at zn good0). rewrite ix_app2 by (lenR; rewrite Lr; lia). lenR. rewrite Lr.
      replace (c + i - c)%nat with i by lia. rewrite ix_app1 by (rewrite mk1_length; exact Hi). rewrite (ix_mk1 (K := RNum)) by exact Hi.
      exact (rl_ix p (tz zn) (vz zn) (mz zn) PZ i Hi). }
    assert (A2 : forall j, @ix RNum (cw zn) (2 * c + j) = @ix RNum [Zeta X (tz zn) (rz zn) 2; Zeta X (tz zn) (rz zn) 3] j).
    { intros j. rewrite (chain_at zn good0). rewrite ix_app2 by (lenR; rewrite Lr; lia). rewrite ix_app2 by (rewrite mk1_length; lenR; rewrite Lr; lia).
      lenR. rewrite Lr, mk1_length. f_equal. lia. }
    eapply (rel_near (dual n)); [ | apply T].
    - eapply near_imp; [ | apply (P_DftD.near_all n c (fun i z => lam_branch n (fun x => @ix RNum (cw x) (c + i)) z = @lambda_reg RNum (@ix RNum (cw z) (c + i))))].
      + intros z Hz. rewrite (chain_plain p n tz cw cw2 Tc z). rewrite Em.
        unfold chain_gen. f_equal. unfold mk1. apply map_ext_in. intros i Hi. apply seq_in in Hi. rewrite (Hz i Hi). reflexivity.
      + intros i Hi. eapply lam_plain; [apply (w_ix n _ _ Tc) | ]. rewrite (A1 i Hi). apply Rgt_not_eq. apply Rdiv_lt_0_compat; [apply Pz; auto | exact Hv0].
    - intros i Hi. split; [apply T_lam; apply (w_ix n _ _ Tc) | apply lam_pos].
    - replace (2 * c)%nat with (2 * c + 0)%nat by lia. rewrite A2. left. exact (z2_pos p Hph (tz zn) (vz zn) (mz zn) PZ).
    - rewrite A2. exact (z3_lt1 p (tz zn) (vz zn) (mz zn) PZ).
  Qed.
  Lemma rpos i : (i < c)%nat -> 0 < @ix RNum (r zn) i.
  Proof.
    intros Hi. pose proof good0 as (PZ & _ & _ & Pz).
    eapply Rlt_le_trans; [ | right; symmetry; exact (rl_ix p (tz zn) (vz zn) (mz zn) PZ i Hi)]. apply Rdiv_lt_0_compat; [apply Pz; auto | exact Hv0].
  Qed.
  Theorem U_ideal_rel : rl (fun z => @ext_ideal_chain RNum p (r z)) (ext_ideal_chain q r2).
  Proof. apply (U_ideal p n r r2 U_r). exact rpos. Qed.

  (* -------------------------------------------------------------------- attraction *)
  Hypothesis Hq1 : (p_nquadpole p <= 1)%nat.
  Hypothesis Np : P_Dual4.no_pole p t v seeds DQ35.
  Lemma att_wd2 : bulk_wd (att_weight_functions psi_dft q td) dim r2 = r2.
  Proof.
    apply (lsame (fun z => @bulk_wd RNum (@att_weight_functions RNum psi_dft p (tz z)) dim (r z)) r).
    - apply (U_att p W Hph n tz td r r2 Tt U_r Ht0 Lr2 dim (@psi_dft RNum) psi_dft); [apply (tr_lit _ _ (TRn n)) | unfold psi_dft; rn; lra].
    - exact U_r.
    - intros z (PZ & _). apply (att_wd p W Hph (tz z) (vz z) (mz z) PZ). unfold psi_dft; rn; lra.
  Qed.
  Theorem U_att_rel : rl (fun z => phi_att p (tz z) (bulk_wd (att_weight_functions psi_dft p (tz z)) dim (r z))) (phi_att q td (bulk_wd (att_weight_functions psi_dft q td) dim r2)).
  Proof.
    rewrite att_wd2. pose proof good0 as (PZ & Ez & _ & Pz).
    apply (via (fun z => phi_att p (tz z) (r z))).
    { intros z (PY & _). f_equal. symmetry. apply (att_wd p W Hph (tz z) (vz z) (mz z) PY). unfold psi_dft; rn; lra. }
    set (rho := fun i => nth i (mz zn) 0 / vz zn).
    assert (Er : forall i, (i < c)%nat -> @ix RNum (r zn) i = rho i) by exact (rl_ix p (tz zn) (vz zn) (mz zn) PZ).
    assert (Ee : att_eta p (tz zn) (r zn) = Eta X (tz zn) rho) by exact (att_eta_spec p W (tz zn) (vz zn) (mz zn) PZ).
    destruct Np as (P1 & P2 & P3). cbv zeta in P1, P2, P3.
    assert (Rr : (fun i => nth i moles 0 / v) = rho) by (unfold rho; rewrite mz0, aff_base; reflexivity).
    rewrite Rr in P1, P2, P3. replace t with (tz zn) in P1, P2, P3 by apply aff_base. fold X in P1, P2, P3.
    assert (O1 : dd2_ p n tz r zn = dd2 X (tz zn) rho).
    { unfold dd2_. rewrite Ee, (d_dipole_phi2_eq p W Hph). apply (dipole_phi2_spec p W Hph (tz zn) (r zn) rho Er). }
    assert (O2 : dd3_ p n tz r zn = dd3 X (tz zn) rho).
    { unfold dd3_. rewrite Ee, (d_dipole_phi3_eq p W Hph). apply (dipole_phi3_spec p W Hph (tz zn) (r zn) rho Er). }
    assert (O3 : qq2_ p n tz r zn = qq2_code X (tz zn) rho).
    { unfold qq2_. rewrite Ee, (d_quad_phi2_eq p W Hph _ _ _ Hq1). apply (quad_phi2_spec p W Hph (tz zn) (r zn) rho Er). }
    assert (O4 : qq3_ p n tz r zn = qq3 X (tz zn) rho).
    { unfold qq3_. rewrite Ee, (d_quad_phi3_eq p W Hph). apply (quad_phi3_spec p W Hph (tz zn) (r zn) rho Er). }
    assert (O5 : dq2_ p n tz r zn = dq2_var p DQ35 (tz zn) rho).
    { unfold dq2_. rewrite Ee, (d_dq_phi2_eq p W Hph). apply (dq_phi2_spec p W Hph (tz zn) (r zn) rho Er DQ35). }
    assert (O6 : dq3_ p n tz r zn = dq3 X (tz zn) rho).
    { unfold dq3_. rewrite Ee, (d_dq_phi3_eq p W Hph). apply (dq_phi3_spec p W (tz zn) (r zn) rho Er). }
    unfold phi_att. apply (tr_add _ _ (TRn n)).
    - apply (T_att_disp p W Hph n tz td r r2 Tt U_r Ht0).
      + intros i Hi. left. apply rpos; exact Hi.
      + apply Rgt_not_eq. unfold Rgt. eapply Rlt_le_trans; [exact Ez | right].
        rewrite <- (density_Rho p (tz zn) (vz zn) (mz zn) PZ). unfold Rho, total_density. apply Sum_ext. intros i Hi. symmetry. apply Er. exact Hi.
      + rewrite Ee. apply (ps_eta _ _ _ _ PZ).
    - apply (rel_eq (TRn n) (polar_branch p n tz r)).
      + intros z. unfold polar_branch, phi_polar. cbv zeta. f_equal.
        destruct (Nat.ltb_spec 0 (p_ndipole p)) as [D | D]; destruct (Nat.ltb_spec 0 (p_nquadpole p)) as [Q | Q]; cbn [andb].
        * rewrite !pade_branch_sep; [reflexivity | rewrite O5, O6; apply P3; lia | rewrite O3, O4; apply P2; lia | rewrite O1, O2; apply P1; lia].
        * rewrite !pade_branch_sep; [reflexivity | rewrite O1, O2; apply P1; lia].
        * rewrite !pade_branch_sep; [reflexivity | rewrite O3, O4; apply P2; lia].
        * reflexivity.
      + apply (T_polar p W Hph n tz td r r2 Tt U_r Ht0).
        * rewrite Lr2. apply Nat.div_le_upper_bound; unfold c; lia.
        * intros H C. exfalso. apply (P1 H). rewrite <- O1, <- O2. exact C.
        * intros H C. exfalso. apply (P2 H). rewrite <- O3, <- O4. exact C.
        * intros H H' C. exfalso. apply (P3 H H'). rewrite <- O5, <- O6. exact C.
  Qed.

  (* ------------------------------------------------------------------- association *)
  Let aw z := @bulk_wd RNum (assoc_weight_functions p (tz z)) dim (r z).
  Let aw2 := bulk_wd (assoc_weight_functions q td) dim r2.
  Let Ta : lrel (TRn n) aw aw2 := U_assoc p W Hph n tz td r r2 Tt U_r Ht0 Lr2 dim.
  Lemma a_dim : da_dim q aw2 = dim.
  Proof.
    etransitivity; [symmetry; exact (dim_x p n aw aw2 Ta zn) | ]. pose proof good0 as (PZ & _).
    exact (wd_dim p W Hph (tz zn) (vz zn) (mz zn) PZ dim).
  Qed.
  Lemma a_n3i : da_n3i q aw2 = nrecip (nadd (nopp (packing q td r2)) (nlit 1%Q)).
  Proof.
    unfold da_n3i. do 3 f_equal. apply (same (fun z => da_n3 p (aw z)) (fun z => packing p (tz z) (r z))).
    - exact (T_n3 p n aw aw2 Ta).
    - exact U_pack.
    - intros z (PZ & _). rewrite packz. exact (wd_n3 p W Hph (tz z) (vz z) (mz z) PZ dim).
  Qed.
  Lemma a_n2 : da_n2 q td aw2 = assoc_n2 q td r2.
  Proof.
    apply (same (fun z => da_n2 p (tz z) (aw z)) (fun z => assoc_n2 p (tz z) (r z))).
    - exact (T_n2 p n tz td aw aw2 Tt Ta Ht0).
    - exact (F_Transfer2.tr_n2 (TRn n) p tz vz td vd mz _ Tt Tv TM PSz).
    - intros z (PZ & _). exact (wd_n2 p W Hph (tz z) (vz z) (mz z) PZ dim).
  Qed.
  Lemma a_n0i i : (i < c)%nat -> da_n0i q aw2 i = ix r2 i.
  Proof.
    intros Hi. apply (same (fun z => @ix RNum (aw z) i) (fun z => @ix RNum (r z) i)).
    - exact (w_ix n _ _ Ta i).
    - exact (tr_ix (TRn n) _ _ i U_r).
    - intros z (PZ & _). etransitivity; [exact (wd_n0i p W Hph (tz z) (vz z) (mz z) PZ dim i Hi) | ].
      symmetry. exact (rl_ix p (tz z) (vz z) (mz z) PZ i Hi).
  Qed.
  Lemma n2i_at i : (i < c)%nat -> 0 < da_n2i p (tz zn) (aw zn) i.
  Proof.
    intros Hi. unfold da_n2i. pose proof good0 as (PZ & _ & _ & Pz).
    assert (E : da_n0i p (aw zn) i = nth i (mz zn) 0 / vz zn) by exact (wd_n0i p W Hph (tz zn) (vz zn) (mz zn) PZ dim i Hi).
    pose proof (area_p p W Hph n tz Ht0 i Hi) as Ar. rewrite E. rn.
    apply Rmult_lt_0_compat; [apply Rdiv_lt_0_compat; [apply Pz; auto | exact Hv0] | exact Ar].
  Qed.
  Lemma a_rho0 : da_rho0 q td aw2 = r2.
  Proof.
    assert (Lq : length (p_m q) = c) by apply map_length.
    apply (nth_ext _ _ n0 n0); [unfold da_rho0; rewrite mk1_length, Lq, Lr2; reflexivity | ].
    unfold da_rho0. rewrite mk1_length, Lq. intros i Hi.
    match goal with |- nth i ?l n0 = nth i ?m n0 => change (ix l i = ix m i) end.
    rewrite (ix_mk1 (K := lK (dual n))) by exact Hi. cbv zeta.
    destruct (nltb _ _); [apply a_n0i; exact Hi | ]. rewrite a_dim.
    apply (same (fun z => @nmul RNum (@nadd RNum (@ndiv RNum (@nsumi RNum dim (fun j => @nmul RNum (da_n2vi p (aw z) j i) (da_n2vi p (aw z) j i)))
         (@nopp RNum (@nmul RNum (da_n2i p (tz z) (aw z) i) (da_n2i p (tz z) (aw z) i)))) (@nlit RNum 1%Q)) (@ix RNum (r z) i)) (fun z => @ix RNum (r z) i)).
    - apply (tr_mul _ _ (TRn n)); [ | rewrite (a_n0i i Hi); exact (tr_ix (TRn n) _ _ i U_r)].
      apply (tr_add _ _ (TRn n)); [ | apply (tr_lit _ _ (TRn n))]. apply (tr_div _ _ (TRn n)).
      + apply (tr_nsumi (TRn n) dim (fun j z => @nmul RNum (da_n2vi p (aw z) j i) (da_n2vi p (aw z) j i))). intros j Hj. apply (tr_mul _ _ (TRn n)); exact (T_n2vi p n aw aw2 Ta j i).
      + apply (tr_opp _ _ (TRn n)). apply (tr_mul _ _ (TRn n)); exact (T_n2i p n tz td aw aw2 Tt Ta Ht0 i).
      + pose proof (n2i_at i Hi) as P. rn. assert (0 < da_n2i p (tz zn) (aw zn) i * da_n2i p (tz zn) (aw zn) i) by (apply Rmult_lt_0_compat; auto). lra.
    - exact (tr_ix (TRn n) _ _ i U_r).
    - intros z (PZ & _). rewrite (nsumi_ext _ _ (fun _ => 0)).
      2:{ intros k Hk. assert (E : da_n2vi p (aw z) k i = 0) by exact (wd_n2vi p W Hph (tz z) (vz z) (mz z) PZ dim k i Hk Hi). rewrite E. rn. ring. }
      rewrite nsumi_R, rsum_zero by auto. rn. unfold Rdiv. ring.
  Qed.
  Lemma c_pos : (0 < c)%nat.
  Proof. destruct (ps_nonempty _ _ _ _ PS) as (i & Hi & _). unfold c. lia. Qed.
  Lemma a_xi : da_xi q td aw2 = n1.
  Proof.
    assert (Lq : length (p_m q) = c) by apply map_length.
    unfold da_xi. cbv zeta. destruct (nltb _ _); [reflexivity | ]. rewrite a_dim, Lq.
    apply (same (fun z => @nadd RNum (@ndiv RNum (@nsumi RNum dim (fun j => @nmul RNum (@nsumi RNum c (fun i => da_n2vi p (aw z) j i)) (@nsumi RNum c (fun i => da_n2vi p (aw z) j i))))
         (@nopp RNum (@nmul RNum (da_n2 p (tz z) (aw z)) (da_n2 p (tz z) (aw z))))) (@nlit RNum 1%Q)) (fun _ => @n1 RNum)).
    - apply (tr_add _ _ (TRn n)); [ | apply (tr_lit _ _ (TRn n))]. apply (tr_div _ _ (TRn n)).
      + apply (tr_nsumi (TRn n) dim (fun j z => @nmul RNum (@nsumi RNum c (fun i => da_n2vi p (aw z) j i)) (@nsumi RNum c (fun i => da_n2vi p (aw z) j i)))). intros j Hj.
        apply (tr_mul _ _ (TRn n)); apply (tr_nsumi (TRn n) c (fun i z => da_n2vi p (aw z) j i)); intros i Hi; exact (T_n2vi p n aw aw2 Ta j i).
      + apply (tr_opp _ _ (TRn n)). apply (tr_mul _ _ (TRn n)); exact (T_n2 p n tz td aw aw2 Tt Ta Ht0).
      + assert (P : 0 < da_n2 p (tz zn) (aw zn)).
        { unfold da_n2. rewrite nsumi_R. apply (rsum_pos _ _ 0%nat).
          - intros j Hj. apply seq_in in Hj. left. apply n2i_at; auto.
          - apply seq_in. exact c_pos.
          - apply n2i_at. exact c_pos. }
        rn. assert (0 < da_n2 p (tz zn) (aw zn) * da_n2 p (tz zn) (aw zn)) by (apply Rmult_lt_0_compat; auto). lra.
    - apply (tr_n1 (TRn n)).
    - intros z (PZ & _). rewrite (nsumi_ext dim _ (fun _ => 0)).
      2:{ intros k Hk. rewrite (nsumi_ext c _ (fun _ => 0)).
          - rewrite nsumi_R, rsum_zero by auto. rn. ring.
          - intros i Hi. exact (wd_n2vi p W Hph (tz z) (vz z) (mz z) PZ dim k i Hk Hi). }
      rewrite nsumi_R, rsum_zero by auto. unfold n1. rn. unfold Rdiv. ring.
  Qed.

  (** several associating components: the same site balances, the same starting values *)
  Theorem U_cross lu k tol : p_nassoc p <> 1%nat ->
    phi_assoc lu k tol q td [aw2] =
    match fst (cross_association lu q td r2 (seg_radius q td) (assoc_n2 q td r2)
            (nrecip (nadd (nopp (packing q td r2)) (nlit 1%Q))) n1 k tol None) with
    | Ok a => Ok [a]
    | Err e => Err e
    end.
  Proof.
    intros H1. unfold phi_assoc. change (p_nassoc q) with (p_nassoc p). destruct (Nat.eqb_spec (p_nassoc p) 1) as [E | _]; [contradiction | ].
    cbn [phi_assoc_cross]. rewrite a_rho0, a_n2, a_n3i, a_xi.
    unfold cross_association. cbv zeta. change (p_nassoc q) with (p_nassoc p).
    match goal with |- context [if ?b then _ else _] => destruct b; [reflexivity | ] end.
    match goal with |- context [newton_loop ?f k ?x] => destruct (newton_loop f k x) as [x1 | ]; [ | reflexivity] end.
    match goal with |- context [newton_deriv ?f ?k ?x] => destruct (newton_deriv f k x); reflexivity end.
  Qed.

  (** one associating component *)
  Notation rho := (fun i => nth i moles 0 / v).
  Definition one_regular (a : nat) : Prop := assoc_phys p /\ 0 < Na X a /\ (0 < Nb X a -> Na X a + Nb X a <= 2 ^ 26) /\
    Spec.Delta X t rho a a * rho a <> / 2 ^ 26.
  Section One.
    Variable a : nat.
    Hypothesis Ha : p_assoc_comp p = [a].
    Hypothesis Hr : one_regular a.
    Let Laa : (a < c)%nat := assoc_lt p W a Ha.
    Notation n3i z := (@nrecip RNum (@nadd RNum (@nopp RNum (packing p (tz z) (r z))) (@nlit RNum 1%Q))).
    Notation n3i2 := (nrecip (nadd (nopp (packing q td r2)) (nlit 1%Q))).
    Notation dr := (F_Transfer2.drho p tz vz mz a).
    Let kz z := @nmul RNum (@nmul RNum (assoc_n2 p (tz z) (r z)) (n3i z)) (@ix RNum (seg_radius p (tz z)) a).
    Let k2 := nmul (nmul (assoc_n2 q td r2) n3i2) (ix (seg_radius q td) a).
    Let D2 := nmul (nmul (nmul (nadd (nmul (nmul (nadd (ndiv k2 (nlit 18%Q)) (nlit 0.5%Q)) k2) n1) (nlit 1%Q)) n3i2)
      (nmul (nexpm1 (nmul (nrecip td) (ix2 (p_epsilon_k_aibj q) a a))) (nmul (npowi (ix (p_sigma q) a) 3) (ix2 (p_kappa_aibj q) a a)))) (ix r2 a).
    Lemma one_drho : rl dr D2.
    Proof.
      assert (T3 : rl (fun z => n3i z) n3i2) by exact (F_Transfer2.tr_n3i (TRn n) p W Hph tz vz td vd mz _ Tt Tv TM PSz).
      assert (T2 : rl (fun z => assoc_n2 p (tz z) (r z)) (assoc_n2 q td r2)) by exact (F_Transfer2.tr_n2 (TRn n) p tz vz td vd mz _ Tt Tv TM PSz).
      assert (Ts : rl (fun z => @ix RNum (seg_radius p (tz z)) a) (ix (seg_radius q td) a)) by exact (tr_ix (TRn n) _ _ a (T_seg p n tz td Tt Ht0)).
      assert (Tr : rl (fun z => @ix RNum (r z) a) (ix r2 a)) by exact (tr_ix (TRn n) _ _ a U_r).
      assert (Tk : rl kz k2) by (apply (tr_mul _ _ (TRn n)); [apply (tr_mul _ _ (TRn n)) | ]; assumption).
      apply (via (fun z => @nmul RNum (@nmul RNum (@nmul RNum (@nadd RNum (@nmul RNum (@nmul RNum (@nadd RNum (@ndiv RNum (kz z) (@nlit RNum 18%Q)) (@nlit RNum 0.5%Q)) (kz z)) (@n1 RNum)) (@nlit RNum 1%Q)) (n3i z))
        (@nmul RNum (@nexpm1 RNum (@nmul RNum (@nrecip RNum (tz z)) (@ix2 RNum (p_epsilon_k_aibj p) a a))) (@nmul RNum (@npowi RNum (@ix RNum (p_sigma p) a) 3) (@ix2 RNum (p_kappa_aibj p) a a)))) (@ix RNum (r z) a))).
      - intros z (PZ & _). unfold F_Transfer2.drho, association_strength. cbv zeta. unfold kz.
        assert (Es : @ix RNum (seg_radius p (tz z)) a = Di X (tz z) a / 2) by exact (sr_ix p W (tz z) a Laa).
        rewrite Es. pose proof (hs_pos p Hph (tz z) (vz z) (mz z) PZ a Laa) as Hd. fold X in Hd.
        set (d := Di X (tz z) a) in *. set (sg := @ix RNum (p_sigma p) a). set (E := @nexpm1 RNum _). set (kap := @ix2 RNum (p_kappa_aibj p) a a).
        set (n2 := assoc_n2 p (tz z) (r z)). set (ra := @ix RNum (r z) a). set (ni := @nrecip RNum _). 
        change (assoc_n2 p (tz z) (s_rho (@state_new RNum (tz z) (vz z) (map (fun md => aff n (fst md) (snd md) z) seeds)))) with n2.
        change (@ix RNum (s_rho (@state_new RNum (tz z) (vz z) (map (fun md => aff n (fst md) (snd md) z) seeds))) a) with ra.
        clearbody E kap n2 ra ni sg d. rn. change (car RNum) with R in *. field. lra.
      - unfold D2. apply (tr_mul _ _ (TRn n)); [ | exact Tr]. apply (tr_mul _ _ (TRn n)).
        + apply (tr_mul _ _ (TRn n)); [ | exact T3]. apply (tr_add _ _ (TRn n)); [ | apply (tr_lit _ _ (TRn n))].
          apply (tr_mul _ _ (TRn n)); [ | apply (tr_n1 (TRn n))]. apply (tr_mul _ _ (TRn n)); [ | exact Tk].
          apply (tr_add _ _ (TRn n)); [ | apply (tr_lit _ _ (TRn n))]. apply (tr_div _ _ (TRn n)); [exact Tk | apply (tr_lit _ _ (TRn n)) | rn; lra].
        + apply (tr_mul _ _ (TRn n)).
          * apply (tr_expm1 _ _ (TRn n)). apply (tr_mul _ _ (TRn n)); [apply (tr_recip _ _ (TRn n)); [exact Tt | lra] | exact (tr_ix2 (TRn n) (p_epsilon_k_aibj p) a a)].
          * apply (tr_mul _ _ (TRn n)); [apply (tr_powi _ _ (TRn n)); exact (tr_ix1 (TRn n) (p_sigma p) a) | exact (tr_ix2 (TRn n) (p_kappa_aibj p) a a)].
    Qed.
    Theorem U_one : rl (fun z => phi_assoc_one p (tz z) (aw z)) (phi_assoc_one q td aw2).
    Proof.
      destruct Hr as (Hap & Hna & Hnb & Hs).
      assert (Hd : 0 <= dr zn) by exact (F_Transfer2.drho_nonneg p W Hph tz vz mz PSz a Ha Hap).
      assert (Hsw : @sqrt_eps RNum <> dr zn).
      { intros C. apply Hs. pose proof (F_Transfer2.drho_val p W Hph tz vz mz PSz a Ha) as V. rewrite <- C in V.
        rewrite sqrt_eps_R in V. replace 67108864 with (2 ^ 26) in V by lra. rewrite V, mz0, !aff_base. reflexivity. }
      assert (Hbr : brok (TRn n) (fun _ => @sqrt_eps RNum) dr).
      { apply (sep_br n _ _ sqrt_eps _ (tr_lit _ _ (TRn n) _) one_drho Hsw). }
      assert (Ea : rl (fun _ => Na X a) (ix (p_na q) a)) by exact (tr_ix1 (TRn n) (p_na p) a).
      assert (Eb : rl (fun _ => Nb X a) (ix (p_nb q) a)) by exact (tr_ix1 (TRn n) (p_nb p) a).
      assert (Trr : rl (fun z => @ix RNum (r z) a) (ix r2 a)) by exact (tr_ix (TRn n) _ _ a U_r).
      assert (Hnb' : 0 < Nb X a -> Na X a + Nb X a <= 67108864) by (intros B; specialize (Hnb B); lra).
      apply (via (fun z => if @nltb RNum (@n0 RNum) (Nb X a) then
          @nmul RNum (@nadd RNum (@nmul RNum (@f_assoc RNum (@assoc_site_frac_ab RNum (dr z) (Na X a) (Nb X a))) (Na X a))
             (@nmul RNum (@f_assoc RNum (@nadd RNum (@nmul RNum (@nsub RNum (@assoc_site_frac_ab RNum (dr z) (Na X a) (Nb X a)) (@nlit RNum 1%Q)) (@ndiv RNum (Na X a) (Nb X a))) (@nlit RNum 1%Q))) (Nb X a))) (@ix RNum (r z) a)
        else @nmul RNum (@nmul RNum (@f_assoc RNum (@assoc_site_frac_a RNum (dr z) (Na X a))) (Na X a)) (@ix RNum (r z) a))).
      - intros z (PZ & _).
        assert (E1 : p_nassoc p = 1%nat) by (rewrite (w_na _ W), Ha; reflexivity).
        pose proof (phi_assoc_one_bulk p W Hph (tz z) (vz z) (mz z) PZ dim E1) as B.
        change (phi_assoc_one p (tz z) (aw z) = a_assoc p (st z) / vz z) in B. rewrite B.
        unfold a_assoc. rewrite Ha. change (ixn [a] 0) with a. cbv zeta.
        change (@nmul RNum (association_strength p (s_t (st z)) (seg_radius p (s_t (st z))) (assoc_n2 p (s_t (st z)) (s_rho (st z)))
           (@nrecip RNum (@nadd RNum (@nopp RNum (packing p (s_t (st z)) (s_rho (st z)))) (@nlit RNum 1%Q))) (@n1 RNum) a a) (@ix RNum (s_rho (st z)) a)) with (dr z).
        change (@ix RNum (p_na p) a) with (Na X a). change (@ix RNum (p_nb p) a) with (Nb X a).
        change (@ix RNum (s_moles (st z)) a) with (nth a (mz z) 0).
        assert (Ez : @ix RNum (r z) a = nth a (mz z) 0 / vz z) by exact (rl_ix p (tz z) (vz z) (mz z) PZ a Laa).
        rewrite Ez. pose proof (ps_v _ _ _ _ PZ) as Hv. 
        destruct (nltb _ _).
        + set (f1 := @f_assoc RNum _). set (f2 := @f_assoc RNum _). clearbody f1 f2. rn. change (car RNum) with R in *. field. cbv beta in Hv. lra.
        + set (f1 := @f_assoc RNum _). clearbody f1. rn. change (car RNum) with R in *. field. cbv beta in Hv. lra.
      - unfold phi_assoc_one. cbv zeta. change (p_assoc_comp q) with (p_assoc_comp p). rewrite Ha. change (ixn [a] 0) with a.
        rewrite a_rho0, a_n2, a_n3i, a_xi. fold k2. fold D2.
        assert (El := tr_ltb _ _ (TRn n) _ _ _ _ (tr_n0 (TRn n)) Eb). cbv beta in El. rewrite El.
        destruct (@nltb RNum (@n0 RNum) (Nb X a)) eqn:El0.
        + change (@nltb RNum) with Rltb in El0. apply Rltb_true in El0. assert (Hb0 : 0 < Nb X a) by (unfold n0 in El0; rn_in El0; lra).
          apply (tr_mul _ _ (TRn n)); [ | exact Trr]. apply (tr_add _ _ (TRn n)); apply (tr_mul _ _ (TRn n)); try assumption.
          * apply (T_xa (TRn n) _ _ (Na X a) (Nb X a) _ _ one_drho Ea Eb Hd Hna Hbr Hb0 (Hnb' Hb0)).
          * apply (T_xb (TRn n) _ _ (Na X a) (Nb X a) _ _ one_drho Ea Eb Hd Hna Hbr Hb0 (Hnb' Hb0)).
        + apply (tr_mul _ _ (TRn n)); [ | exact Trr]. apply (tr_mul _ _ (TRn n)); try assumption.
          apply (T_xa1 (TRn n) _ _ (Na X a) _ one_drho Ea Hd Hna Hbr).
    Qed.
  End One.

  (* ------------------------------------------------------------- all contributions *)
  Lemma emb_one m : @neqb (lK (dual n)) (emb (TRn n) m) n1 = @neqb RNum m n1.
  Proof.
    clear - m. induction n as [ | k IH]; [ | exact IH].
    cbn. unfold n1. rn. unfold Reqb. repeat destruct (Req_EM_T _ _); try reflexivity; exfalso; lra.
  Qed.
  Lemma emb_chain : existsb (fun m => negb (neqb m n1)) (p_m q) = existsb (fun m => negb (@neqb RNum m n1)) (p_m p).
  Proof. change (p_m q) with (map (emb (TRn n)) (p_m p)). clear. induction (p_m p) as [ | m l IH]; [reflexivity | ]. cbn [existsb map]. rewrite emb_one, IH. reflexivity. Qed.
  (** the contributions of the equation of state but the association *)
  Let le := [a_hs q s2; a_hc q s2; a_disp q s2]
       ++ (if Nat.ltb 0 (p_ndipole p) then [a_dipole q s2] else [])
       ++ (if Nat.ltb 0 (p_nquadpole p) then [a_quadrupole q s2] else [])
       ++ (if Nat.ltb 0 (p_ndipole p) && Nat.ltb 0 (p_nquadpole p) then [a_dq q DQ35 s2] else []).
  Let ez z : R := a_hs p (st z) + a_hc p (st z) + (a_disp p (st z) + a_dipole p (st z) + a_quadrupole p (st z) + a_dq p DQ35 (st z)).
  Lemma U_le : exists fl, lrel (TRn n) fl le /\ forall z, rsum (fl z) (fun x => x) = ez z.
  Proof.
    destruct Np as (P1 & P2 & P3).
    assert (Ll : lrel (TRn n) (fun z => [a_hs p (st z); a_hc p (st z); a_disp p (st z)]
       ++ (if Nat.ltb 0 (p_ndipole p) then [a_dipole p (st z)] else [])
       ++ (if Nat.ltb 0 (p_nquadpole p) then [a_quadrupole p (st z)] else [])
       ++ (if Nat.ltb 0 (p_ndipole p) && Nat.ltb 0 (p_nquadpole p) then [a_dq p DQ35 (st z)] else [])) le).
    { unfold le. repeat apply (lrel_app (TRn n)).
      - apply (lrel_cons (TRn n)). { apply represents_rel. exact (C08_hard_sphere prs bin p Hp Hph n t v dt dv seeds PS). }
        apply (lrel_cons (TRn n)). { apply represents_rel. exact (C08_hard_chain prs bin p Hp Hph n t v dt dv seeds PS). }
        apply (lrel_sing (TRn n)). apply represents_rel. exact (C08_dispersion prs bin p Hp Hph n t v dt dv seeds PS).
      - destruct (Nat.ltb_spec 0 (p_ndipole p)); [ | apply (lrel_nil (TRn n))]. apply (lrel_sing (TRn n)).
        apply (dipole_rel prs bin p Hp Hph n t v dt dv seeds PS). left. apply P1. lia.
      - destruct (Nat.ltb_spec 0 (p_nquadpole p)); [ | apply (lrel_nil (TRn n))]. apply (lrel_sing (TRn n)).
        apply (quadrupole_rel prs bin p Hp Hph n t v dt dv seeds PS). left. apply P2. lia.
      - destruct (Nat.ltb_spec 0 (p_ndipole p)), (Nat.ltb_spec 0 (p_nquadpole p)); cbn [andb]; try apply (lrel_nil (TRn n)). apply (lrel_sing (TRn n)).
        apply (dipole_quadrupole_rel prs bin p Hp Hph n t v dt dv seeds PS). left. apply P3; lia. }
    eexists. split; [exact Ll | ]. intros z. cbv beta. unfold ez.
    destruct (Nat.ltb_spec 0 (p_ndipole p)), (Nat.ltb_spec 0 (p_nquadpole p)); cbn [andb app rsum];
      rewrite ?(a_dipole_none p (st z)), ?(a_quadrupole_none p (st z)), ?(a_dq_none_d p DQ35 (st z)), ?(a_dq_none_q p DQ35 (st z)) by lia; ring.
  Qed.
  Let cl := if existsb (fun m => negb (@neqb RNum m n1)) (p_m p) then [phi_chain q td cw2] else [].
  Let att2 := phi_att q td (bulk_wd (att_weight_functions psi_dft q td) dim r2).
  Lemma U_cl : exists lz, lrel (TRn n) lz cl /\ forall z, good z -> rsum (lz z) (fun x => x) + @ext_ideal_chain RNum p (r z) = a_hc p (st z) / vz z.
  Proof.
    unfold cl. destruct (existsb (fun m => negb (@neqb RNum m n1)) (p_m p)) eqn:E.
    - exists (fun z => [phi_chain p (tz z) (cw z)]). split; [apply (lrel_sing (TRn n)); exact U_chain_rel | ].
      intros z (PZ & _). cbn [rsum]. rewrite Rplus_0_r. exact (C09_chain prs bin p Hp Hph (tz z) (vz z) (mz z) PZ dim).
    - exists (fun _ => []). split; [apply (lrel_nil (TRn n)) | ]. intros z (PZ & _). cbn [rsum].
      destruct (no_chain prs bin p Hp Hph (tz z) (vz z) (mz z) PZ E) as [E1 E2].
      assert (A1 : a_hc p (st z) = 0) by exact E1. assert (A2 : @ext_ideal_chain RNum p (r z) = 0) by exact E2. rewrite A1, A2. unfold Rdiv. ring.
  Qed.
  (** any further contributions that agree *)
  Lemma U_sum0 fa ga (bl el : list (dnum n)) bz fz : rl ga fa -> lrel (TRn n) bz bl -> lrel (TRn n) fz el ->
    (forall z, good z -> ga z + rsum (bz z) (fun x => x) = (a_hs p (st z) + rsum (fz z) (fun x => x)) / vz z) ->
    nadd (nsum ([fa] ++ cl ++ [att2] ++ bl)) (ext_ideal_chain q r2) = ndiv (nsum (le ++ el)) vd.
  Proof.
    intros Ta0 Tb Te Eb. destruct U_cl as (lz & Tl & El). destruct U_le as (fl & Tf & Ef).
    apply (same (fun z => @nadd RNum (@nsum RNum ([ga z] ++ lz z ++ [phi_att p (tz z) (bulk_wd (att_weight_functions psi_dft p (tz z)) dim (r z))] ++ bz z)) (@ext_ideal_chain RNum p (r z)))
      (fun z => @ndiv RNum (@nsum RNum (fl z ++ fz z)) (vz z))).
    - apply (tr_add _ _ (TRn n)); [ | exact U_ideal_rel]. apply (tr_nsum (TRn n) (fun z => [ga z] ++ lz z ++ [phi_att p (tz z) (bulk_wd (att_weight_functions psi_dft p (tz z)) dim (r z))] ++ bz z)).
      apply (lrel_app (TRn n)); [apply (lrel_sing (TRn n)); exact Ta0 | ].
      apply (lrel_app (TRn n)); [exact Tl | ]. apply (lrel_app (TRn n)); [ | exact Tb]. apply (lrel_sing (TRn n)). exact U_att_rel.
    - apply (tr_div _ _ (TRn n)); [ | exact Tv | lra]. apply (tr_nsum (TRn n) (fun z => fl z ++ fz z)). apply (lrel_app (TRn n)); assumption.
    - intros z Gz. specialize (Eb z Gz). specialize (El z Gz). specialize (Ef z). destruct Gz as (PZ & Dz & Nz & _).
      assert (E2 : phi_att p (tz z) (bulk_wd (att_weight_functions psi_dft p (tz z)) dim (r z)) = (a_disp p (st z) + a_dipole p (st z) + a_quadrupole p (st z) + a_dq p DQ35 (st z)) / vz z).
      { apply (C09_attraction prs bin p Hp Hph (tz z) (vz z) (mz z) PZ dim (@psi_dft RNum) Hq1 Dz). unfold psi_dft; rn; lra. }
      rewrite !nsum_R, !rsum_app, E2, Ef. cbn [rsum]. unfold ez.
      change (car RNum) with R in *.
      set (x1 := rsum (lz z) _) in *. set (x2 := rsum (fz z) _) in *. set (x3 := @ext_ideal_chain RNum p (r z)) in *. set (x4 := rsum (bz z) _) in *. set (x5 := ga z) in *.
      replace x1 with (a_hc p (st z) / vz z - x3) by (rewrite <- El; ring). replace x5 with ((a_hs p (st z) + x2) / vz z - x4) by (rewrite <- Eb; ring).
      generalize (a_hs p (st z)) (a_hc p (st z)) (a_disp p (st z)) (a_dipole p (st z)) (a_quadrupole p (st z)) (a_dq p DQ35 (st z)).
      clearbody x2 x3 x4. change (car RNum) with R in *. intros b1 b2 b3 b4 b5 b6. pose proof (ps_v _ _ _ _ PZ) as Pv. cbv beta in Pv. rn. field. lra.
  Qed.
  Lemma fmt_rel : rl (fun z => @ext_fmt_bulk RNum p (tz z) (r z)) (ext_fmt_bulk q td r2).
  Proof.
    apply (U_fmt p n tz td r r2 Tt U_r Ht0).
    - rewrite bulk_n3_pack, packz. apply (ps_eta _ _ _ _ PSz).
    - rewrite bulk_n3_pack, packz, n3_cutoff_R, !aff_base, mz0. lra.
  Qed.
  Lemma fmt_at z : good z -> @ext_fmt_bulk RNum p (tz z) (r z) = a_hs p (st z) / vz z.
  Proof. intros (PZ & _ & Nz & _). exact (C09_hard_sphere prs bin p Hp Hph (tz z) (vz z) (mz z) PZ Nz). Qed.
  Lemma U_sum (bl el : list (dnum n)) bz fz : lrel (TRn n) bz bl -> lrel (TRn n) fz el ->
    (forall z, good z -> rsum (bz z) (fun x => x) = rsum (fz z) (fun x => x) / vz z) ->
    nadd (nsum ([ext_fmt_bulk q td r2] ++ cl ++ [att2] ++ bl)) (ext_ideal_chain q r2) = ndiv (nsum (le ++ el)) vd.
  Proof.
    intros Tb Te Eb. apply (U_sum0 _ _ bl el bz fz fmt_rel Tb Te). intros z Gz. rewrite (fmt_at z Gz), (Eb z Gz). unfold Rdiv. ring.
  Qed.

  Definition finite_dual (a : dnum n) : Prop := forall s, length s = n -> exists x, coef n s a = Fin x.
  Lemma finite_last (b : dnum n) : finite_dual (nsum (le ++ [b])) -> finite_dual b.
  Proof. intros F s Hs. destruct (F s Hs) as (w & E). rewrite coef_nsum_app in E. exact (proj2 (xadd_fin _ _ _ E)). Qed.

  Theorem U_total lu fv o : o_dq o = DQ35 -> fv = KierlikRosinberg \/ c <> 1%nat ->
    (forall a, p_assoc_comp p = [a] -> one_regular a) ->
    match residual lu (with_options q (F_Transfer2.lift_options (emb (TRn n)) o)) s2 with
    | Some a => finite_dual a -> f_bulk lu (f_with_options q fv (F_Transfer2.lift_options (emb (TRn n)) o)) td dim r2 = Some (ndiv a vd)
    | None => f_bulk lu (f_with_options q fv (F_Transfer2.lift_options (emb (TRn n)) o)) td dim r2 = None
    end.
  Proof.
    intros Ho Hf H1. set (o2 := F_Transfer2.lift_options (emb (TRn n)) o).
    (* the functional *)
    assert (EF : f_bulk lu (f_with_options q fv o2) td dim r2 =
      match (if Nat.ltb 0 (p_nassoc p) then match phi_assoc lu (o_max_iter o2) (o_tol o2) q td [aw2] with Ok [x] => Some [x] | _ => None end else Some []) with
      | Some bl => Some (nadd (nsum ([ext_fmt_bulk q td r2] ++ cl ++ [att2] ++ bl)) (ext_ideal_chain q r2)) | None => None end).
    { unfold f_bulk, f_with_options. cbn [f_params f_contributions].
      assert (Lq : length (p_m q) = c) by apply map_length.
      replace (is_white_bear fv && Nat.eqb (length (p_m q)) 1)%bool with false.
      2:{ symmetry. rewrite Lq. apply andb_false_iff. destruct Hf as [-> | Hf]; [left; reflexivity | right]. apply Nat.eqb_neq. exact Hf. }
      rewrite emb_chain. change (p_nassoc q) with (p_nassoc p). unfold cl, att2.
      destruct (existsb _ (p_m p)), (Nat.ltb 0 (p_nassoc p)); cbn [app map collect_opt bulk_contribution]; fold cw2 aw2;
        try (destruct (phi_assoc lu (o_max_iter o2) (o_tol o2) q td [aw2]) as [[ | x [ | ]] | ]); reflexivity. }
    (* the equation of state *)
    assert (EE : residual lu (with_options q o2) s2 =
      match (match p_nassoc p with O => Some [] | 1%nat => Some [a_assoc q s2] | _ => match a_cross_assoc lu (o_max_iter o2) (o_tol o2) q s2 with Some b => Some [b] | None => None end end) with
      | Some el => Some (nsum (le ++ el)) | None => None end).
    { unfold residual, with_options, le. cbn [e_contributions e_params]. 
      change (p_nassoc q) with (p_nassoc p). change (p_ndipole q) with (p_ndipole p). change (p_nquadpole q) with (p_nquadpole p).
      change (o_dq o2) with (o_dq o). rewrite Ho.
      destruct (Nat.ltb 0 (p_ndipole p)), (Nat.ltb 0 (p_nquadpole p)), (p_nassoc p) as [ | [ | na]]; cbn [andb app map eval_contribution collect_opt];
        try (destruct (a_cross_assoc lu (o_max_iter o2) (o_tol o2) q s2)); reflexivity. }
    rewrite EF, EE. clear EF EE.
    destruct (p_nassoc p) as [ | [ | na]] eqn:En; cbn [Nat.ltb Nat.leb].
    - intros _. f_equal. apply (U_sum [] [] (fun _ => []) (fun _ => [])); try apply (lrel_nil (TRn n)). intros z _. cbn [rsum]. unfold Rdiv. ring.
    - intros _. assert (exists a, p_assoc_comp p = [a]) as (a & Ea).
      { rewrite (w_na _ W) in En. destruct (p_assoc_comp p) as [ | a [ | b l]]; try discriminate. exists a; auto. }
      unfold phi_assoc. change (p_nassoc q) with (p_nassoc p). rewrite En. cbn [Nat.eqb map]. f_equal.
      apply (U_sum _ _ (fun z => [phi_assoc_one p (tz z) (aw z)]) (fun z => [a_assoc p (st z)])).
      + apply (lrel_sing (TRn n)). exact (U_one a Ea (H1 a Ea)).
      + apply (lrel_sing (TRn n)). destruct (H1 a Ea) as (A & B & C & D). exact (association_rel prs bin p Hp Hph n t v dt dv seeds PS a Ea A B C D).
      + intros z (PZ & _). cbn [rsum].
        assert (B : phi_assoc_one p (tz z) (aw z) = a_assoc p (st z) / vz z) by exact (phi_assoc_one_bulk p W Hph (tz z) (vz z) (mz z) PZ dim En).
        rewrite B. unfold Rdiv. ring.
    - assert (N1 : p_nassoc p <> 1%nat) by lia. rewrite (U_cross lu (o_max_iter o2) (o_tol o2) N1).
      unfold a_cross_assoc. cbv zeta. change (s_t s2) with td. change (s_v s2) with vd.
      match goal with |- context [fst ?X] => destruct (fst X) as [x | e] end; [ | reflexivity].
      intros F. f_equal. apply finite_last in F. assert (Vn : vz zn <> 0) by lra. pose proof (finite_factor n vz x vd Tv Vn F) as Fx.
      destruct (finite_rel n x Fx) as (g & Tg).
      apply (U_sum [x] _ (fun z => [g z]) (fun z => [@nmul RNum (g z) (vz z)])); try apply (lrel_sing (TRn n)); [exact Tg | exact (tr_mul _ _ (TRn n) _ _ _ _ Tg Tv) | ].
      intros z (PZ & _). pose proof (ps_v _ _ _ _ PZ) as Pv. cbv beta in Pv. cbn [rsum]. rn. field. lra.
  Qed.

  (* ------------------------------------------------- one component, White Bear versions *)
  Section Pure.
    Hypothesis L1 : c = 1%nat.
    Hypothesis K0 : nth 0 (nth 0 (p_k_ij p) []) 0 = 0.
    Hypothesis Hm : 1 <= @ix RNum (p_m p) 0.
    Hypothesis Hpol : p_ndipole p = 0%nat \/ p_nquadpole p = 0%nat.
    Let L0 : (0 < length (p_m p))%nat := c_pos.
    Let pw (z : pt n) : list R := @bulk_wd RNum (pure_fmt_weight_functions p (tz z)) dim (r z).
    Let pw2 := bulk_wd (pure_fmt_weight_functions q td) dim r2.
    Let Tp : lrel (TRn n) pw pw2 := U_pure_fmt p n tz td r r2 Tt U_r Ht0 Lr2 dim.
    Lemma pw_at z : good z -> exists Z, pw z = 6 * Zeta X (tz z) (rz z) 2 :: Zeta X (tz z) (rz z) 3 :: Z /\ forall x, In x Z -> x = 0.
    Proof. intros (PZ & _). exact (pure_fmt_wd p W L1 (tz z) (vz z) (mz z) PZ dim). Qed.
    Lemma pw_ix z : good z -> @ix RNum (pw z) 0 = 6 * Zeta X (tz z) (rz z) 2 /\ @ix RNum (pw z) 1 = Zeta X (tz z) (rz z) 3 /\
      @ndot RNum (skipn 2 (pw z)) (skipn 2 (pw z)) = 0.
    Proof. intros Gz. destruct (pw_at z Gz) as (Z & E & HZ). rewrite E. split; [reflexivity | split; [reflexivity | ]]. exact (ndot_zero Z Z HZ). Qed.
    Lemma z2p : 0 < Zeta X (tz zn) (rz zn) 2.
    Proof. exact (z2_pos p Hph (tz zn) (vz zn) (mz zn) (proj1 good0)). Qed.
    Lemma U_pfmt fv : fv <> KierlikRosinberg -> pure_phi_fmt fv q td pw2 = Some (ext_fmt_bulk q td r2).
    Proof.
      intros Hf. destruct (pw_ix zn good0) as (E0 & E1 & E2). pose proof z2p as Z2.
      destruct (T_pure_fmt p W Hph L1 n tz td pw pw2 Tt Tp Ht0) with (v := fv) as (f & b & F1 & F2 & F3).
      - rewrite E1. exact (z3_lt1 p (tz zn) (vz zn) (mz zn) (proj1 good0)).
      - rewrite E1, n3_cutoff_R. pose proof Hn as H. unfold Eta in H. rewrite !aff_base. rewrite mz0. lra.
      - cbv beta. rewrite E0, E2. destruct fv; [left; reflexivity | contradiction | right]. split; [reflexivity | ]. split; [lra | ].
        apply Rlt_not_eq. apply pow_lt. lra.
      - change (plift (emb (TRn n)) p) with q in F2. rewrite F2. f_equal.
        apply (same f (fun z => @ext_fmt_bulk RNum p (tz z) (r z))); [exact F3 | | ].
        + apply (U_fmt p n tz td r r2 Tt U_r Ht0).
          * rewrite bulk_n3_pack, packz. apply (ps_eta _ _ _ _ PSz).
          * rewrite bulk_n3_pack, packz, n3_cutoff_R, !aff_base, mz0. lra.
        + intros z (PZ & _). match goal with |- ?x = ?y => enough (EE : Some x = Some y) by congruence end. rewrite <- F1. exact (pure_phi_fmt_bulk p W Hph L1 (tz z) (vz z) (mz z) PZ fv dim Hf).
    Qed.
    Lemma p_xi : pa_xi q td pw2 = n1.
    Proof.
      unfold pa_xi. cbv zeta. destruct (nltb _ _); [reflexivity | ]. destruct (pw_ix zn good0) as (E0 & _ & _). pose proof z2p as Z2.
      apply (same (fun z => @nadd RNum (@ndiv RNum (@nopp RNum (@ndot RNum (skipn 2 (pw z)) (skipn 2 (pw z)))) (@nmul RNum (@ix RNum (pw z) 0) (@ix RNum (pw z) 0))) (@nlit RNum 1%Q)) (fun _ => @n1 RNum)).
      - pose proof (lrel_skipn (TRn n) 2 _ _ Tp) as T2. pose proof (w_ix n _ _ Tp 0) as T0.
        apply (tr_add _ _ (TRn n)); [ | apply (tr_lit _ _ (TRn n))]. apply (tr_div _ _ (TRn n)).
        + apply (tr_opp _ _ (TRn n)). exact (tr_ndot (TRn n) _ _ _ _ T2 T2).
        + apply (tr_mul _ _ (TRn n)); exact T0.
        + rewrite E0. rn. apply Rgt_not_eq. apply Rmult_lt_0_compat; lra.
      - apply (tr_n1 (TRn n)).
      - intros z Gz. destruct (pw_ix z Gz) as (_ & _ & E2). rewrite E2. unfold n1. rn. unfold Rdiv. ring.
    Qed.
    Lemma p_xi_at z : good z -> pa_xi p (tz z) (pw z) = 1.
    Proof.
      intros Gz. destruct (pw_ix z Gz) as (_ & _ & E2). unfold pa_xi. cbv zeta. destruct (nltb _ _); [reflexivity | ]. change (@skipn (car RNum) 2 (pw z)) with (@skipn R 2 (pw z)). rewrite E2. rn. unfold Rdiv. ring.
    Qed.
    Lemma U_passoc : p_assoc_comp p = [0%nat] -> one_regular 0 -> rl (fun z => pure_phi_assoc p (tz z) (pw z)) (pure_phi_assoc q td pw2).
    Proof.
      intros Ha (Hap & Hna & Hnb & Hs). destruct (pw_ix zn good0) as (E0 & E1 & E2). pose proof z2p as Z2.
      pose proof (z3_lt1 p (tz zn) (vz zn) (mz zn) (proj1 good0)) as Z3.
      assert (Ed : pa_drho p (tz zn) (pw zn) = Spec.Delta X t rho 0 0 * rho 0%nat).
      { pose proof (F_Transfer2.drho_val p W Hph tz vz mz PSz 0%nat Ha) as V.
        transitivity (F_Transfer2.drho p tz vz mz 0 zn); [ | etransitivity; [exact V | cbv beta; rewrite mz0, !aff_base; reflexivity]]. clear V.
        pose proof good0 as (PZ & _).
        unfold pa_drho. cbv zeta. rewrite (p_xi_at zn good0), E0, E1.
        unfold pa_n0. cbv zeta. rewrite E0. unfold F_Transfer2.drho, association_strength. cbv zeta.
        assert (A2 : assoc_n2 p (tz zn) (r zn) = 6 * Zeta X (tz zn) (rz zn) 2) by (apply assoc_n2_spec; [exact W | apply Lmz]).
        match goal with |- context [assoc_n2 p ?a ?b] => replace (assoc_n2 p a b) with (6 * Zeta X (tz zn) (rz zn) 2) by (symmetry; exact A2) end.
        match goal with |- context [packing p ?a ?b] => replace (packing p a b) with (Eta X (tz zn) (rz zn)) by (symmetry; exact (packz zn)) end.
        assert (Es : @ix RNum (seg_radius p (tz zn)) 0 = Di X (tz zn) 0 / 2) by exact (sr_ix p W (tz zn) 0%nat L0).
        assert (Eh : @ix RNum (hs_diameter p (tz zn)) 0 = Di X (tz zn) 0) by exact (hs_diameter_spec p W (tz zn) 0%nat L0).
        assert (Er : @ix RNum (r zn) 0 = rz zn 0%nat) by exact (rl_ix p (tz zn) (vz zn) (mz zn) PZ 0%nat L0).
        match goal with |- context [@ix RNum (s_rho ?a) 0] => replace (@ix RNum (s_rho a) 0) with (rz zn 0%nat) by (symmetry; exact Er) end.
        rewrite Es, Eh. pose proof (zeta1 p L1 (tz zn) (vz zn) (mz zn) 2) as Ez. fold X in Ez.
        pose proof (hs_pos p Hph (tz zn) (vz zn) (mz zn) PZ 0%nat L0) as Pd. fold X in Pd.
        unfold Eta in *. set (z3 := Zeta X (tz zn) (rz zn) 3) in *. set (z2 := Zeta X (tz zn) (rz zn) 2) in *. set (d := Di X (tz zn) 0) in *.
        set (m := @ix RNum (p_m p) 0) in *. set (sg := @ix RNum (p_sigma p) 0). set (E := @nexpm1 RNum _). set (kap := @ix2 RNum (p_kappa_aibj p) 0 0).
        set (r0 := rz zn 0%nat) in *. assert (Ez' : z2 = PI / 6 * (r0 * m * d ^ 2)) by exact Ez. clearbody E kap sg. pose proof PI_RGT_0 as Pp.
        assert (Pm : 0 < m) by lra. clearbody z2 z3 d m r0. rn. change (car RNum) with R in *. unfold Rdiv. set (u := / (- z3 + 1)). clearbody u.
        assert (En : 6 * z2 * / (d * (5 * / 10) * (d * (5 * / 10)) * 4 * PI) * / m = r0) by (rewrite Ez'; field; lra).
        match goal with |- ?A * (?B * 1) = _ => replace (A * (B * 1)) with (A * r0) by (rewrite <- En; unfold Rdiv; ring) end.
        field; lra. }
      apply (T_pure_assoc_xi p W Hph L1 n tz td pw pw2 Tt Tp Ht0); auto.
      - rewrite E1. exact Z3.
      - rewrite E0. lra.
      - rewrite (p_xi_at zn good0). lra.
      - intros B. specialize (Hnb B). unfold X in Hnb. lra.
      - rewrite Ed, sqrt_eps_R. replace 67108864 with (2 ^ 26) by lra. exact Hs.
      - eapply (via (fun _ => @n1 RNum)); [intros z Gz; rewrite (p_xi_at z Gz); unfold n1; rn; lra | ].
        assert (Ex : rl (fun _ => @n1 RNum) (pa_xi q td pw2)) by (rewrite p_xi; apply (tr_n1 (TRn n))). exact Ex.
    Qed.
    Let pc z := @bulk_wd RNum (pure_chain_weight_functions p (tz z)) dim (r z).
    Let pc2 := bulk_wd (pure_chain_weight_functions q td) dim r2.
    Let Tpc : lrel (TRn n) pc pc2 := U_pure_chain p W Hph n tz td r r2 Tt U_r Ht0 Lr2 dim.
    Lemma pc_at z : good z -> pc z = [rz z 0%nat; rz z 0%nat; Zeta X (tz z) (rz z) 3].
    Proof. intros (PZ & _). exact (pure_chain_wd p W Hph L1 (tz z) (vz z) (mz z) PZ dim). Qed.
    Lemma U_pchain : phi_pure_chain q pc2 = phi_chain q td cw2.
    Proof.
      apply (same (fun z => phi_pure_chain p (pc z)) (fun z => phi_chain p (tz z) (cw z))); [ | exact U_chain_rel | ].
      2:{ intros z (PZ & _). exact (C10_chain prs bin p Hp Hph L1 (tz z) (vz z) (mz z) PZ dim dim). }
      pose proof good0 as (PZ & _ & _ & Pz).
      assert (E1 : @ix RNum (pc zn) 1 = rz zn 0%nat) by (rewrite (pc_at zn good0); reflexivity).
      assert (E2 : @ix RNum (pc zn) 2 = Zeta X (tz zn) (rz zn) 3) by (rewrite (pc_at zn good0); reflexivity).
      eapply (rel_near (dual n)); [ | apply (T_pure_chain_gen p n pc pc2 Tpc (lam_branch n (fun x => @ix RNum (pc x) 1)))].
      - eapply near_imp; [ | apply (lam_plain n (fun x => @ix RNum (pc x) 1) _ (w_ix n _ _ Tpc 1%nat))].
        + intros z Hz. cbv beta in Hz. rewrite (pure_chain_plain p n pc z). unfold pure_chain_gen. rewrite Hz. reflexivity.
        + rewrite E1. apply Rgt_not_eq. apply Rdiv_lt_0_compat; [apply Pz; exact L0 | exact Hv0].
      - apply T_lam. apply (w_ix n _ _ Tpc).
      - apply lam_pos.
      - rewrite E2. exact (z3_lt1 p (tz zn) (vz zn) (mz zn) PZ).
    Qed.
    Lemma U_patt : phi_pure_att q td (bulk_wd (att_weight_functions psi_dft q td) dim r2) = phi_att q td (bulk_wd (att_weight_functions psi_dft q td) dim r2).
    Proof.
      apply (same (fun z => phi_pure_att p (tz z) (bulk_wd (att_weight_functions psi_dft p (tz z)) dim (r z)))
        (fun z => phi_att p (tz z) (bulk_wd (att_weight_functions psi_dft p (tz z)) dim (r z)))); [ | exact U_att_rel | ].
      2:{ intros z (PZ & Dz & _). exact (C10_attraction prs bin p Hp Hph L1 (tz z) (vz z) (mz z) PZ K0 dim dim Dz Hpol). }
      rewrite att_wd2. pose proof good0 as (PZ & Ez & _ & Pz).
      apply (via (fun z => phi_pure_att p (tz z) (r z))).
      { intros z (PY & _). f_equal. symmetry. apply (att_wd p W Hph (tz z) (vz z) (mz z) PY). unfold psi_dft; rn; lra. }
      assert (Er : @ix RNum (r zn) 0 = rz zn 0%nat) by exact (rl_ix p (tz zn) (vz zn) (mz zn) PZ 0%nat L0).
      destruct (pure_orders prs bin p Hp Hph (tz zn) Ht0 L1 (rz zn 0%nat)) as (O1 & O2 & O3 & O4). cbv zeta in O1, O2, O3, O4.
      assert (One : forall F : (nat -> R) -> R, (forall f g, f 0%nat = g 0%nat -> F f = F g) -> F (fun _ => rz zn 0%nat) = F (rz zn)) by (intros F HF; apply HF; reflexivity).
      assert (Ee : forall f g : nat -> R, f 0%nat = g 0%nat -> forall k, Zeta X (tz zn) f k = Zeta X (tz zn) g k).
      { intros f g E k. unfold Zeta. change (N X) with c. rewrite L1. cbn [seq rsum]. rewrite E. reflexivity. }
      destruct Np as (P1 & P2 & _). cbv zeta in P1, P2.
      assert (Rr : (fun i => nth i moles 0 / v) = rz zn) by (rewrite mz0, aff_base; reflexivity).
      rewrite Rr in P1, P2. replace t with (tz zn) in P1, P2 by apply aff_base. fold X in P1, P2.
      assert (D2 : dd2 X (tz zn) (fun _ => rz zn 0%nat) = dd2 X (tz zn) (rz zn)).
      { apply (One (dd2 X (tz zn))). intros f g E. unfold dd2, J2, Eta. change (N X) with c. rewrite L1. cbn [seq rsum]. rewrite (Ee f g E), E. reflexivity. }
      assert (D3 : dd3 X (tz zn) (fun _ => rz zn 0%nat) = dd3 X (tz zn) (rz zn)).
      { apply (One (dd3 X (tz zn))). intros f g E. unfold dd3, J3, Eta. change (N X) with c. rewrite L1. cbn [seq rsum]. rewrite (Ee f g E), E. reflexivity. }
      assert (Q2 : qq2 X (tz zn) (fun _ => rz zn 0%nat) = qq2_code X (tz zn) (rz zn)).
      { transitivity (qq2 X (tz zn) (rz zn)).
        - apply (One (qq2 X (tz zn))). intros f g E. unfold qq2, J2, Eta. change (N X) with c. rewrite L1. cbn [seq rsum]. rewrite (Ee f g E), E. reflexivity.
        - symmetry. unfold qq2, qq2_code. change (N X) with c. rewrite L1. cbn [seq rsum Nat.min]. assert (Sd : Sij X 0 0 = Sg X 0) by (unfold Sij; field). rewrite Sd. reflexivity. }
      assert (Q3 : qq3 X (tz zn) (fun _ => rz zn 0%nat) = qq3 X (tz zn) (rz zn)).
      { apply (One (qq3 X (tz zn))). intros f g E. unfold qq3, J3, Eta. change (N X) with c. rewrite L1. cbn [seq rsum]. rewrite (Ee f g E), E. reflexivity. }
      pose proof (eq_trans O1 D2) as O1'. pose proof (eq_trans O2 D3) as O2'. pose proof (eq_trans O3 Q2) as O3'. pose proof (eq_trans O4 Q3) as O4'.
      assert (S1 : p_ndipole p <> 0%nat -> @pdd2 RNum p (tz zn) (@ix RNum (r zn) 0) <> @pdd3 RNum p (tz zn) (@ix RNum (r zn) 0)).
      { intros H C. rewrite Er in C. apply (P1 H). rewrite <- O1', <- O2'. exact C. }
      assert (S2 : p_nquadpole p <> 0%nat -> @pqq2 RNum p (tz zn) (@ix RNum (r zn) 0) <> @pqq3 RNum p (tz zn) (@ix RNum (r zn) 0)).
      { intros H C. rewrite Er in C. apply (P2 H). rewrite <- O3', <- O4'. exact C. }
      apply (rel_eq (TRn n) (pure_att_branch p n tz r)).
      - intros z. unfold pure_att_branch, phi_pure_att. cbv zeta.
        destruct (Nat.ltb_spec 0 (p_ndipole p)) as [D | D]; destruct (Nat.ltb_spec 0 (p_nquadpole p)) as [Q | Q].
        + rewrite !pade_branch_sep; [reflexivity | apply S2; lia | apply S1; lia].
        + rewrite !pade_branch_sep; [reflexivity | apply S1; lia].
        + rewrite !pade_branch_sep; [reflexivity | apply S2; lia].
        + reflexivity.
      - apply (T_pure_att p W Hph L1 n tz td r r2 Tt U_r Ht0).
        + cbv beta. left. apply rpos. exact L0.
        + cbv beta. rewrite Er. rewrite (pure_eta_gen prs bin p Hp (tz zn) L1).
          apply (Rle_lt_trans _ (Eta X (tz zn) (rz zn))); [right; unfold Eta; apply Ee; reflexivity | apply (ps_eta _ _ _ _ PZ)].
        + intros H C. exfalso. exact (S1 H C).
        + intros H C. exfalso. exact (S2 H C).
    Qed.
    Lemma emb_gt m : @nltb (lK (dual n)) n1 (emb (TRn n) m) = @nltb RNum n1 m.
    Proof. pose proof (tr_ltb _ _ (TRn n) _ _ _ _ (tr_n1 (TRn n)) (tr_emb _ _ (TRn n) m)) as E. exact E. Qed.
    Lemma pure_cl : (if existsb (fun m => nltb n1 m) (p_m q) then [phi_pure_chain q pc2] else []) = cl.
    Proof.
      unfold cl. rewrite U_pchain. change (p_m q) with (map (emb (TRn n)) (p_m p)).
      assert (Em : exists m, p_m p = [m]).
      { pose proof L1 as L. unfold c in L. revert L. generalize (p_m p). intros [ | m [ | m' l]] L; try discriminate. exists m. reflexivity. }
      destruct Em as (m & Em). assert (Hm' : 1 <= @ix RNum [m] 0) by (rewrite <- Em; exact Hm). generalize (phi_chain q td cw2). intros x. rewrite Em.
      cbn [map existsb]. rewrite emb_gt, !orb_false_r. change (@ix RNum [m] 0) with m in Hm'.
      change (@nltb RNum n1 m) with (Rltb 1 m). change (@neqb RNum m n1) with (Reqb m 1).
      destruct (Rltb 1 m) eqn:E1; destruct (Reqb m 1) eqn:E2; cbn [negb]; try reflexivity; exfalso.
      - apply Rltb_true in E1. apply Reqb_true in E2. lra.
      - apply Rltb_false in E1. apply Reqb_false in E2. lra.
    Qed.
    Theorem U_pure_total lu fv o : fv <> KierlikRosinberg -> o_dq o = DQ35 -> (forall a, p_assoc_comp p = [a] -> one_regular a) ->
      exists a, residual lu (with_options q (F_Transfer2.lift_options (emb (TRn n)) o)) s2 = Some a /\
        f_bulk lu (f_with_options q fv (F_Transfer2.lift_options (emb (TRn n)) o)) td dim r2 = Some (ndiv a vd).
    Proof.
      intros Hf Ho H1. set (o2 := F_Transfer2.lift_options (emb (TRn n)) o).
      assert (Hna : p_nassoc p = 0%nat \/ p_nassoc p = 1%nat /\ p_assoc_comp p = [0%nat]) by exact (nassoc01 prs bin p Hp L1).
      assert (EE : residual lu (with_options q o2) s2 = Some (nsum (le ++ if Nat.eqb (p_nassoc p) 1 then [a_assoc q s2] else []))).
      { unfold residual, with_options, le. cbn [e_contributions e_params]. 
        change (p_nassoc q) with (p_nassoc p). change (p_ndipole q) with (p_ndipole p). change (p_nquadpole q) with (p_nquadpole p).
        change (o_dq o2) with (o_dq o). rewrite Ho.
        destruct Hna as [-> | [-> _]]; destruct (Nat.ltb 0 (p_ndipole p)), (Nat.ltb 0 (p_nquadpole p)); reflexivity. }
      eexists. split; [exact EE | ]. clear EE.
      assert (Eg : @nltb (lK (dual n)) n1 (ix pw2 1) = false).
      { pose proof (tr_ltb _ _ (TRn n) _ _ _ _ (tr_n1 (TRn n)) (w_ix n _ _ Tp 1%nat)) as E. rewrite E. cbv beta.
        destruct (pw_ix zn good0) as (_ & E1 & _). rewrite E1. change (@nltb RNum) with Rltb. apply Rltb_false.
        pose proof (z3_lt1 p (tz zn) (vz zn) (mz zn) (proj1 good0)) as Z3. fold X in Z3. change (@n1 RNum) with (Rlit 1%Q). cbn. lra. }
      assert (EF : f_bulk lu (f_with_options q fv o2) td dim r2 =
        Some (nadd (nsum ([if Nat.eqb (p_nassoc p) 1 then nadd (ext_fmt_bulk q td r2) (pure_phi_assoc q td pw2) else ext_fmt_bulk q td r2] ++ cl ++ [att2] ++ [])) (ext_ideal_chain q r2))).
      { unfold f_bulk, f_with_options. cbn [f_params f_contributions].
        assert (Lq : length (p_m q) = 1%nat) by (rewrite <- L1; apply map_length). rewrite Lq.
        replace (is_white_bear fv && Nat.eqb 1 1)%bool with true by (destruct fv; try reflexivity; contradiction).
        rewrite <- pure_cl. unfold att2. rewrite <- U_patt.
        assert (Eb : bulk_contribution lu q td dim r2 (FPureFmtAssoc fv) = Some (if Nat.eqb (p_nassoc p) 1 then nadd (ext_fmt_bulk q td r2) (pure_phi_assoc q td pw2) else ext_fmt_bulk q td r2)).
        { cbn [bulk_contribution]. fold pw2. unfold phi_pure_fmt_assoc. cbn [existsb map]. rewrite Eg. cbn [orb]. rewrite (U_pfmt fv Hf). reflexivity. }
        destruct (existsb (fun m => nltb n1 m) (p_m q)); cbn [app map]; rewrite Eb; reflexivity. }
      rewrite EF. f_equal.
      destruct Hna as [E | [E Ea]]; rewrite E; cbn [Nat.eqb].
      - apply (U_sum0 _ _ [] [] (fun _ => []) (fun _ => []) fmt_rel); try apply (lrel_nil (TRn n)). intros z Gz. rewrite (fmt_at z Gz). cbn [rsum]. unfold Rdiv. ring.
      - apply (U_sum0 _ (fun z => @nadd RNum (@ext_fmt_bulk RNum p (tz z) (r z)) (pure_phi_assoc p (tz z) (pw z))) [] [a_assoc q s2] (fun _ => []) (fun z => [a_assoc p (st z)])).
        + apply (tr_add _ _ (TRn n)); [exact fmt_rel | ]. apply U_passoc; auto.
        + apply (lrel_nil (TRn n)).
        + apply (lrel_sing (TRn n)). destruct (H1 _ Ea) as (A & B & C & D). exact (association_rel prs bin p Hp Hph n t v dt dv seeds PS 0%nat Ea A B C D).
        + intros z Gz. rewrite (fmt_at z Gz). destruct Gz as (PZ & _).
          assert (B : pure_phi_assoc p (tz z) (pw z) = a_assoc p (st z) / vz z).
          { etransitivity; [exact (pure_phi_assoc_bulk p W Hph L1 (tz z) (vz z) (mz z) PZ dim dim E) | exact (phi_assoc_one_bulk p W Hph (tz z) (vz z) (mz z) PZ dim E)]. }
          rewrite B. cbn [rsum]. rn. change (car RNum) with R in *. unfold Rdiv. ring.
    Qed.
  End Pure.
  End Dim.
End Mixture.
