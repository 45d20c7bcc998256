(** The residual Helmholtz energy evaluated with nested dual numbers at zero density. *)
From Coq Require Import ZArith QArith Reals Lra Lia List Bool.
From Coquelicot Require Import Coquelicot.
From Verif Require Import Num RNum RSum Tables M_Params F_Params M_Eos M_Virial Spec F_Spec F_SpecPolar F_SpecAssoc
  F_Contrib F_Cross F_Total F_Transfer XNum F_Transfer2 F_TransferS F_Transfer3 DNum F_Level P_Dual.
Import ListNotations.
Local Open Scope R_scope.
Set Bullet Behavior "Strict Subproofs".

(** The Pade approximant with both orders zero at the base point: the result is 0/0, so the
    second order term is returned. *)
Lemma pade_zero (L : level) f g h a b c : rel (lT L) f a -> rel (lT L) g b -> rel (lT L) h c ->
  f (lz L) = 0 -> g (lz L) = 0 -> rel (lT L) (fun z => f z * h z) (pade a b c).
Proof.
  intros Hf Hg Hh Ef Eg. unfold pade. rewrite (pade_nan L f g h a b c) by auto. exact (tr_mul _ _ (lT L) _ _ _ _ Hf Hh).
Qed.

Section Virial.
  Variable p : params RNum.
  Hypothesis W : wfp p.
  Hypothesis Hph : phys p.
  (** number of infinitesimals, temperature with its directions, directions of the density *)
  Variables (n : nat) (t : R) (dt dr : list R) (x : list R).
  Hypothesis Ht : 0 < t.
  Hypothesis Hlen : length x = length (p_m p).
  Hypothesis Hnn : forall i, (i < length (p_m p))%nat -> 0 <= nth i x 0.
  Hypothesis Hne : exists i, (i < length (p_m p))%nat /\ 0 < nth i x 0.
  Let TR : Transfer (lK (dual n)) (lz (dual n)) := TRn n.
  Notation zn := (lz (dual n)).
  Definition vpath (z : pt n) : state RNum := @state_virial RNum (aff n t dt z) (aff n 0 dr z) x.
  Definition vdual : state (lK (dual n)) := @state_virial (lK (dual n)) (seed n t dt) (seed n 0 dr) (map (emb TR) x).
  Definition vparams : params (lK (dual n)) := plift (emb TR) p.

  Let Tt : rel TR (fun z => s_t (vpath z)) (s_t vdual) := rel_aff n t dt.
  Let Tv : rel TR (fun z => s_v (vpath z)) (s_v vdual) := tr_n1 TR.
  Let Tr : lrel TR (fun z => s_rho (vpath z)) (s_rho vdual).
  Proof.
    exists (map (fun xi z => aff n 0 dr z * xi) x). split.
    - intros z. rewrite map_map. reflexivity.
    - unfold vdual, state_virial; cbn [s_rho]. rewrite map_map. clear. induction x as [ | a l IH]; cbn [map]; constructor; auto.
      apply (tr_mul _ _ TR (aff n 0 dr) (fun _ => a)); [apply rel_aff | apply (tr_emb _ _ TR)].
  Qed.
  Let Tm : lrel TR (fun z => s_moles (vpath z)) (s_moles vdual).
  Proof.
    exists (map (fun xi z => aff n 0 dr z * xi * @n1 RNum) x). split.
    - intros z. unfold vpath, state_virial; cbn [s_moles]. rewrite !map_map. reflexivity.
    - unfold vdual, state_virial; cbn [s_moles]. rewrite !map_map. clear. induction x as [ | a l IH]; cbn [map]; constructor; auto.
      apply (tr_mul _ _ TR (fun z => aff n 0 dr z * a) (fun _ => @n1 RNum)); [ | apply tr_n1].
      apply (tr_mul _ _ TR (aff n 0 dr) (fun _ => a)); [apply rel_aff | apply (tr_emb _ _ TR)].
  Qed.
  Let Tx : lrel TR (fun z => s_x (vpath z)) (s_x vdual).
  Proof.
    exists (map (fun xi _ => xi) x). split.
    - intros z. rewrite map_map, map_id. reflexivity.
    - unfold vdual, state_virial; cbn [s_x]. clear. induction x as [ | a l IH]; cbn [map]; constructor; auto.
      apply (tr_emb _ _ TR).
  Qed.
  Let Ht0 : 0 < s_t (vpath zn).
  Proof. unfold vpath, state_virial; cbn [s_t]. rewrite aff_base. exact Ht. Qed.
  Lemma rho_0 i : @ix RNum (s_rho (vpath zn)) i = 0.
  Proof.
    unfold vpath, state_virial; cbn [s_rho]. rewrite aff_base. clear. revert i.
    induction x as [ | a l IH]; intros [ | i]; cbn; try (unfold n0; rn; ring); apply IH.
  Qed.
  Lemma zeta_0 k d : zeta (p_m p) (s_rho (vpath zn)) d k = 0.
  Proof. unfold zeta. rewrite nsumi_R. apply rsum_zero. intros i _. rewrite rho_0. rn. unfold Rdiv. ring. Qed.
  Lemma packing_0 t' : packing p t' (s_rho (vpath zn)) = 0.
  Proof.
    unfold packing. rewrite nsumi_R. rewrite rsum_zero; [rn; ring | ]. intros i _. rewrite rho_0. rn. unfold Rdiv. ring.
  Qed.
  Let Hx0 i : (i < length (p_m p))%nat -> 0 <= @ix RNum (s_x (vpath zn)) i := Hnn i.
  Let Hx1 : exists i, (i < length (p_m p))%nat /\ 0 < @ix RNum (s_x (vpath zn)) i := Hne.
  Let Hz2 : 0 <= zeta (p_m p) (s_rho (vpath zn)) (hs_diameter p (s_t (vpath zn))) 2.
  Proof. rewrite zeta_0. lra. Qed.
  Let Hz3 : zeta (p_m p) (s_rho (vpath zn)) (hs_diameter p (s_t (vpath zn))) 3 < 1.
  Proof. rewrite zeta_0. lra. Qed.
  Let Hpe : 0 <= packing p (s_t (vpath zn)) (s_rho (vpath zn)) < 1.
  Proof. rewrite packing_0. lra. Qed.

  Lemma v_hs : rel TR (fun z => a_hs p (vpath z)) (a_hs vparams vdual).
  Proof. exact (tr_hs TR p W Hph vpath vdual Tt Tv Tr Tx Ht0 Hz3 Hx0 Hx1). Qed.
  Lemma v_hc : rel TR (fun z => a_hc p (vpath z)) (a_hc vparams vdual).
  Proof. exact (tr_hc TR p W Hph vpath vdual Tt Tv Tr Ht0 Hz2 Hz3). Qed.
  Lemma v_disp : rel TR (fun z => a_disp p (vpath z)) (a_disp vparams vdual).
  Proof. exact (tr_disp TR p Hph vpath vdual Tt Tv Tr Tx Ht0 Hx0 Hx1 Hpe). Qed.

  Let X := mix_of p.
  Let zero : nat -> R := fun _ => 0.
  Let Hr0 i : (i < length (p_m p))%nat -> @ix RNum (s_rho (vpath zn)) i = zero i := fun _ => rho_0 i.
  Lemma Eta_0 t' : packing p t' (s_rho (vpath zn)) = Eta X t' zero.
  Proof. rewrite packing_0. change (0 = Eta X t' zero). unfold Eta, Zeta. rewrite rsum_zero; [ring | ]. intros. unfold zero. ring. Qed.
  (** second order terms of the polar contributions at a state *)
  Definition dd2_term (s : state RNum) : R := dipole_phi2 p (s_t s) (s_rho s) (packing p (s_t s) (s_rho s)) * s_v s.
  Definition qq2_term (s : state RNum) : R := quad_phi2 p (s_t s) (s_rho s) (packing p (s_t s) (s_rho s)) * s_v s.
  Definition dq2_term var (s : state RNum) : R := dq_phi2 p var (s_t s) (s_rho s) (packing p (s_t s) (s_rho s)) * s_v s.
  Let Tp := tr_packing TR p vpath vdual Tt Tr Ht0.
  Lemma v_dipole : rel TR (fun z => dd2_term (vpath z)) (a_dipole vparams vdual).
  Proof.
    unfold a_dipole. cbn zeta. unfold dd2_term.
    apply (pade_zero (dual n) _ (fun z => dipole_phi3 p (s_t (vpath z)) (s_rho (vpath z)) (packing p (s_t (vpath z)) (s_rho (vpath z))))); auto.
    - apply (tr_dipole_phi2 TR p W Hph vpath vdual Tt Tr Ht0); exact Tp.
    - apply (tr_dipole_phi3 TR p W Hph vpath vdual Tt Tr Ht0); exact Tp.
    - rewrite Eta_0. rewrite (dipole_phi2_spec p W Hph _ _ zero Hr0). fold X. unfold dd2. rewrite rsum_zero; [ring | ].
      intros i _. apply rsum_zero. intros j _. unfold zero, Rdiv. ring.
    - rewrite Eta_0. rewrite (dipole_phi3_spec p W Hph _ _ zero Hr0). fold X. unfold dd3. rewrite rsum_zero; [ring | ].
      intros i _. apply rsum_zero. intros j _. apply rsum_zero. intros k _. unfold zero, Rdiv. ring.
  Qed.
  Lemma v_quadrupole : rel TR (fun z => qq2_term (vpath z)) (a_quadrupole vparams vdual).
  Proof.
    unfold a_quadrupole. cbn zeta. unfold qq2_term.
    apply (pade_zero (dual n) _ (fun z => quad_phi3 p (s_t (vpath z)) (s_rho (vpath z)) (packing p (s_t (vpath z)) (s_rho (vpath z))))); auto.
    - apply (tr_quad_phi2 TR p W Hph vpath vdual Tt Tr Ht0); exact Tp.
    - apply (tr_quad_phi3 TR p W Hph vpath vdual Tt Tr Ht0); exact Tp.
    - rewrite Eta_0. rewrite (quad_phi2_spec p W Hph _ _ zero Hr0). fold X. unfold qq2_code. rewrite rsum_zero; [ring | ].
      intros i _. apply rsum_zero. intros j _. unfold zero, Rdiv. ring.
    - rewrite Eta_0. rewrite (quad_phi3_spec p W Hph _ _ zero Hr0). fold X. unfold qq3. rewrite rsum_zero; [ring | ].
      intros i _. apply rsum_zero. intros j _. apply rsum_zero. intros k _. unfold zero, Rdiv. ring.
  Qed.
  Lemma v_dq var : rel TR (fun z => dq2_term var (vpath z)) (a_dq vparams var vdual).
  Proof.
    unfold a_dq. cbn zeta. unfold dq2_term.
    apply (pade_zero (dual n) _ (fun z => dq_phi3 p (s_t (vpath z)) (s_rho (vpath z)) (packing p (s_t (vpath z)) (s_rho (vpath z))))); auto.
    - apply (tr_dq_phi2 TR p W Hph vpath vdual Tt Tr Ht0); exact Tp.
    - apply (tr_dq_phi3 TR p W Hph vpath vdual Tt Tr Ht0); exact Tp.
    - rewrite Eta_0. rewrite (dq_phi2_spec p W Hph _ _ zero Hr0 var). fold X. unfold dq2. rewrite rsum_zero; [ring | ].
      intros i _. apply rsum_zero. intros j _. unfold zero, Rdiv. ring.
    - rewrite Eta_0. rewrite (dq_phi3_spec p W _ _ zero Hr0). fold X. unfold dq3. rewrite rsum_zero; [ring | ].
      intros i _. apply rsum_zero. intros j _. apply rsum_zero. intros k _. unfold zero, Rdiv. ring.
  Qed.

  (* association: the low-density branch is taken *)
  Section One.
    Variable a : nat.
    Hypothesis Ha : p_assoc_comp p = [a].
    Let Td := tr_drho TR p W Hph vpath vdual Tt Tr Ht0 Hpe a Ha.
    Lemma drho_0 : drho p vpath a zn = 0.
    Proof. unfold drho. rewrite rho_0. rn. ring. Qed.
    Lemma v_br : brok TR (fun _ => @sqrt_eps RNum) (drho p vpath a).
    Proof.
      eapply brok_sep; [apply (tr_emb _ _ TR) | exact Td | ]. cbv beta. rewrite drho_0. rewrite sqrt_eps_R. lra.
    Qed.
    Lemma v_assoc : rel TR (fun z => a_assoc p (vpath z)) (a_assoc vparams vdual).
    Proof.
      unfold vparams.
      unfold a_assoc. change (p_assoc_comp (plift (emb TR) p)) with (p_assoc_comp p). rewrite Ha. change (ixn [a] 0) with a.
      cbv zeta.
      set (na := @ix RNum (p_na p) a). set (nb := @ix RNum (p_nb p) a).
      assert (Ea : rel TR (fun _ => na) (ix (p_na (plift (emb TR) p)) a)) by exact (tr_ix1 TR (p_na p) a).
      assert (Eb : rel TR (fun _ => nb) (ix (p_nb (plift (emb TR) p)) a)) by exact (tr_ix1 TR (p_nb p) a).
      assert (Em : rel TR (fun z => @ix RNum (s_moles (vpath z)) a) (ix (s_moles vdual) a)) by (apply (tr_ix TR); exact Tm).
      assert (El := tr_ltb _ _ TR _ _ _ _ (tr_n0 TR) Eb). rewrite El. cbv beta.
      pose proof v_br as Hbr. pose proof drho_0 as D0. pose proof Td as Hd.
      assert (El2 := tr_ltb _ _ TR (fun _ => @sqrt_eps RNum) (drho p vpath a) sqrt_eps _ ltac:(apply (tr_lit _ _ TR)) Hd).
      cbv beta in El2. rewrite D0 in El2. change (@nltb RNum) with Rltb in El2. rewrite sqrt_eps_R in El2.
      rewrite (proj2 (Rltb_false _ _)) in El2 by lra.
      destruct (@nltb RNum (@n0 RNum) nb) eqn:El0.
      - change (@nltb RNum) with Rltb in El0. apply Rltb_true in El0. assert (Hb0 : 0 < nb) by (unfold n0 in El0; rn_in El0; lra).
        assert (Hx : rel TR (fun z => @assoc_site_frac_ab RNum (drho p vpath a z) na nb)
                  (assoc_site_frac_ab (nmul (association_strength (plift (emb TR) p) (s_t vdual) (seg_radius (plift (emb TR) p) (s_t vdual)) (assoc_n2 (plift (emb TR) p) (s_t vdual) (s_rho vdual))
                     (nrecip (nadd (nopp (packing (plift (emb TR) p) (s_t vdual) (s_rho vdual))) (nlit 1%Q))) n1 a a) (ix (s_rho vdual) a)) (ix (p_na (plift (emb TR) p)) a) (ix (p_nb (plift (emb TR) p)) a))).
        { unfold assoc_site_frac_ab. apply (tr_br _ _ TR); auto. rewrite El2. cbv beta.
          change (@nltb RNum) with Rltb. rewrite D0, sqrt_eps_R. rewrite (proj2 (Rltb_false _ _)) by lra.
          tr TR. }
        assert (E0 : @eq R (@assoc_site_frac_ab RNum (drho p vpath a zn) na nb) 1).
        { rewrite D0, assoc_site_frac_ab_below by lra. ring. }
        set (fx := fun z => @assoc_site_frac_ab RNum (drho p vpath a z) na nb) in *.
        apply (tr_mul _ _ TR); auto. apply (tr_add _ _ TR); apply (tr_mul _ _ TR); auto.
        + apply (tr_f_assoc TR fx); auto. unfold fx. rewrite E0. lra.
        + apply (tr_f_assoc TR (fun x => @nadd RNum (@nmul RNum (@nsub RNum (fx x) (@nlit RNum 1%Q)) (@ndiv RNum na nb)) (@nlit RNum 1%Q))).
          * tr TR. lra.
          * rn. unfold fx. rewrite E0. rewrite Rminus_eq_0, Rmult_0_l. lra.
      - assert (Hx : rel TR (fun z => @assoc_site_frac_a RNum (drho p vpath a z) na)
                  (assoc_site_frac_a (nmul (association_strength (plift (emb TR) p) (s_t vdual) (seg_radius (plift (emb TR) p) (s_t vdual)) (assoc_n2 (plift (emb TR) p) (s_t vdual) (s_rho vdual))
                     (nrecip (nadd (nopp (packing (plift (emb TR) p) (s_t vdual) (s_rho vdual))) (nlit 1%Q))) n1 a a) (ix (s_rho vdual) a)) (ix (p_na (plift (emb TR) p)) a))).
        { unfold assoc_site_frac_a. apply (tr_br _ _ TR); auto. rewrite El2. cbv beta.
          change (@nltb RNum) with Rltb. rewrite D0, sqrt_eps_R. rewrite (proj2 (Rltb_false _ _)) by lra.
          tr TR. }
        assert (E0 : @eq R (@assoc_site_frac_a RNum (drho p vpath a zn) na) 1).
        { rewrite D0. unfold assoc_site_frac_a. rewrite sqrt_eps_R. rn. rewrite (proj2 (Rltb_false _ _)) by lra. ring. }
        apply (tr_mul _ _ TR); auto. apply (tr_mul _ _ TR); auto.
        apply (tr_f_assoc TR (fun z => @assoc_site_frac_a RNum (drho p vpath a z) na) _ Hx). rewrite E0. lra.
    Qed.
  End One.

  Lemma v_cross lu2 k tol : a_cross_assoc lu2 k tol vparams vdual = Some (nmul n0 n1).
  Proof.
    unfold a_cross_assoc, cross_association.
    assert (E : rel TR (fun z => @nsum RNum (s_rho (vpath z))) (nsum (s_rho vdual))) by (apply (tr_nsum TR); exact Tr).
    rewrite (tr_ltb _ _ TR _ (fun _ => @f_eps RNum) _ f_eps E) by apply (tr_lit _ _ TR).
    cbv beta. change (@nltb RNum) with Rltb. rewrite nsum_R, f_eps_R.
    rewrite (proj2 (Rltb_true _ _)); [reflexivity | ].
    rewrite rsum_zero; [lra | ]. intros y Hy. unfold vpath, state_virial in Hy. cbn [s_rho] in Hy.
    apply in_map_iff in Hy. destruct Hy as (u & <- & _). rewrite aff_base. rn. ring.
  Qed.

  Definition assoc_low (s : state RNum) : R := if Nat.eqb (p_nassoc p) 1 then a_assoc p s else 0.
  (** what the derivatives at zero density are taken of: polar terms truncated at second order,
      no association between two or more associating components *)
  Definition low (o : options RNum) (s : state RNum) : R :=
    a_hs p s + a_hc p s + a_disp p s + dd2_term s + qq2_term s + dq2_term (o_dq o) s + assoc_low s.
  Theorem v_residual lu2 o : exists a,
    residual lu2 (with_options vparams (lift_options (emb TR) o)) vdual = Some a /\ rel TR (fun z => low o (vpath z)) a.
  Proof.
    set (fl := fun z => [a_hs p (vpath z); a_hc p (vpath z); a_disp p (vpath z)]
       ++ (if Nat.ltb 0 (p_ndipole p) then [dd2_term (vpath z)] else [])
       ++ (if Nat.ltb 0 (p_nquadpole p) then [qq2_term (vpath z)] else [])
       ++ (if Nat.ltb 0 (p_ndipole p) && Nat.ltb 0 (p_nquadpole p) then [dq2_term (o_dq o) (vpath z)] else [])
       ++ match p_nassoc p with O => [] | 1%nat => [a_assoc p (vpath z)] | _ => [@nmul RNum (@n0 RNum) (@n1 RNum)] end).
    set (l := [a_hs vparams vdual; a_hc vparams vdual; a_disp vparams vdual]
       ++ (if Nat.ltb 0 (p_ndipole p) then [a_dipole vparams vdual] else [])
       ++ (if Nat.ltb 0 (p_nquadpole p) then [a_quadrupole vparams vdual] else [])
       ++ (if Nat.ltb 0 (p_ndipole p) && Nat.ltb 0 (p_nquadpole p) then [a_dq vparams (o_dq o) vdual] else [])
       ++ match p_nassoc p with O => [] | 1%nat => [a_assoc vparams vdual] | _ => [nmul n0 n1] end).
    exists (nsum l). split.
    - unfold residual, with_options, l. cbn [e_contributions e_params].
      change (p_ndipole vparams) with (p_ndipole p). change (p_nquadpole vparams) with (p_nquadpole p). change (p_nassoc vparams) with (p_nassoc p).
      pose proof (v_cross lu2 (o_max_iter (lift_options (emb TR) o)) (o_tol (lift_options (emb TR) o))) as Hc.
      destruct (Nat.ltb 0 (p_ndipole p)), (Nat.ltb 0 (p_nquadpole p)), (p_nassoc p) as [ | [ | k]]; try reflexivity;
        cbn [app andb map eval_contribution collect_opt]; rewrite Hc; reflexivity.
    - assert (E : rel TR (fun z => @nsum RNum (fl z)) (nsum l)).
      { apply (tr_nsum TR). unfold fl, l.
        assert (sing : forall f a, rel TR f a -> lrel TR (fun x => [f x]) [a]) by (intros; apply (lrel_cons TR); auto; apply (lrel_nil TR)).
        repeat apply (lrel_app TR).
        + apply (lrel_cons TR). { exact v_hs. } apply (lrel_cons TR). { exact v_hc. } apply sing. exact v_disp.
        + destruct (Nat.ltb 0 (p_ndipole p)); [apply sing, v_dipole | apply (lrel_nil TR)].
        + destruct (Nat.ltb 0 (p_nquadpole p)); [apply sing, v_quadrupole | apply (lrel_nil TR)].
        + destruct (Nat.ltb 0 (p_ndipole p) && Nat.ltb 0 (p_nquadpole p)); [apply sing, v_dq | apply (lrel_nil TR)].
        + destruct (p_nassoc p) as [ | [ | k]] eqn:Ek; [apply (lrel_nil TR) | | apply sing, (tr_mul _ _ TR); [apply tr_n0 | apply tr_n1]].
          rewrite (w_na _ W) in Ek. destruct (p_assoc_comp p) as [ | a [ | b r]] eqn:Ea; try discriminate.
          apply sing, (v_assoc a Ea). }
      eapply (rel_near (dual n)); [ | exact E]. eapply near_imp; [ | apply near_true]. intros z _. cbv beta.
      unfold fl, low, assoc_low.
      assert (D0 : p_ndipole p = 0%nat -> dd2_term (vpath z) = 0 /\ dq2_term (o_dq o) (vpath z) = 0).
      { intros E0. unfold dd2_term, dq2_term, dipole_phi2, dq_phi2. rewrite E0. split; cbn; rn; ring. }
      assert (Q0 : p_nquadpole p = 0%nat -> qq2_term (vpath z) = 0 /\ dq2_term (o_dq o) (vpath z) = 0).
      { intros E0. unfold qq2_term, dq2_term, quad_phi2, dq_phi2. rewrite E0. split; [cbn; rn; ring | ].
        set (l' := flat_map _ _). replace l' with (@nil R); [unfold nsubs; cbn; rn; ring | ].
        unfold l'. generalize (seq 0 (p_ndipole p)). intros r. induction r; simpl; auto. }
      rewrite nsum_R.
      destruct (Nat.ltb_spec 0 (p_ndipole p)) as [Hd | Hd]; [ | destruct (D0 ltac:(lia)) as [-> ->]];
      (destruct (Nat.ltb_spec 0 (p_nquadpole p)) as [Hq | Hq]; [ | destruct (Q0 ltac:(lia)) as [Q1 Q2]; try rewrite Q1; try rewrite Q2]);
      destruct (p_nassoc p) as [ | [ | k]]; cbn [Nat.eqb app andb rsum]; unfold n0, n1; rn; ring.
  Qed.
End Virial.
