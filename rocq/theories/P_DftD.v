(** C41: the derivatives of the Helmholtz energy functional.
    The functional is evaluated with dual numbers for the temperature and for every weighted
    density of a grid point; the coefficients of the result are the true partial derivatives (of
    any order) of the plain evaluation. *)
From Coq Require Import ZArith QArith Reals Lra Lia List Bool.
From Coquelicot Require Import Coquelicot.
From Verif Require Import Num RNum RSum Tables M_Params F_Params M_Eos M_Dft Spec F_Spec F_SpecPolar F_SpecAssoc
  F_Contrib F_Cross F_Transfer F_TransferS XNum DNum F_Level Samples P_Params P_Dual F_Virial F_DualRun F_Dft F_Dft2 P_Dual3
  F_DftT F_DftT2 F_DftT3 P_DftR.
Import ListNotations.
Local Open Scope R_scope.
Set Bullet Behavior "Strict Subproofs".

Lemma near_all k m (Q : nat -> pt k -> Prop) : (forall i, (i < m)%nat -> near (dual k) (Q i)) ->
  near (dual k) (fun z => forall i, (i < m)%nat -> Q i z).
Proof.
  induction m as [ | m IH]; intros H.
  - eapply near_imp; [ | apply near_true]. intros z _ i Hi. lia.
  - eapply near_imp; [ | exact (near_and (dual k) _ _ (IH (fun i Hi => H i ltac:(lia))) (H m ltac:(lia)))].
    intros z [A B] i Hi. destruct (Nat.eq_dec i m) as [-> | N]; auto. apply A. lia.
Qed.
Lemma near_all2 k {A} (l : list A) (Q : A -> pt k -> Prop) : (forall a, In a l -> near (dual k) (Q a)) ->
  near (dual k) (fun z => forall a, In a l -> Q a z).
Proof.
  induction l as [ | b l IH]; intros H.
  - eapply near_imp; [ | apply near_true]. intros z _ i [].
  - eapply near_imp; [ | exact (near_and (dual k) _ _ (IH (fun i Hi => H i (or_intror Hi))) (H b (or_introl eq_refl)))].
    intros z [B C] a [<- | Ha]; auto.
Qed.

Lemma pade_branch_same k f g x : f (lz (dual k)) = g (lz (dual k)) -> pade_branch k f g x = f x.
Proof. intros E. unfold pade_branch. destruct (Req_EM_T _ _) as [_ | C]; [reflexivity | contradiction]. Qed.

Section C41.
  Variables (prs : list (pure_record RNum)) (bin : list (list R)) (p : params RNum).
  Hypothesis Hp : from_records prs bin = Some p.
  Hypothesis Hph : phys p.
  Let W : wfp p := wfp_from_records prs bin p Hp.
  Let X := mix_of p.
  Let c := length (p_m p).
  (** order of differentiation, temperature and its directions *)
  Variables (n : nat) (t : R) (dt : list R).
  Hypothesis Ht : 0 < t.
  Notation zn := (lz (dual n)).
  Let tz : pt n -> R := aff n t dt.
  Let td : dnum n := seed n t dt.
  Let q : params (lK (dual n)) := plift (emb (TRn n)) p.
  (** the weighted densities of one grid point, each with its directions; the plain densities at
      a displacement [z], and the dual numbers *)
  Definition wdz (l : list (R * list R)) (z : pt n) : list R := map (fun md => aff n (fst md) (snd md) z) l.
  Definition wdd (l : list (R * list R)) : list (dnum n) := map (fun md => seed n (fst md) (snd md)) l.

  Lemma wdz_rel l : lrel (TRn n) (wdz l) (wdd l).
  Proof.
    exists (map (fun md => aff n (fst md) (snd md)) l). split.
    - intros z. unfold wdz. rewrite map_map. reflexivity.
    - unfold wdd. induction l as [ | md l IH]; cbn [map]; constructor; auto. apply rel_aff.
  Qed.
  Lemma wdz_base l : wdz l zn = map fst l.
  Proof. unfold wdz. apply map_ext. intros md. apply aff_base. Qed.
  Lemma wdz_ix l i : @ix RNum (wdz l zn) i = nth i (map fst l) 0.
  Proof. rewrite wdz_base. reflexivity. Qed.
  Lemma tz_base : tz zn = t.
  Proof. apply aff_base. Qed.
  Let Tt : rel (TRn n) tz td := rel_aff n t dt.
  Let Ht0 : 0 < tz zn. Proof. rewrite tz_base. exact Ht. Qed.
  Lemma wdd_len l : length (wdd l) = length l.
  Proof. apply map_length. Qed.

  (** Hard chains.  The weighted densities are the densities of the components, the densities
      averaged over a sphere, and two moments; the averaged densities do not vanish (the code uses
      their absolute value). *)
  Theorem C41_chain wd : let w := map fst wd in
    length wd = (2 * c + 2)%nat -> (forall i, (i < c)%nat -> nth (c + i) w 0 <> 0) ->
    0 <= nth (2 * c) w 0 -> nth (2 * c + 1) w 0 < 1 ->
    represents n (fun z => phi_chain p (tz z) (wdz wd z)) (phi_chain q td (wdd wd)).
  Proof.
    cbv zeta. intros L Hl H2 H3. apply rel_represents.
    assert (Em : Nat.div (length (wdd wd) - 2) 2 = c).
    { rewrite wdd_len, L. replace (2 * c + 2 - 2)%nat with (c * 2)%nat by lia. apply Nat.div_mul. lia. }
    pose proof (T_chain_gen p W Hph n tz td (wdz wd) (wdd wd) Tt (wdz_rel wd) Ht0) as T.
    rewrite Em in T.
    specialize (T (Nat.le_refl _) (fun i => lam_branch n (fun x => @ix RNum (wdz wd x) (c + i)))).
    eapply (rel_near (dual n)); [ | apply T].
    - eapply near_imp; [ | apply (near_all n c (fun i z => lam_branch n (fun x => @ix RNum (wdz wd x) (c + i)) z = @lambda_reg RNum (@ix RNum (wdz wd z) (c + i))))].
      + intros z Hz. rewrite (chain_plain p n tz (wdz wd) (wdd wd) (wdz_rel wd) z). rewrite Em.
        unfold chain_gen. f_equal. unfold mk1. apply map_ext_in. intros i Hi. apply seq_in in Hi. rewrite (Hz i Hi). reflexivity.
      + intros i Hi. eapply lam_plain; [apply (w_ix n _ _ (wdz_rel wd)) | ]. rewrite wdz_ix. apply Hl; auto.
    - intros i Hi. split; [apply T_lam; apply (w_ix n _ _ (wdz_rel wd)) | apply lam_pos].
    - rewrite wdz_ix. exact H2.
    - rewrite wdz_ix. exact H3.
  Qed.

  (** Dispersion and polar terms.  The weighted densities are the averaged densities. *)
  Lemma att_eta_gen tt w : att_eta p tt w = Eta X tt (fun i => nth i w 0).
  Proof.
    unfold att_eta, Eta, Zeta. rewrite nsumi_R, <- rsum_scal. apply Sum_ext. intros i Hi.
    rewrite (seg_radius_spec p W) by auto. unfold frac_pi_3. change (M X i) with (@ix RNum (p_m p) i).
    change (@ix RNum w i) with (nth i w 0). set (x := nth i w 0).
    fold X. set (d := Di X tt i). set (m := @ix RNum (p_m p) i). rn. field.
  Qed.
  Lemma polar_orders tt w : let rho := fun i => nth i w 0 in let eta := att_eta p tt w in
    d_dipole_phi2 p tt w eta = dd2 X tt rho /\ d_dipole_phi3 p tt w eta = dd3 X tt rho /\
    d_quad_phi2 p tt w eta = qq2_dft X tt rho /\ d_quad_phi3 p tt w eta = qq3 X tt rho /\
    d_dq_phi2 p tt w eta = dq2 X tt rho 3 5 /\ d_dq_phi3 p tt w eta = dq3 X tt rho.
  Proof.
    cbv zeta. rewrite att_eta_gen.
    assert (Hr : forall i, (i < length (p_m p))%nat -> @ix RNum w i = nth i w 0) by reflexivity.
    rewrite (d_dipole_phi2_eq p W Hph), (d_dipole_phi3_eq p W Hph), (d_quad_phi3_eq p W Hph), (d_dq_phi2_eq p W Hph), (d_dq_phi3_eq p W Hph).
    repeat split.
    - apply (dipole_phi2_spec p W Hph tt w _ Hr).
    - apply (dipole_phi3_spec p W Hph tt w _ Hr).
    - apply (d_quad_phi2_spec p W Hph tt w _ Hr).
    - apply (quad_phi3_spec p W Hph tt w _ Hr).
    - apply (dq_phi2_spec p W Hph tt w _ Hr DQ35).
    - apply (dq_phi3_spec p W tt w _ Hr).
  Qed.
  Theorem C41_attraction wd : let w := map fst wd in let rho := fun i => nth i w 0 in
    length wd = c -> (forall i, (i < c)%nat -> 0 <= rho i) -> Rho X rho <> @f_eps RNum -> Eta X t rho < 1 ->
    (p_ndipole p <> 0%nat -> dd2 X t rho <> dd3 X t rho) ->
    (p_nquadpole p <> 0%nat -> qq2_dft X t rho <> qq3 X t rho) ->
    (p_ndipole p <> 0%nat -> p_nquadpole p <> 0%nat -> dq2 X t rho 3 5 <> dq3 X t rho) ->
    represents n (fun z => phi_att p (tz z) (wdz wd z)) (phi_att q td (wdd wd)).
  Proof.
    cbv zeta. intros L Hr He Hn Hd Hq Hdq. apply rel_represents. pose proof (wdz_rel wd) as Tw.
    destruct (polar_orders t (map fst wd)) as (O1 & O2 & O3 & O4 & O5 & O6).
    assert (E0 : att_eta p (tz zn) (wdz wd zn) < 1) by (rewrite tz_base, wdz_base, att_eta_gen; exact Hn).
    assert (Hr0 : forall i, (i < length (p_m p))%nat -> 0 <= @ix RNum (wdz wd zn) i) by (intros i Hi; rewrite wdz_ix; auto).
    assert (Hs0 : total_density p (wdz wd zn) <> @f_eps RNum) by (rewrite wdz_base; exact He).
    assert (S1 : p_ndipole p <> 0%nat -> dd2_ p n tz (wdz wd) zn <> dd3_ p n tz (wdz wd) zn).
    { intros H. unfold dd2_, dd3_. rewrite tz_base, wdz_base, O1, O2. auto. }
    assert (S2 : p_nquadpole p <> 0%nat -> qq2_ p n tz (wdz wd) zn <> qq3_ p n tz (wdz wd) zn).
    { intros H. unfold qq2_, qq3_. rewrite tz_base, wdz_base, O3, O4. auto. }
    assert (S3 : p_ndipole p <> 0%nat -> p_nquadpole p <> 0%nat -> dq2_ p n tz (wdz wd) zn <> dq3_ p n tz (wdz wd) zn).
    { intros H H'. unfold dq2_, dq3_. rewrite tz_base, wdz_base, O5, O6. auto. }
    unfold phi_att. apply (tr_add _ _ (TRn n)).
    - apply (T_att_disp p W Hph n tz td (wdz wd) (wdd wd)); auto.
    - apply (rel_eq (TRn n) (polar_branch p n tz (wdz wd))).
      + intros z. unfold polar_branch, phi_polar. cbv zeta. f_equal.
        destruct (Nat.ltb_spec 0 (p_ndipole p)) as [D | D]; destruct (Nat.ltb_spec 0 (p_nquadpole p)) as [Q | Q]; cbn [andb].
        * rewrite !pade_branch_sep; [reflexivity | apply S3; lia | apply S2; lia | apply S1; lia].
        * rewrite !pade_branch_sep; [reflexivity | apply S1; lia].
        * rewrite !pade_branch_sep; [reflexivity | apply S2; lia].
        * reflexivity.
      + apply (T_polar p W Hph n tz td (wdz wd) (wdd wd)); auto.
        * rewrite wdd_len, L. apply Nat.div_le_upper_bound; unfold c; lia.
        * intros H C. exfalso. exact (S1 H C).
        * intros H C. exfalso. exact (S2 H C).
        * intros H H' C. exfalso. exact (S3 H H' C).
  Qed.

  (** Association of one component [a].  The weighted densities are the [c] scalar densities
      [n0], the vector densities [nv] in [dim] directions (each for all components) and the
      packing fraction [n3].  In an inhomogeneous fluid the density of the associating component
      and the contact value are reduced by the vector densities; below a density of 1e-9 the code
      leaves the reduction out.  [bonding] is the product of density and association strength. *)
  Section Bonding.
    Variables (a dim : nat) (w : list R).
    Let n0 i := nth i w 0.
    Let nv j i := nth (c * (j + 1) + i) w 0.
    Let n3 := nth (c * (dim + 1)) w 0.
    Definition surface (i : nat) : R := PI * M X i * Di X t i ^ 2.
    Definition n2_all : R := Sum i < c, n0 i * surface i.
    Definition rho_eff : R :=
      if Rltb (n0 a) (/ 1000000000) then n0 a
      else (1 - (Sum j < dim, nv j a ^ 2) / (n0 a * surface a) ^ 2) * n0 a.
    Definition xi_all : R :=
      if Rltb (Sum i < c, n0 i) (/ 1000000000) then 1
      else 1 - (Sum j < dim, (Sum i < c, nv j i) ^ 2) / n2_all ^ 2.
    Definition contact : R :=
      let k := n2_all / (1 - n3) * (Di X t a / 2) in (1 + (k / 18 + 1 / 2) * k * xi_all) / (1 - n3).
    Definition bonding : R :=
      contact * (exp (@ix2 RNum (p_epsilon_k_aibj p) a a / t) - 1) * (Sg X a ^ 3 * @ix2 RNum (p_kappa_aibj p) a a) * rho_eff.
  End Bonding.
  Lemma dim_len (w : list R) dim : length w = (c * (dim + 1) + 1)%nat -> (0 < c)%nat -> @da_dim RNum p w = dim.
  Proof.
    intros L C. change (Nat.div (@length R w - 1) c - 1 = dim)%nat. rewrite L. replace (c * (dim + 1) + 1 - 1)%nat with ((dim + 1) * c)%nat by lia.
    assert (C0 : c <> 0%nat) by lia. rewrite (Nat.div_mul (dim + 1) c C0). lia.
  Qed.
  Section BondingSpec.
    Variables (a dim : nat) (w : list R).
    Hypothesis Ha : p_assoc_comp p = [a].
    Hypothesis L : length w = (c * (dim + 1) + 1)%nat.
    Let La : (a < c)%nat := assoc_lt p W a Ha.
    Let Hd : @da_dim RNum p w = dim.
    Proof. apply dim_len; [exact L | lia]. Qed.
    Lemma n2i_spec i : (i < c)%nat -> @da_n2i RNum p t w i = nth i w 0 * surface i.
    Proof.
      intros Hi. unfold da_n2i, da_n0i, surface. rewrite (seg_radius_spec p W) by auto. fold X. change (M X i) with (@ix RNum (p_m p) i).
      change (@ix RNum w i) with (nth i w 0). set (x := nth i w 0). set (d := Di X t i). set (m := @ix RNum (p_m p) i). rn. field.
    Qed.
    Lemma n2_spec : @da_n2 RNum p t w = n2_all w.
    Proof. unfold da_n2, n2_all. rewrite nsumi_R. apply Sum_ext. intros i Hi. apply n2i_spec; auto. Qed.
    Lemma rho_eff_spec : @ix RNum (da_rho0 p t w) a = rho_eff a dim w.
    Proof.
      unfold da_rho0. rewrite (@ix_mk1 RNum) by auto. cbv zeta. rewrite Hd, n0_cutoff_R, n2i_spec by auto. unfold rho_eff.
      change (@da_n0i RNum p w a) with (nth a w 0). change (@nltb RNum) with Rltb. destruct (Rltb _ _); [reflexivity | ].
      rewrite nsumi_R. rn. f_equal. unfold Rdiv.
      replace (Sum j < dim, @da_n2vi RNum p w j a * @da_n2vi RNum p w j a) with (Sum j < dim, nth (c * (j + 1) + a) w 0 ^ 2).
      2: { apply Sum_ext. intros j _. unfold da_n2vi. change (@ix RNum w (length (p_m p) * (j + 1) + a)) with (nth (c * (j + 1) + a) w 0). ring. }
      set (S := Sum j < dim, _). set (y := nth a w 0 * surface a). rewrite Rinv_opp. replace (y ^ 2) with (y * y) by ring. ring.
    Qed.
    Lemma xi_spec : @da_xi RNum p t w = xi_all dim w.
    Proof.
      unfold da_xi. cbv zeta. rewrite Hd, n0_cutoff_R, n2_spec, !nsumi_R. unfold xi_all.
      change (@nltb RNum) with Rltb. fold c. change (Sum i < c, @da_n0i RNum p w i) with (Sum i < c, nth i w 0).
      destruct (Rltb _ _); [unfold n1; rn; reflexivity | ].
      rn. unfold Rdiv.
      rewrite (rsum_ext _ _ (fun j => (Sum i < c, nth (c * (j + 1) + i) w 0) ^ 2)).
      2: { intros j _. rewrite nsumi_R. unfold da_n2vi. fold c. change (Sum i < c, @ix RNum w (c * (j + 1) + i)) with (Sum i < c, nth (c * (j + 1) + i) w 0). ring. }
      set (S := Sum j < dim, _). set (y := n2_all w). rewrite Rinv_opp. replace (y ^ 2) with (y * y) by ring. ring.
    Qed.
    Lemma bonding_spec : @da_drho RNum p t w = bonding a dim w.
    Proof.
      unfold da_drho. rewrite Ha. change (ixn [a] 0) with a. cbv zeta.
      rewrite n2_spec, xi_spec, rho_eff_spec, (seg_radius_spec p W) by auto. unfold bonding, contact, da_n3i, da_n3. cbv zeta.
      rewrite Hd. fold c X. change (@ix RNum w (c * (dim + 1))) with (nth (c * (dim + 1)) w 0). change (@ix RNum (p_sigma p) a) with (Sg X a).
      set (n3 := nth _ _ _). set (r := rho_eff a dim w). set (e := @ix2 RNum (p_epsilon_k_aibj p) a a). set (ka := @ix2 RNum (p_kappa_aibj p) a a).
      rn. replace (- n3 + 1) with (1 - n3) by ring. replace (/ t * e) with (e / t) by (unfold Rdiv; ring).
      generalize (exp (e / t)). intros y. change (car RNum) with R in *. unfold Rdiv. set (u := / (1 - n3)). set (d := Di X t a). set (x := xi_all dim w). set (nn := n2_all w). set (g := Sg X a). field.
    Qed.
  End BondingSpec.
  Theorem C41_association wd a dim lu k tol : let w := map fst wd in
    p_assoc_comp p = [a] -> assoc_phys p -> 0 < Na X a -> (0 < Nb X a -> Na X a + Nb X a <= 2 ^ 26) ->
    length wd = (c * (dim + 1) + 1)%nat -> (forall i, (i < c)%nat -> 0 <= nth i w 0) -> nth (c * (dim + 1)) w 0 < 1 ->
    nth a w 0 <> / 10 ^ 9 -> (Sum i < c, nth i w 0) <> / 10 ^ 9 ->
    0 <= rho_eff a dim w -> 0 <= xi_all dim w -> bonding a dim w <> / 2 ^ 26 ->
    exists f r, (forall z, phi_assoc lu k tol p (tz z) [wdz wd z] = Ok [f z]) /\
      (forall lu' k' tol', phi_assoc lu' k' tol' q td [wdd wd] = Ok [r]) /\ represents n f r.
  Proof.
    cbv zeta. intros Ha Hap Hna Hnb L H0 H3 Hca Hc Hr Hx Hs.
    assert (Lw : length (map fst wd) = (c * (dim + 1) + 1)%nat) by (rewrite map_length; exact L).
    assert (La : (a < c)%nat) by exact (assoc_lt p W a Ha).
    assert (E1 : p_nassoc p = 1%nat) by (rewrite (w_na _ W), Ha; reflexivity).
    exists (fun z => phi_assoc_one p (tz z) (wdz wd z)), (phi_assoc_one q td (wdd wd)).
    split; [ | split].
    - intros z. unfold phi_assoc. rewrite E1. reflexivity.
    - intros. unfold phi_assoc. change (p_nassoc q) with (p_nassoc p). rewrite E1. reflexivity.
    - apply rel_represents. apply (T_assoc_one p W Hph n tz td (wdz wd) (wdd wd) Tt (wdz_rel wd) Ht0 a Ha Hap).
      + intros i Hi. rewrite wdz_ix. auto.
      + rewrite wdz_ix, n0_cutoff_R. intros C. apply Hca. rewrite C. lra.
      + rewrite wdz_base, n0_cutoff_R. intros C. apply Hc. change (total_density p (map fst wd)) with (Sum i < c, nth i (map fst wd) 0) in C. rewrite C. lra.
      + rewrite wdz_base. unfold da_n3. rewrite (dim_len _ dim Lw) by lia. exact H3.
      + rewrite wdz_base, tz_base, (rho_eff_spec a dim _ Ha Lw). exact Hr.
      + rewrite wdz_base, tz_base, (xi_spec a dim _ Ha Lw). exact Hx.
      + exact Hna.
      + intros Hb. apply Hnb in Hb. unfold X in Hb. lra.
      + rewrite wdz_base, tz_base, (bonding_spec a dim _ Ha Lw), sqrt_eps_R. intros C. apply Hs. rewrite C. lra.
  Qed.

  (* ---------------------------------------------------------- one component *)
  (** The functional for a single component.  The weighted densities are the surface density
      [n2], the packing fraction [n3] and the vector densities.  *)
  Section PureSpec.
    Variable w : list R.
    Let n2 := nth 0 w 0.
    Let n3 := nth 1 w 0.
    Definition vec2 : R := rsum (skipn 2 w) (fun x => x ^ 2).
    Definition pure_xi : R :=
      if Rltb n2 (/ 1000000000 * surface 0) then 1 else 1 - vec2 / n2 ^ 2.
    Definition pure_contact : R :=
      let k := n2 / (1 - n3) * (Di X t 0 / 2) in (1 + (k / 18 + 1 / 2) * k * pure_xi) / (1 - n3).
    Definition pure_bonding : R :=
      pure_contact * (exp (@ix2 RNum (p_epsilon_k_aibj p) 0 0 / t) - 1) * (Sg X 0 ^ 3 * @ix2 RNum (p_kappa_aibj p) 0 0)
        * (n2 / surface 0 * pure_xi).
    (** regular points of the fundamental measure term and of the association term *)
    Definition fmt_regular (v : fmt_version) : Prop :=
      n3 < 1 /\ n3 <> / 10 ^ 5 /\ (v = WhiteBear \/ v = AntiSymWhiteBear /\ 0 < n2 /\ vec2 <> n2 ^ 2).
    Definition bonding_regular : Prop :=
      0 <= n2 /\ n2 <> / 10 ^ 9 * surface 0 /\ 0 <= pure_xi /\ pure_bonding <> / 2 ^ 26.
  End PureSpec.
  Section PureTheorems.
    Hypothesis Hone : c = 1%nat.
    Let L0 : (0 < length (p_m p))%nat. Proof. fold c. lia. Qed.
    Lemma hs_spec0 : @ix RNum (hs_diameter p t) 0 = Di X t 0.
    Proof. apply (hs_diameter_spec p W t 0%nat L0). Qed.
    Lemma vec2_spec (w : list R) : @ndot RNum (skipn 2 w) (skipn 2 w) = vec2 w.
    Proof.
      unfold vec2, ndot. rewrite nsum_R. generalize (skipn 2 w). intros l. unfold nmul1.
      induction l as [ | x l IH]; [reflexivity | ]. cbn [combine map rsum]. rewrite IH. cbn [fst snd]. rn. ring.
    Qed.
    Lemma pure_xi_spec (w : list R) : @pa_xi RNum p t w = pure_xi w.
    Proof.
      unfold pa_xi, pure_xi. cbv zeta. rewrite vec2_spec, hs_spec0. change (@ix RNum w 0) with (nth 0 w 0).
      assert (E : @nmul RNum (@nmul RNum (@nmul RNum (@nmul RNum n0_cutoff (@nlit RNum 4%Q)) npi) (@ix RNum (p_m p) 0))
         (@npowi RNum (@nre RNum (@nmul RNum (Di X t 0) (@nlit RNum 0.5%Q))) 2) = / 1000000000 * surface 0).
      { rewrite n0_cutoff_R. unfold surface. change (M X 0) with (@ix RNum (p_m p) 0). generalize (@ix RNum (p_m p) 0). intros m.
        generalize (Di X t 0). intros d. rn. change (car RNum) with R in *. field. }
      rewrite E. change (@nltb RNum) with Rltb. destruct (Rltb _ _); [unfold n1; rn; reflexivity | ].
      rn. change (car RNum) with R in *. unfold Rdiv. replace (nth 0 w 0 ^ 2) with (nth 0 w 0 * nth 0 w 0) by ring. ring.
    Qed.
    Lemma pure_bonding_spec (w : list R) : @pa_drho RNum p t w = pure_bonding w.
    Proof.
      unfold pa_drho, pa_n0. cbv zeta. rewrite pure_xi_spec, hs_spec0. unfold pure_bonding, pure_contact, surface. cbv zeta.
      change (@ix RNum w 0) with (nth 0 w 0). change (@ix RNum w 1) with (nth 1 w 0). change (@ix RNum (p_sigma p) 0) with (Sg X 0).
      change (@ix RNum (p_m p) 0) with (M X 0).
      assert (Hd : 0 < Di X t 0) by (rewrite <- hs_spec0; pose proof (hs_p p W Hph n tz Ht0 0%nat L0) as Hh; rewrite tz_base in Hh; exact Hh).
      assert (Hm : 0 < M X 0) by exact (proj1 (Hph 0%nat L0)). pose proof PI_RGT_0 as Pp.
      set (n2 := nth 0 w 0). set (n3 := nth 1 w 0). set (x := pure_xi w). set (e := @ix2 RNum (p_epsilon_k_aibj p) 0 0). set (ka := @ix2 RNum (p_kappa_aibj p) 0 0).
      set (d := Di X t 0) in *. set (m := M X 0) in *. set (g := Sg X 0).
      rn. replace (- n3 + 1) with (1 - n3) by ring. replace (/ t * e) with (e / t) by (unfold Rdiv; ring).
      generalize (exp (e / t)). intros y. change (car RNum) with R in *. unfold Rdiv. set (u := / (1 - n3)). field. lra.
    Qed.
    Lemma switch_spec : n2_switch p n tz = / 1000000000 * surface 0.
    Proof.
      rewrite n2_switch_R. rewrite tz_base, hs_spec0, n0_cutoff_R. unfold surface. change (M X 0) with (@ix RNum (p_m p) 0). generalize (@ix RNum (p_m p) 0). intros m.
      generalize (Di X t 0). intros d. rn. change (car RNum) with R in *. field.
    Qed.
    (** chain and attraction of a single component; weighted densities: density, averaged density
        and packing fraction, and the averaged density alone *)
    Theorem C41_pure_chain wd : let w := map fst wd in nth 1 w 0 <> 0 -> nth 2 w 0 < 1 ->
      represents n (fun z => phi_pure_chain p (wdz wd z)) (phi_pure_chain q (wdd wd)).
    Proof.
      cbv zeta. intros Hl H2. apply rel_represents. pose proof (wdz_rel wd) as Tw.
      eapply (rel_near (dual n)); [ | apply (T_pure_chain_gen p n (wdz wd) (wdd wd) Tw (lam_branch n (fun x => @ix RNum (wdz wd x) 1)))].
      - eapply near_imp; [ | apply (lam_plain n (fun x => @ix RNum (wdz wd x) 1) _ (w_ix n _ _ Tw 1%nat))].
        + intros z Hz. cbv beta in Hz. rewrite (pure_chain_plain p n (wdz wd) z). unfold pure_chain_gen. rewrite Hz. reflexivity.
        + rewrite wdz_ix. exact Hl.
      - apply T_lam. apply (w_ix n _ _ Tw).
      - apply lam_pos.
      - rewrite wdz_ix. exact H2.
    Qed.
    Lemma pure_eta_gen (r : R) : @pure_eta RNum p t r = Eta X t (fun _ => r).
    Proof.
      unfold pure_eta, Eta, Zeta. rewrite hs_spec0. change (N X) with c. rewrite Hone. cbn [seq rsum].
      change (M X 0) with (@ix RNum (p_m p) 0). generalize (@ix RNum (p_m p) 0). intros m. generalize (Di X t 0). intros d.
      unfold frac_pi_6. rn. change (car RNum) with R in *. field.
    Qed.
    Lemma pure_orders (r : R) : let rho := fun _ : nat => r in
      @pdd2 RNum p t r = dd2 X t rho /\ @pdd3 RNum p t r = dd3 X t rho /\
      @pqq2 RNum p t r = qq2 X t rho /\ @pqq3 RNum p t r = qq3 X t rho.
    Proof.
      cbv zeta.
      assert (EE : Eta X t (fun i => nth i [r] 0 / 1) = Eta X t (fun _ => r)).
      { unfold Eta, Zeta. change (N X) with c. rewrite Hone. cbn [seq rsum nth]. f_equal. f_equal. unfold Rdiv. rewrite Rinv_1. ring. }
      assert (J2e : forall a b, J2 X t (fun i => nth i [r] 0 / 1) a b 0 0 = J2 X t (fun _ => r) a b 0 0) by (intros; unfold J2; rewrite EE; reflexivity).
      assert (J3e : forall a, J3 X t (fun i => nth i [r] 0 / 1) a 0 0 0 = J3 X t (fun _ => r) a 0 0 0) by (intros; unfold J3; rewrite EE; reflexivity).
      pose proof (pure_J2 p Hph Hone t 1 [r] AD BD ltac:(cbn; lia)) as E2. pose proof (pure_J3 p Hph Hone t 1 [r] CD ltac:(cbn; lia)) as E3.
      pose proof (pure_J2 p Hph Hone t 1 [r] AQ BQ ltac:(cbn; lia)) as F2. pose proof (pure_J3 p Hph Hone t 1 [r] CQ ltac:(cbn; lia)) as F3.
      cbv zeta in E2, E3, F2, F3. fold X in E2, E3, F2, F3. rewrite EE in E2, E3, F2, F3. rewrite J2e in E2, F2. rewrite J3e in E3, F3. clear J2e J3e EE.
      unfold pdd2, pdd3, pqq2, pqq3. cbv zeta. rewrite !pure_eta_gen. rewrite E2, E3, F2, F3.
      unfold dd2, dd3, qq2, qq3. change (N X) with c. rewrite Hone. cbn [seq rsum].
      assert (Sd : Sij X 0 0 = Sg X 0) by (unfold Sij; field). rewrite Sd. unfold Wi.
      change (@ix RNum (p_sigma p) 0) with (Sg X 0). change (@ix RNum (p_epsilon_k p) 0) with (Ep X 0).
      change (@ix RNum (p_mu2 p) 0) with (Mu2 X 0). change (@ix RNum (p_q2 p) 0) with (Qu2 X 0). unfold pi_sq_43, frac_pi_3.
      assert (s0p : 0 < Sg X 0) by apply (Hph 0%nat L0).
      set (j2 := J2 X t (fun _ => r) AD BD 0 0). set (j3 := J3 X t (fun _ => r) CD 0 0 0).
      set (k2 := J2 X t (fun _ => r) AQ BQ 0 0). set (k3 := J3 X t (fun _ => r) CQ 0 0 0).
      repeat split; rn; field; lra.
    Qed.
    Theorem C41_pure_attraction wd : let r := nth 0 (map fst wd) 0 in let rho := fun _ : nat => r in
      0 <= r -> Eta X t rho < 1 ->
      (p_ndipole p <> 0%nat -> dd2 X t rho <> dd3 X t rho) -> (p_nquadpole p <> 0%nat -> qq2 X t rho <> qq3 X t rho) ->
      represents n (fun z => phi_pure_att p (tz z) (wdz wd z)) (phi_pure_att q td (wdd wd)).
    Proof.
      cbv zeta. intros Hr He Hd Hq. apply rel_represents. pose proof (wdz_rel wd) as Tw.
      destruct (pure_orders (nth 0 (map fst wd) 0)) as (O1 & O2 & O3 & O4).
      assert (S1 : p_ndipole p <> 0%nat -> @pdd2 RNum p (tz zn) (@ix RNum (wdz wd zn) 0) <> @pdd3 RNum p (tz zn) (@ix RNum (wdz wd zn) 0)).
      { intros H. rewrite tz_base, wdz_ix, O1, O2. auto. }
      assert (S2 : p_nquadpole p <> 0%nat -> @pqq2 RNum p (tz zn) (@ix RNum (wdz wd zn) 0) <> @pqq3 RNum p (tz zn) (@ix RNum (wdz wd zn) 0)).
      { intros H. rewrite tz_base, wdz_ix, O3, O4. auto. }
      apply (rel_eq (TRn n) (pure_att_branch p n tz (wdz wd))).
      - intros z. unfold pure_att_branch, phi_pure_att. cbv zeta.
        destruct (Nat.ltb_spec 0 (p_ndipole p)) as [D | D]; destruct (Nat.ltb_spec 0 (p_nquadpole p)) as [Q | Q].
        + rewrite !pade_branch_sep; [reflexivity | apply S2; lia | apply S1; lia].
        + rewrite !pade_branch_sep; [reflexivity | apply S1; lia].
        + rewrite !pade_branch_sep; [reflexivity | apply S2; lia].
        + reflexivity.
      - apply (T_pure_att p W Hph Hone n tz td (wdz wd) (wdd wd) Tt Tw Ht0).
        + rewrite wdz_ix. exact Hr.
        + rewrite tz_base, wdz_ix, pure_eta_gen. exact He.
        + intros H C. exfalso. exact (S1 H C).
        + intros H C. exfalso. exact (S2 H C).
    Qed.

    Hypothesis Hap : (p_nassoc p <> 0)%nat -> assoc_phys p /\ 0 < Na X 0 /\ (0 < Nb X 0 -> Na X 0 + Nb X 0 <= 2 ^ 26).
    Lemma nassoc01 : p_nassoc p = 0%nat \/ p_nassoc p = 1%nat /\ p_assoc_comp p = [0%nat].
    Proof.
      rewrite (w_na _ W), (w_ass _ W). fold c. rewrite Hone. cbn [seq filter].
      match goal with |- context [if ?b then _ else _] => destruct b end; cbn; auto.
    Qed.
    Lemma pure_point v wd : fmt_regular (map fst wd) v -> (p_nassoc p <> 0%nat -> bonding_regular (map fst wd)) ->
      exists f r,
       (forall z, match pure_phi_fmt v p (tz z) (wdz wd z) with
              | None => None
              | Some phi => Some (if Nat.eqb (p_nassoc p) 1 then @nadd RNum phi (pure_phi_assoc p (tz z) (wdz wd z)) else phi)
              end = Some (f z)) /\
       match pure_phi_fmt v q td (wdd wd) with
              | None => None
              | Some phi => Some (if Nat.eqb (p_nassoc q) 1 then nadd phi (pure_phi_assoc q td (wdd wd)) else phi)
              end = Some r /\ rel (TRn n) f r.
    Proof.
      intros (R3 & Rc & Rv) Rb. pose proof (wdz_rel wd) as Tw.
      destruct (T_pure_fmt p W Hph Hone n tz td (wdz wd) (wdd wd) Tt Tw Ht0) with (v := v) as (f & r & F1 & F2 & F3).
      { rewrite wdz_ix. exact R3. }
      { rewrite wdz_ix, n3_cutoff_R. intros C. apply Rc. rewrite C. lra. }
      { rewrite wdz_ix, wdz_base, vec2_spec. exact Rv. }
      change (p_nassoc q) with (p_nassoc p). change (plift (emb (TRn n)) p) with q in F2. rewrite F2.
      destruct nassoc01 as [E | [E E1]]; rewrite E; cbn [Nat.eqb].
      - exists f, r. split; [ | auto]. intros z. rewrite F1. reflexivity.
      - exists (fun z => @nadd RNum (f z) (pure_phi_assoc p (tz z) (wdz wd z))), (nadd r (pure_phi_assoc q td (wdd wd))).
        split; [ | split]; [intros z; rewrite F1; reflexivity | reflexivity | ].
        destruct (Hap ltac:(lia)) as (Ha & Hna & Hnb). destruct (Rb ltac:(lia)) as (B0 & B1 & B2 & B3).
        apply (tr_add _ _ (TRn n)); [exact F3 | ].
        apply (T_pure_assoc p W Hph Hone n tz td (wdz wd) (wdd wd) Tt Tw Ht0); auto.
        + rewrite wdz_ix. exact R3.
        + rewrite wdz_ix. exact B0.
        + rewrite wdz_ix, switch_spec. intros C. apply B1. rewrite C. lra.
        + rewrite tz_base, wdz_base, pure_xi_spec. exact B2.
        + intros Hb. apply Hnb in Hb. unfold X in Hb. lra.
        + rewrite tz_base, wdz_base, pure_bonding_spec, sqrt_eps_R. intros C. apply B3. rewrite C. lra.
    Qed.
    (** the whole profile: every grid point is evaluated, and each result carries the derivatives
        at its own grid point *)
    Theorem C41_pure_fmt_association v profile :
      (forall wd, In wd profile -> fmt_regular (map fst wd) v) ->
      (p_nassoc p <> 0%nat -> forall wd, In wd profile -> bonding_regular (map fst wd)) ->
      exists fs rs,
        near (dual n) (fun z => phi_pure_fmt_assoc v p (tz z) (map (fun wd => wdz wd z) profile) = Value (Ok (map (fun f => f z) fs))) /\
        phi_pure_fmt_assoc v q td (map wdd profile) = Value (Ok rs) /\ Forall2 (represents n) fs rs.
    Proof.
      intros H1 H2.
      assert (E : exists fs rs,
        (forall z, collect_opt (map (fun w => match pure_phi_fmt v p (tz z) w with
              | None => None
              | Some phi => Some (if Nat.eqb (p_nassoc p) 1 then @nadd RNum phi (pure_phi_assoc p (tz z) w) else phi)
              end) (map (fun wd => wdz wd z) profile)) = Some (map (fun f => f z) fs)) /\
        collect_opt (map (fun w => match pure_phi_fmt v q td w with
              | None => None
              | Some phi => Some (if Nat.eqb (p_nassoc q) 1 then nadd phi (pure_phi_assoc q td w) else phi)
              end) (map wdd profile)) = Some rs /\ Forall2 (represents n) fs rs).
      { induction profile as [ | wd l IH].
        - exists [], []. repeat split; constructor.
        - destruct IH as (fs & rs & A & B & C); [intros; apply H1; right; auto | intros; apply H2; auto; right; auto | ].
          destruct (pure_point v wd) as (f & r & F1 & F2 & F3); [apply H1; left; auto | intros; apply H2; auto; left; auto | ].
          exists (f :: fs), (r :: rs). split; [ | split].
          + intros z. cbn [map collect_opt]. rewrite F1, A. reflexivity.
          + cbn [map collect_opt]. rewrite F2, B. reflexivity.
          + constructor; [apply rel_represents; exact F3 | exact C]. }
      destruct E as (fs & rs & A & B & C). exists fs, rs. split; [ | split; auto].
      - eapply near_imp; [ | apply (near_all2 n profile (fun wd z => @ix RNum (wdz wd z) 1 < 1))].
        + intros z Hz. unfold phi_pure_fmt_assoc. rewrite A.
          replace (existsb _ _) with false; auto. symmetry. apply Bool.not_true_iff_false. intros Ex. apply existsb_exists in Ex.
          destruct Ex as (w & Iw & Lw). apply in_map_iff in Iw. destruct Iw as (wd & <- & Iw). apply Hz in Iw.
          change (@nltb RNum) with Rltb in Lw. apply Rltb_true in Lw. unfold n1 in Lw. rn_in Lw. lra.
        + intros wd Iw. apply (rel_lt (dual n) _ _ 1 (w_ix n _ _ (wdz_rel wd) 1%nat)). rewrite wdz_ix. apply (H1 wd Iw).
      - unfold phi_pure_fmt_assoc. rewrite B.
        replace (existsb _ _) with false; auto. symmetry. apply Bool.not_true_iff_false. intros Ex. apply existsb_exists in Ex.
        destruct Ex as (w & Iw & Lw). apply in_map_iff in Iw. destruct Iw as (wd & <- & Iw).
        rewrite (tr_ltb _ _ (TRn n) _ _ _ _ (tr_n1 (TRn n)) (w_ix n _ _ (wdz_rel wd) 1%nat)) in Lw. cbv beta in Lw. rewrite wdz_ix in Lw.
        change (@nltb RNum) with Rltb in Lw. apply Rltb_true in Lw. destruct (H1 wd Iw) as (R3 & _). unfold n1 in Lw. rn_in Lw. lra.
    Qed.
  End PureTheorems.

  (* ------------------------------------------------------------ empty grid points *)
  (** C42.  A grid point without any molecules: all weighted densities are zero (the directions
      are arbitrary).  The averaged density of the chain term then has a kink; the code takes the
      derivatives from the side of positive densities. *)
  Definition empty_point (wd : list (R * list R)) : Prop := forall md, In md wd -> fst md = 0.
  Lemma empty_nth wd i : empty_point wd -> nth i (map fst wd) 0 = 0.
  Proof.
    intros H. destruct (Nat.lt_ge_cases i (length wd)) as [C | C].
    - rewrite (nth_indep _ 0 (fst (0, @nil R))) by (rewrite map_length; exact C). rewrite map_nth. apply H. apply nth_In. exact C.
    - apply nth_overflow. rewrite map_length. exact C.
  Qed.
  Lemma empty_vec wd : empty_point wd -> rsum (skipn 2 (map fst wd)) (fun x => x ^ 2) = 0.
  Proof.
    intros H. apply rsum_zero. intros x Hx. replace x with 0; [ring | ].
    assert (Hin : In x (map fst wd)) by (rewrite <- (firstn_skipn 2 (map fst wd)); apply in_or_app; right; exact Hx).
    apply in_map_iff in Hin. destruct Hin as (md & <- & I). symmetry. exact (H md I).
  Qed.
  Theorem C42_chain wd : length wd = (2 * c + 2)%nat -> empty_point wd ->
    exists f, represents n f (phi_chain q td (wdd wd)) /\
      forall z, (forall i, (i < c)%nat -> 0 <= nth (c + i) (wdz wd z) 0) -> f z = phi_chain p (tz z) (wdz wd z).
  Proof.
    intros L H.
    assert (Em : Nat.div (length (wdd wd) - 2) 2 = c).
    { rewrite wdd_len, L. replace (2 * c + 2 - 2)%nat with (c * 2)%nat by lia. apply Nat.div_mul. lia. }
    pose proof (T_chain_gen p W Hph n tz td (wdz wd) (wdd wd) Tt (wdz_rel wd) Ht0) as T. rewrite Em in T.
    specialize (T (Nat.le_refl _) (fun i => lam_branch n (fun x => @ix RNum (wdz wd x) (c + i)))).
    exists (chain_gen p n tz (wdz wd) c (fun i => lam_branch n (fun x => @ix RNum (wdz wd x) (c + i)))). split.
    - apply rel_represents. apply T.
      + intros i Hi. split; [apply T_lam; apply (w_ix n _ _ (wdz_rel wd)) | apply lam_pos].
      + rewrite wdz_ix, empty_nth by auto. lra.
      + rewrite wdz_ix, empty_nth by auto. lra.
    - intros z Hz. rewrite (chain_plain p n tz (wdz wd) (wdd wd) (wdz_rel wd) z). rewrite Em.
      unfold chain_gen. f_equal. unfold mk1. apply map_ext_in. intros i Hi. apply seq_in in Hi.
      rewrite lam_nonneg; [reflexivity | rewrite wdz_ix, empty_nth by auto; lra | apply Hz; exact Hi].
  Qed.
  (** dispersion, and the second order of the polar terms *)
  Definition att_second (tt : R) (w : list R) : R := let rho := fun i => nth i w 0 in
    phi_att_disp p tt w + ((if Nat.ltb 0 (p_ndipole p) then dd2 X tt rho else 0)
      + (if Nat.ltb 0 (p_nquadpole p) then qq2_dft X tt rho else 0)
      + (if Nat.ltb 0 (p_ndipole p) && Nat.ltb 0 (p_nquadpole p) then dq2 X tt rho 3 5 else 0)).
  Lemma orders_empty (w : list R) : (forall i, nth i w 0 = 0) ->
    let rho := fun i => nth i w 0 in
    dd2 X t rho = 0 /\ dd3 X t rho = 0 /\ qq2_dft X t rho = 0 /\ qq3 X t rho = 0 /\ dq2 X t rho 3 5 = 0 /\ dq3 X t rho = 0.
  Proof.
    intros H. cbv zeta. unfold dd2, dd3, qq2_dft, qq3, dq2, dq3.
    repeat split; apply Rmult_eq_0_compat_l; apply rsum_zero; intros i _; repeat (apply rsum_zero; intros ? _);
      rewrite (H i); unfold Rdiv; rewrite ?Rmult_0_l, ?Rmult_0_r, ?Rmult_0_l; reflexivity.
  Qed.
  Theorem C42_attraction wd : length wd = c -> empty_point wd ->
    represents n (fun z => att_second (tz z) (wdz wd z)) (phi_att q td (wdd wd)).
  Proof.
    intros L H. apply rel_represents. pose proof (wdz_rel wd) as Tw.
    assert (Hz : forall i, nth i (map fst wd) 0 = 0) by (intros; apply empty_nth; auto).
    destruct (orders_empty (map fst wd) Hz) as (Z1 & Z2 & Z3 & Z4 & Z5 & Z6).
    destruct (polar_orders t (map fst wd)) as (O1 & O2 & O3 & O4 & O5 & O6).
    rewrite Z1 in O1. rewrite Z2 in O2. rewrite Z3 in O3. rewrite Z4 in O4. rewrite Z5 in O5. rewrite Z6 in O6.
    assert (E0 : att_eta p (tz zn) (wdz wd zn) < 1).
    { rewrite tz_base, wdz_base, att_eta_gen. unfold Eta, Zeta. rewrite rsum_zero; [lra | ]. intros i _. rewrite Hz. ring. }
    assert (Hr0 : forall i, (i < length (p_m p))%nat -> 0 <= @ix RNum (wdz wd zn) i) by (intros i Hi; rewrite wdz_ix, Hz; lra).
    assert (Hs0 : total_density p (wdz wd zn) <> @f_eps RNum).
    { rewrite wdz_base. unfold total_density. rewrite rsum_zero; [pose proof f_eps_p; lra | ]. intros i _. apply Hz. }
    apply (rel_eq (TRn n) (fun z => @nadd RNum (phi_att_disp p (tz z) (wdz wd z)) (polar_branch p n tz (wdz wd) z))).
    - intros z. unfold att_second, polar_branch. cbv zeta.
      destruct (polar_orders (tz z) (wdz wd z)) as (P1 & _ & P3 & _ & P5 & _).
      rewrite !pade_branch_same.
      2: { unfold dq2_, dq3_. rewrite tz_base, wdz_base, O5, O6. reflexivity. }
      2: { unfold qq2_, qq3_. rewrite tz_base, wdz_base, O3, O4. reflexivity. }
      2: { unfold dd2_, dd3_. rewrite tz_base, wdz_base, O1, O2. reflexivity. }
      unfold dd2_, qq2_, dq2_. rewrite P1, P3, P5. rewrite nsum_R. rn. f_equal.
      destruct (Nat.ltb 0 (p_ndipole p)), (Nat.ltb 0 (p_nquadpole p)); cbn [andb app rsum]; ring.
    - apply (tr_add _ _ (TRn n)).
      + apply (T_att_disp p W Hph n tz td (wdz wd) (wdd wd)); auto.
      + apply (T_polar p W Hph n tz td (wdz wd) (wdd wd)); auto.
        * rewrite wdd_len, L. apply Nat.div_le_upper_bound; unfold c; lia.
        * intros _ _. unfold dd2_. rewrite tz_base, wdz_base. exact O1.
        * intros _ _. unfold qq2_. rewrite tz_base, wdz_base. exact O3.
        * intros _ _ _. unfold dq2_. rewrite tz_base, wdz_base. exact O5.
  Qed.
  (** the association term vanishes there like the density: it is regular *)
  Theorem C42_association wd a dim lu k tol :
    p_assoc_comp p = [a] -> assoc_phys p -> 0 < Na X a -> (0 < Nb X a -> Na X a + Nb X a <= 2 ^ 26) ->
    length wd = (c * (dim + 1) + 1)%nat -> empty_point wd ->
    exists f r, (forall z, phi_assoc lu k tol p (tz z) [wdz wd z] = Ok [f z]) /\
      (forall lu' k' tol', phi_assoc lu' k' tol' q td [wdd wd] = Ok [r]) /\ represents n f r.
  Proof.
    intros Ha Hap Hna Hnb L H. assert (Hz : forall i, nth i (map fst wd) 0 = 0) by (intros; apply empty_nth; auto).
    assert (Er : rho_eff a dim (map fst wd) = 0).
    { unfold rho_eff. rewrite Hz. rewrite (proj2 (Rltb_true _ _)) by lra. reflexivity. }
    assert (P9 : 0 < / 10 ^ 9) by (apply Rinv_0_lt_compat; apply pow_lt; lra).
    apply (C41_association wd a dim lu k tol); auto.
    - intros i Hi. rewrite Hz. lra.
    - rewrite Hz. lra.
    - rewrite Hz. lra.
    - rewrite rsum_zero; [lra | ]. intros i _. apply Hz.
    - rewrite Er. lra.
    - unfold xi_all. rewrite (rsum_zero _ (fun i => nth i (map fst wd) 0)) by (intros; apply Hz).
      rewrite (proj2 (Rltb_true _ _)) by lra. lra.
    - unfold bonding. rewrite Er, Rmult_0_r. intros C. assert (0 < / 2 ^ 26) by (apply Rinv_0_lt_compat; apply pow_lt; lra). lra.
  Qed.
  Theorem C42_pure_fmt_association profile : c = 1%nat ->
    ((p_nassoc p <> 0)%nat -> assoc_phys p /\ 0 < Na X 0 /\ (0 < Nb X 0 -> Na X 0 + Nb X 0 <= 2 ^ 26)) ->
    (forall wd, In wd profile -> empty_point wd) ->
    exists fs rs,
      near (dual n) (fun z => phi_pure_fmt_assoc WhiteBear p (tz z) (map (fun wd => wdz wd z) profile) = Value (Ok (map (fun f => f z) fs))) /\
      phi_pure_fmt_assoc WhiteBear q td (map wdd profile) = Value (Ok rs) /\ Forall2 (represents n) fs rs.
  Proof.
    intros Hone Hap H. assert (P5 : 0 < / 10 ^ 5) by (apply Rinv_0_lt_compat; apply pow_lt; lra).
    assert (P9 : 0 < / 10 ^ 9) by (apply Rinv_0_lt_compat; apply pow_lt; lra).
    assert (L0 : (0 < length (p_m p))%nat) by (fold c; lia).
    assert (Hs : 0 < surface 0).
    { unfold surface. assert (Hm : 0 < M X 0) by exact (proj1 (Hph 0%nat L0)). pose proof PI_RGT_0.
      pose proof (hs_p p W Hph n tz Ht0 0%nat L0) as Hd. rewrite tz_base, (hs_spec0 Hone) in Hd.
      apply Rmult_lt_0_compat; [apply Rmult_lt_0_compat; auto | apply pow_lt; auto]. }
    apply (C41_pure_fmt_association Hone Hap).
    - intros wd Iw. specialize (H wd Iw). unfold fmt_regular. rewrite !empty_nth by auto. repeat split; auto; lra.
    - intros _ wd Iw. specialize (H wd Iw). unfold bonding_regular, pure_bonding, pure_contact, pure_xi, vec2. cbv zeta. rewrite !empty_nth by auto.
      assert (0 < / 10 ^ 9 * surface 0) by (apply Rmult_lt_0_compat; auto).
      assert (0 < / 1000000000 * surface 0) by (apply Rmult_lt_0_compat; lra).
      rewrite (proj2 (Rltb_true _ _)) by auto. repeat split; lra.
  Qed.
  Theorem C42_pure_chain wd : empty_point wd ->
    exists f, represents n f (phi_pure_chain q (wdd wd)) /\
      forall z, 0 <= nth 1 (wdz wd z) 0 -> f z = phi_pure_chain p (wdz wd z).
  Proof.
    intros H. pose proof (wdz_rel wd) as Tw.
    exists (pure_chain_gen p n (wdz wd) (lam_branch n (fun x => @ix RNum (wdz wd x) 1))). split.
    - apply rel_represents. apply (T_pure_chain_gen p n (wdz wd) (wdd wd) Tw).
      + apply T_lam. apply (w_ix n _ _ Tw).
      + apply lam_pos.
      + rewrite wdz_ix, empty_nth by auto. lra.
    - intros z Hz. rewrite (pure_chain_plain p n (wdz wd) z). unfold pure_chain_gen.
      rewrite lam_nonneg; [reflexivity | rewrite wdz_ix, empty_nth by auto; lra | exact Hz].
  Qed.
  Theorem C42_pure_attraction wd : c = 1%nat -> empty_point wd ->
    represents n (fun z => phi_pure_disp p (tz z) (nth 0 (wdz wd z) 0)
        + (if Nat.ltb 0 (p_ndipole p) then @pdd2 RNum p (tz z) (nth 0 (wdz wd z) 0) else 0)
        + (if Nat.ltb 0 (p_nquadpole p) then @pqq2 RNum p (tz z) (nth 0 (wdz wd z) 0) else 0)) (phi_pure_att q td (wdd wd)).
  Proof.
    intros Hone H. apply rel_represents. pose proof (wdz_rel wd) as Tw.
    assert (O : @pdd2 RNum p t 0 = 0 /\ @pdd3 RNum p t 0 = 0 /\ @pqq2 RNum p t 0 = 0 /\ @pqq3 RNum p t 0 = 0).
    { unfold pdd2, pdd3, pqq2, pqq3. rn. rewrite !Rmult_0_l, Ropp_0, !Rmult_0_l. auto. }
    destruct O as (O1 & O2 & O3 & O4).
    apply (rel_eq (TRn n) (pure_att_branch p n tz (wdz wd))).
    - intros z. unfold pure_att_branch. cbv zeta. rewrite !pade_branch_same.
      2: { rewrite tz_base, wdz_ix, empty_nth, O3, O4 by auto. reflexivity. }
      2: { rewrite tz_base, wdz_ix, empty_nth, O1, O2 by auto. reflexivity. }
      change (@ix RNum (wdz wd z) 0) with (nth 0 (wdz wd z) 0).
      destruct (Nat.ltb 0 (p_ndipole p)), (Nat.ltb 0 (p_nquadpole p)); rn; apply Rminus_diag_uniq; ring.
    - apply (T_pure_att p W Hph Hone n tz td (wdz wd) (wdd wd) Tt Tw Ht0).
      + rewrite wdz_ix, empty_nth by auto. lra.
      + rewrite tz_base, wdz_ix, empty_nth by auto. unfold pure_eta. rn. rewrite !Rmult_0_l. lra.
      + intros _ _. rewrite tz_base, wdz_ix, empty_nth by auto. exact O1.
      + intros _ _. rewrite tz_base, wdz_ix, empty_nth by auto. exact O3.
  Qed.
End C41.

(** C42 fails for the antisymmetrised version of the specialised functional: at an empty grid point
    it divides zero by zero, and the Helmholtz energy density itself is not a number, for every
    component and temperature and any number of directions. *)
Lemma xadd_nan a : xadd a NaN = NaN.
Proof. destruct a; reflexivity. Qed.
Lemma empty_dot l : (forall a, In a l -> a = Fin 0) -> @ndot XNum l l = Fin 0.
Proof.
  intros H. unfold ndot, nsum. assert (E : forall l a, (forall a, In a l -> a = Fin 0) -> a = Fin 0 -> fold_left (@nadd XNum) (@nmul1 XNum l l) a = Fin 0).
  { clear. intros l. unfold nmul1. induction l as [ | x l IH]; intros a H ->; [reflexivity | ].
    cbn [combine map fold_left]. apply IH; [intros; apply H; right; auto | ]. rewrite (H x (or_introl eq_refl)).
    cbn. f_equal. ring. }
  apply E; auto.
Qed.
Lemma antisymmetric_nan p : wfp p -> phys p -> length (p_m p) = 1%nat -> forall t, 0 < t -> forall dim,
    @phi_pure_fmt_assoc XNum AntiSymWhiteBear (@plift XNum Fin p) (Fin t) [repeat (Fin 0) (2 + dim)] = Value (Ok [NaN]).
Proof.
  intros W Hph Hone t Ht dim. set (wd := repeat (Fin 0) (2 + dim)).
  assert (H0 : @ix XNum wd 0 = Fin 0) by reflexivity. assert (H1 : @ix XNum wd 1 = Fin 0) by reflexivity.
  assert (Hv : @ndot XNum (@skipn (car XNum) 2 wd) (@skipn (car XNum) 2 wd) = Fin 0).
  { apply empty_dot. intros a Ha. change (@skipn (car XNum) 2 wd) with (repeat (Fin 0) dim) in Ha. apply repeat_spec in Ha. exact Ha. }
  assert (Hd : exists A B, @pure_phi_fmt XNum AntiSymWhiteBear (@plift XNum Fin p) (Fin t) wd = Some (xadd A (xmul (xmul (xmul NaN (Fin 0)) B) (@fmt_f3 XNum (Fin 0))))).
  { unfold pure_phi_fmt. cbv zeta. rewrite H0, H1. unfold pure_fmt_scalars. cbv zeta. rewrite Hv.
    assert (E : @ndiv XNum (Fin 0) (@npowi XNum (Fin 0) 2) = NaN).
    { cbn [ndiv npowi XNum]. rewrite xpowi_fin. unfold xdiv. destruct (Req_EM_T (0 ^ 2) 0) as [_ | C]; [apply sgn_inf_0 | exfalso; apply C; ring]. }
    rewrite E. eexists. exists (@pi36m1 XNum). reflexivity. }
  destruct Hd as (A & B & Hd). unfold phi_pure_fmt_assoc. cbn [map existsb collect_opt]. rewrite Hd, H1.
  replace (@nltb XNum n1 (Fin 0)) with false.
  2: { symmetry. unfold n1. cbn. apply Rltb_false. unfold Rlit. cbn. lra. }
  cbn [orb xmul]. rewrite xadd_nan. destruct (Nat.eqb _ _); reflexivity.
Qed.
Theorem C42_antisymmetric_refuted : exists prs bin p, from_records prs bin = Some p /\ phys p /\ length (p_m p) = 1%nat /\
  forall t, 0 < t -> forall dim,
    @phi_pure_fmt_assoc XNum AntiSymWhiteBear (@plift XNum Fin p) (Fin t) [repeat (Fin 0) (2 + dim)] = Value (Ok [NaN]).
Proof.
  exists [pr_argon], (zeros 1), argon.
  split; [exact argon_ok | split; [exact argon_phys | split; [reflexivity | ]]].
  apply antisymmetric_nan; [exact (wfp_from_records _ _ _ argon_ok) | exact argon_phys | reflexivity].
Qed.

From Interval Require Import Tactic.
From Coq Require Import FunctionalExtensionality.
From Verif Require Import P_Finite2 P_Dual2 P_Split P_Conform.
(* ------------------------------------------------------------------------ concrete cases *)
(** the values [w] with arbitrary directions *)
Definition point (w : list R) (d : nat -> list R) : list (R * list R) := map (fun i => (nth i w 0, d i)) (seq 0 (length w)).
Lemma point_len w d : length (point w d) = length w.
Proof. unfold point. rewrite map_length, seq_length. reflexivity. Qed.
Lemma point_fst w d : map fst (point w d) = w.
Proof.
  unfold point. rewrite map_map. cbn [fst]. clear d. induction w as [ | x w IH]; auto.
  cbn [length seq map nth]. f_equal. rewrite <- seq_shift, map_map. exact IH.
Qed.
Lemma point_empty d m : empty_point (point (repeat 0 m) d).
Proof. intros md H. unfold point in H. apply in_map_iff in H. destruct H as (i & <- & _). cbn [fst]. apply nth_repeat. Qed.

(** an interface of a mixture of three components, and an empty grid point *)
Example C41_chain_case n dt d :
  represents n (fun z => phi_chain sample (aff n 350 dt z) (wdz n (point [0.001; 0.002; 0.003; 0.0011; 0.0019; 0.0032; 0.02; 0.25] d) z))
    (phi_chain (plift (emb (TRn n)) sample) (seed n 350 dt) (wdd n (point [0.001; 0.002; 0.003; 0.0011; 0.0019; 0.0032; 0.02; 0.25] d))).
Proof.
  apply (C41_chain _ _ _ sample_ok sample_phys n 350 dt ltac:(lra)); rewrite ?point_len, ?point_fst; try reflexivity.
  - intros i Hi. change (length (p_m sample)) with 3%nat in *. destruct i as [ | [ | [ | i]]]; cbn; try lra; lia.
  - change (length (p_m sample)) with 3%nat. cbn. lra.
  - change (length (p_m sample)) with 3%nat. cbn. lra.
Qed.
Example C42_chain_case n dt d : exists f,
  represents n f (phi_chain (plift (emb (TRn n)) sample) (seed n 350 dt) (wdd n (point (repeat 0 8) d))) /\
  forall z, (forall i, (i < 3)%nat -> 0 <= nth (3 + i) (wdz n (point (repeat 0 8) d) z) 0) ->
    f z = phi_chain sample (aff n 350 dt z) (wdz n (point (repeat 0 8) d) z).
Proof.
  apply (C42_chain _ _ _ sample_ok sample_phys n 350 dt ltac:(lra)); [rewrite point_len; reflexivity | apply point_empty].
Qed.

(** a dense mixture with dipoles, quadrupoles and both *)
Definition sample_rho : list R := [1 / 260; 2 / 260; 3 / 260].
Lemma sample_rho_fun : (fun i => nth i sample_rho 0) = (fun i => nth i [1; 2; 3] 0 / 260).
Proof. apply functional_extensionality. intros i. destruct i as [ | [ | [ | [ | i]]]]; cbn; lra. Qed.
Lemma sample_one_quad (rho : nat -> R) : qq2_dft (mix_of sample) 350 rho = qq2_code (mix_of sample) 350 rho.
Proof.
  assert (Z : forall i, (i < 3)%nat -> i <> 1%nat -> Qu2 (mix_of sample) i = 0).
  { intros i Hi Ni. destruct i as [ | [ | [ | i]]]; try lia.
    - change (@q2_of RNum 0 2.2634 3.2723 210.29 = 0). unfold q2_of. rn. unfold Rdiv. ring.
    - change (@q2_of RNum 0 1.065587 3.000683 366.5121 = 0). unfold q2_of. rn. unfold Rdiv. ring. }
  unfold qq2_dft, qq2_code. f_equal. change (N (mix_of sample)) with 3%nat. apply Sum_ext. intros i Hi. apply Sum_ext. intros j Hj.
  destruct (Nat.eq_dec i 1) as [-> | Ni]; [ | rewrite (Z i Hi Ni); ring].
  destruct (Nat.eq_dec j 1) as [-> | Nj]; [cbn [Nat.eqb Nat.min]; replace (Sij (mix_of sample) 1 1) with (Sg (mix_of sample) 1) by (unfold Sij; field); ring | rewrite (Z j Hj Nj); ring].
Qed.
Example C41_attraction_case n dt d :
  represents n (fun z => phi_att sample (aff n 350 dt z) (wdz n (point sample_rho d) z))
    (phi_att (plift (emb (TRn n)) sample) (seed n 350 dt) (wdd n (point sample_rho d))).
Proof.
  destruct (sample_regular default_options) as (H1 & H2 & H3 & _). pose proof sample_eta as He.
  apply (C41_attraction _ _ _ sample_ok sample_phys n 350 dt ltac:(lra)); rewrite ?point_len, ?point_fst, ?sample_rho_fun; auto.
  - intros i Hi. change (length (p_m sample)) with 3%nat in *. destruct i as [ | [ | [ | i]]]; cbn; try lra; lia.
  - unfold Rho. change (N (mix_of sample)) with 3%nat. cbn [rsum seq nth]. unfold f_eps. rn. lits. lra.
  - lra.
  - rewrite sample_one_quad. exact H2.
Qed.
Example C42_attraction_case n dt d :
  represents n (fun z => att_second sample (aff n 350 dt z) (wdz n (point (repeat 0 3) d) z))
    (phi_att (plift (emb (TRn n)) sample) (seed n 350 dt) (wdd n (point (repeat 0 3) d))).
Proof. apply (C42_attraction _ _ _ sample_ok sample_phys n 350 dt ltac:(lra)); [reflexivity | apply point_empty]. Qed.
(** one vector direction; the third component associates *)
Definition sample_bonds : list R := [0.001; 0.002; 0.003; 0.001; -0.001; 0.002; 0.2].
Lemma sample_assoc : assoc_phys sample /\ 0 < Na (mix_of sample) 2 /\ (0 < Nb (mix_of sample) 2 -> Na (mix_of sample) 2 + Nb (mix_of sample) 2 <= 2 ^ 26).
Proof.
  split; [ | cbn; lra]. intros i Hi. cbn in Hi. destruct i as [ | [ | [ | i]]]; try lia; cbn; repeat split; lra.
Qed.
Lemma sample_surfaces : 0.05 <= n2_all sample 350 sample_bonds /\ 0.02 <= 0.003 * surface sample 350 2.
Proof.
  unfold n2_all, surface, sample_bonds. change (length (p_m sample)) with 3%nat. cbn [rsum seq nth]. unfold Di.
  change (M (mix_of sample) 0) with (2.2634). change (M (mix_of sample) 1) with (1.5131). change (M (mix_of sample) 2) with (1.065587).
  change (Sg (mix_of sample) 0) with (3.2723). change (Sg (mix_of sample) 1) with (3.1869). change (Sg (mix_of sample) 2) with (3.000683).
  change (Ep (mix_of sample) 0) with (210.29). change (Ep (mix_of sample) 1) with (163.333). change (Ep (mix_of sample) 2) with (366.5121).
  split; interval.
Qed.
Lemma sample_factors : 0.9 <= xi_all sample 350 1 sample_bonds /\ 0.001 <= rho_eff sample 350 2 1 sample_bonds.
Proof.
  destruct sample_surfaces as [H1 H2]. unfold xi_all, rho_eff. change (length (p_m sample)) with 3%nat.
  set (s := surface sample 350 2) in *. set (n2 := n2_all sample 350 sample_bonds) in *. clearbody s n2.
  unfold sample_bonds. cbn [rsum seq nth Nat.mul Nat.add].
  rewrite !(proj2 (Rltb_false _ _)) by lra.
  split.
  - assert (0.0025 <= n2 ^ 2) by nra. assert (/ n2 ^ 2 <= / 0.0025) by (apply Rinv_le_contravar; lra). unfold Rdiv. set (u := / n2 ^ 2) in *. clearbody u.
    assert (0 <= u \/ u < 0) as [P | P] by lra; nra.
  - assert (0.0004 <= (0.003 * s) ^ 2) by nra. assert (/ (0.003 * s) ^ 2 <= / 0.0004) by (apply Rinv_le_contravar; lra). unfold Rdiv. set (u := / (0.003 * s) ^ 2) in *. clearbody u.
    assert (0 <= u \/ u < 0) as [P | P] by lra; nra.
Qed.
Lemma sample_bonding : 0.01 <= bonding sample 350 2 1 sample_bonds.
Proof.
  destruct sample_factors as [H1 H2]. destruct sample_surfaces as [H3 _].
  unfold bonding, contact. cbv zeta. change (length (p_m sample)) with 3%nat.
  set (x := xi_all sample 350 1 sample_bonds) in *. set (n2 := n2_all sample 350 sample_bonds) in *. set (r := rho_eff _ _ _ _ _) in *. clearbody x n2 r.
  assert (Kz : @ix RNum (p_kappa_ab sample) 2 <> 0) by (change (0.034867983 <> 0); lra).
  assert (L2 : (2 < length (p_m sample))%nat) by (cbn; lia). pose proof (wfp_from_records _ _ _ sample_ok) as W.
  rewrite (w_eab _ W 2%nat 2%nat L2 L2 Kz Kz), (w_kap _ W 2%nat 2%nat L2 L2). clear Kz L2 W.
  change (@ix RNum (p_kappa_ab sample) 2) with (0.034867983). change (@ix RNum (p_sigma sample) 2) with (3.000683).
  change (@ix RNum (p_epsilon_k_ab sample) 2) with (2500.6706). change (Sg (mix_of sample) 2) with (3.000683).
  rewrite !sqrt_square by lra. replace (2 * 3.000683 / (3.000683 + 3.000683)) with 1 by (field; lra). rewrite Rpowf3, pow1 by lra.
  cbn [nth sample_bonds Nat.mul Nat.add].
  assert (Dp : 0 <= Di (mix_of sample) 350 2).
  { unfold Di. change (Sg (mix_of sample) 2) with (3.000683). change (Ep (mix_of sample) 2) with (366.5121). interval. }
  set (dd := Di (mix_of sample) 350 2) in *. clearbody dd.
  assert (He : 1000 <= exp ((2500.6706 + 2500.6706) / 2 / 350) - 1) by interval.
  set (e := exp _ - 1) in *. clearbody e.
  assert (Hk : 0 <= n2 / (1 - 0.2) * (dd / 2)).
  { apply Rmult_le_pos; [apply Rmult_le_pos | ]; lra. }
  set (kk := n2 / (1 - 0.2) * (dd / 2)) in *. clearbody kk.
  assert (Hc : 1 <= (1 + (kk / 18 + 1 / 2) * kk * x) / (1 - 0.2)).
  { assert (0 <= (kk / 18 + 1 / 2) * kk * x) by (repeat apply Rmult_le_pos; lra). lra. }
  set (cc := (1 + (kk / 18 + 1 / 2) * kk * x) / (1 - 0.2)) in *. clearbody cc.
  assert (1000 <= cc * e) by nra. set (ce := cc * e) in *. clearbody ce.
  assert (He' : 0.5 <= 3.000683 ^ 3 * (0.034867983 * 1)) by interval. set (kp := 3.000683 ^ 3 * _) in *. clearbody kp.
  assert (500 <= ce * kp) by nra. nra.
Qed.
Example C41_association_case n dt d lu k tol : exists f r,
  (forall z, phi_assoc lu k tol sample (aff n 350 dt z) [wdz n (point sample_bonds d) z] = Ok [f z]) /\ (forall lu' k' tol', phi_assoc lu' k' tol' (plift (emb (TRn n)) sample) (seed n 350 dt) [wdd n (point sample_bonds d)] = Ok [r]) /\ represents n f r.
Proof.
  destruct sample_assoc as (A1 & A2 & A3). destruct sample_factors as [F1 F2]. pose proof sample_bonding as B.
  destruct C17_case as (_ & _ & E).
  apply (C41_association _ _ _ sample_ok sample_phys n 350 dt ltac:(lra) _ 2 1); rewrite ?point_len, ?point_fst; auto.
  - intros i Hi. change (length (p_m sample)) with 3%nat in *. destruct i as [ | [ | [ | i]]]; cbn; try lra; lia.
  - cbn. lra.
  - cbn. lra.
  - change (length (p_m sample)) with 3%nat. cbn [rsum seq nth sample_bonds]. lra.
  - lra.
  - lra.
  - lra.
Qed.
(** one component: water, [k] grid points with one vector direction *)
Definition w1_point : list R := [0.1; 0.2; 0.01].
Lemma w1_surface : 20 <= surface w1 350 0 <= 40.
Proof.
  unfold surface, Di. change (M (mix_of w1) 0) with (1.065587). change (Sg (mix_of w1) 0) with (3.000683).
  change (Ep (mix_of w1) 0) with (366.5121). split; interval.
Qed.
Lemma w1_xi : pure_xi w1 350 w1_point = 0.99.
Proof.
  pose proof w1_surface as H. unfold pure_xi, vec2, w1_point. cbn [nth skipn rsum]. rewrite (proj2 (Rltb_false _ _)) by lra. lra.
Qed.
Lemma w1_bonding : 0.01 <= pure_bonding w1 350 w1_point.
Proof.
  pose proof w1_surface as Hs. unfold pure_bonding, pure_contact. cbv zeta. rewrite w1_xi.
  assert (Kz : @ix RNum (p_kappa_ab w1) 0 <> 0) by (change (0.034867983 <> 0); lra).
  assert (L2 : (0 < length (p_m w1))%nat) by (cbn; lia). pose proof (wfp_from_records _ _ _ w1_ok) as W.
  rewrite (w_eab _ W 0%nat 0%nat L2 L2 Kz Kz), (w_kap _ W 0%nat 0%nat L2 L2). clear Kz L2 W.
  change (@ix RNum (p_kappa_ab w1) 0) with (0.034867983). change (@ix RNum (p_sigma w1) 0) with (3.000683).
  change (@ix RNum (p_epsilon_k_ab w1) 0) with (2500.6706). change (Sg (mix_of w1) 0) with (3.000683).
  rewrite !sqrt_square by lra. replace (2 * 3.000683 / (3.000683 + 3.000683)) with 1 by (field; lra). rewrite Rpowf3, pow1 by lra.
  cbn [nth w1_point]. set (a := surface w1 350 0) in *. clearbody a. unfold Di. change (Sg (mix_of w1) 0) with (3.000683). change (Ep (mix_of w1) 0) with (366.5121).
  interval.
Qed.
Example C41_pure_case n dt d v k : v = WhiteBear \/ v = AntiSymWhiteBear -> exists fs rs,
  near (dual n) (fun z => phi_pure_fmt_assoc v w1 (aff n 350 dt z) (map (fun wd => wdz n wd z) (repeat (point w1_point d) k)) = Value (Ok (map (fun f => f z) fs))) /\
  phi_pure_fmt_assoc v (plift (emb (TRn n)) w1) (seed n 350 dt) (map (wdd n) (repeat (point w1_point d) k)) = Value (Ok rs) /\
  Forall2 (represents n) fs rs.
Proof.
  intros Hv. pose proof w1_bonding as Hb. pose proof w1_surface as Hs.
  apply (C41_pure_fmt_association _ _ _ w1_ok w1_phys n 350 dt ltac:(lra) eq_refl).
  - intros _. split; [exact w1_assoc | cbn; lra].
  - intros wd H. apply repeat_spec in H. subst wd. rewrite point_fst. unfold fmt_regular, vec2, w1_point. cbn [nth skipn rsum].
    repeat split; try lra. destruct Hv as [-> | ->]; [left; reflexivity | right; repeat split; lra].
  - intros _ wd H. apply repeat_spec in H. subst wd. rewrite point_fst. unfold bonding_regular. rewrite w1_xi.
    cbn [nth w1_point]. repeat split; lra.
Qed.
Example C42_pure_case n dt d k : exists fs rs,
  near (dual n) (fun z => phi_pure_fmt_assoc WhiteBear w1 (aff n 350 dt z) (map (fun wd => wdz n wd z) (repeat (point (repeat 0 3) d) k)) = Value (Ok (map (fun f => f z) fs))) /\
  phi_pure_fmt_assoc WhiteBear (plift (emb (TRn n)) w1) (seed n 350 dt) (map (wdd n) (repeat (point (repeat 0 3) d) k)) = Value (Ok rs) /\
  Forall2 (represents n) fs rs.
Proof.
  apply (C42_pure_fmt_association _ _ _ w1_ok w1_phys n 350 dt ltac:(lra)); [reflexivity | | ].
  - intros _. split; [exact w1_assoc | cbn; lra].
  - intros wd H. apply repeat_spec in H. subst wd. apply point_empty.
Qed.
(** chain and attraction of dimethyl ether *)
Example C41_pure_chain_case n d :
  represents n (fun z => phi_pure_chain t_dme (wdz n (point [0.003; 0.0025; 0.2] d) z))
    (phi_pure_chain (plift (emb (TRn n)) t_dme) (wdd n (point [0.003; 0.0025; 0.2] d))).
Proof. apply C41_pure_chain; rewrite point_fst; cbn [nth]; lra. Qed.
Example C41_pure_attraction_case n dt d :
  represents n (fun z => phi_pure_att t_dme (aff n 350 dt z) (wdz n (point [1 / 1000] d) z))
    (phi_pure_att (plift (emb (TRn n)) t_dme) (seed n 350 dt) (wdd n (point [1 / 1000] d))).
Proof.
  assert (Ed : dd2 (mix_of t_dme) 350 (fun _ => 1 / 1000) = dd2 (mix_of t_dme) 350 (fun i => nth i [1] 0 / 1000)) by reflexivity.
  assert (Ed' : dd3 (mix_of t_dme) 350 (fun _ => 1 / 1000) = dd3 (mix_of t_dme) 350 (fun i => nth i [1] 0 / 1000)) by reflexivity.
  assert (Ee : Eta (mix_of t_dme) 350 (fun _ => 1 / 1000) = Eta (mix_of t_dme) 350 (fun i => nth i [1] 0 / 1000)) by reflexivity.
  assert (Hm : Mu2 (mix_of t_dme) 0 <> 0) by exact sample_mu.
  assert (Hq : p_nquadpole t_dme = 0%nat).
  { apply (no_quadrupole _ _ _ t_dme_ok); intros pr [<- | []]; [unfold physical_record; simpl; lra | reflexivity]. }
  assert (He : Eta (mix_of t_dme) 350 (fun i => nth i [1] 0 / 1000) <= 0.74).
  { unfold Eta, Zeta, Di. change (N (mix_of t_dme)) with 1%nat. cbn [rsum seq nth]. change (M (mix_of t_dme) 0) with (2.2634).
    change (Sg (mix_of t_dme) 0) with (3.2723). change (Ep (mix_of t_dme) 0) with (210.29). interval. }
  pose proof (C41_pure_attraction _ _ _ t_dme_ok t_dme_phys n 350 dt ltac:(lra) eq_refl (point [1 / 1000] d)) as H. cbv zeta in H.
  rewrite point_fst in H. cbn [nth] in H. apply H; clear H; try lra.
  - intros _. rewrite Ed, Ed'. apply (dd_neq _ _ _ t_dme_ok t_dme_phys _ _ _ t_dme_state).
    + intros i Hi _. cbn in Hi. assert (i = 0%nat) as -> by lia. split; cbn; lra.
    + lra.
    + exists 0%nat. split; [cbn; lia | split; [exact Hm | cbn; lra]].
  - intros C. exfalso. apply C, Hq.
Qed.
Example C42_pure_attraction_case n dt d :
  represents n (fun z => phi_pure_disp t_dme (aff n 350 dt z) (nth 0 (wdz n (point (repeat 0 1) d) z) 0)
      + (if Nat.ltb 0 (p_ndipole t_dme) then @pdd2 RNum t_dme (aff n 350 dt z) (nth 0 (wdz n (point (repeat 0 1) d) z) 0) else 0)
      + (if Nat.ltb 0 (p_nquadpole t_dme) then @pqq2 RNum t_dme (aff n 350 dt z) (nth 0 (wdz n (point (repeat 0 1) d) z) 0) else 0))
    (phi_pure_att (plift (emb (TRn n)) t_dme) (seed n 350 dt) (wdd n (point (repeat 0 1) d))).
Proof. apply (C42_pure_attraction _ _ _ t_dme_ok t_dme_phys n 350 dt ltac:(lra)); [reflexivity | apply point_empty]. Qed.

Print Assumptions C41_chain.
Print Assumptions C41_attraction.
Print Assumptions C41_association.
Print Assumptions C41_pure_fmt_association.
Print Assumptions C41_pure_chain.
Print Assumptions C41_pure_attraction.
Print Assumptions C42_chain.
Print Assumptions C42_attraction.
Print Assumptions C42_association.
Print Assumptions C42_pure_fmt_association.
Print Assumptions C42_pure_chain.
Print Assumptions C42_pure_attraction.
Print Assumptions C42_antisymmetric_refuted.
