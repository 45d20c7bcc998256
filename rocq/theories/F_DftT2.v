(** Transfer of the association functional (one associating component) and of the functionals of
    pure components. *)
From Coq Require Import ZArith QArith Reals Lra Lia List Bool.
From Coquelicot Require Import Coquelicot.
From Verif Require Import Num RNum RSum Tables M_Params F_Params M_Eos M_Dft Spec F_Spec F_SpecPolar F_SpecAssoc
  F_Contrib F_Cross F_Transfer F_TransferS XNum DNum F_Level P_Dual F_Virial F_DualRun F_Dft P_Dual3 F_DftT.
Import ListNotations.
Local Open Scope R_scope.
Set Bullet Behavior "Strict Subproofs".

(** the fractions of non-bonded sites are positive *)
Lemma frac_ab_ok (d na nb : R) : 0 <= d -> 0 < na -> 0 < nb -> na + nb <= 67108864 ->
  0 < @assoc_site_frac_ab RNum d na nb /\ 0 < (@assoc_site_frac_ab RNum d na nb - 1) * (na / nb) + 1.
Proof.
  intros Hd Ha Hb Hab. destruct (Rlt_or_le (/ 67108864) d) as [C | C].
  - rewrite assoc_site_frac_ab_above by auto. destruct (frac_ab_law d na nb) as ([? _] & [? _] & _); auto; lra.
  - destruct (Req_dec d 0) as [E | E].
    + rewrite E, assoc_site_frac_ab_below by lra. split; [lra | ].
      replace ((1 + 0 * nb * (0 * (nb + na) - 1) - 1) * (na / nb) + 1) with 1 by ring. lra.
    + rewrite assoc_site_frac_ab_below by auto.
      assert (d * (na + nb) <= 1).
      { apply Rle_trans with (/ 67108864 * 67108864); [ | lra]. apply Rmult_le_compat; lra. }
      destruct (frac_ab_expansion d na nb) as ([? _] & [? _] & _); auto; lra.
Qed.
Lemma frac_a_ok (d na : R) : 0 <= d -> 0 < na -> 0 < @assoc_site_frac_a RNum d na.
Proof.
  intros Hd Ha. destruct (Rlt_or_le (/ 67108864) d) as [C | C].
  - pose proof (assoc_site_frac_a_gt2 d na C Ha). lra.
  - unfold assoc_site_frac_a. rewrite sqrt_eps_R. rn. rewrite (proj2 (Rltb_false _ _)) by auto.
    generalize (d * na). intros y. pose proof (pow2_ge_0 (y - / 4)). nra.
Qed.

Lemma n0_cutoff_R : @n0_cutoff RNum = / 1000000000.
Proof. unfold n0_cutoff. rn. lits. lra. Qed.
Lemma n3_cutoff_R : @n3_cutoff RNum = / 100000.
Proof. unfold n3_cutoff. rn. lits. lra. Qed.
Lemma n0_cut : 0 < @n0_cutoff RNum.
Proof. rewrite n0_cutoff_R. lra. Qed.

Section Sites.
  Context {Pt : Type} {K : Num} {x0 : Pt} (TR : Transfer K x0).
  Notation rl := (rel TR).
  Variables (d : Pt -> R) (d2 : car K) (na nb : R) (na2 nb2 : car K).
  Hypothesis Td : rl d d2.
  Hypothesis Ta : rl (fun _ => na) na2.
  Hypothesis Tb : rl (fun _ => nb) nb2.
  Hypothesis Hd : 0 <= d x0.
  Hypothesis Ha : 0 < na.
  Hypothesis Hbr : brok TR (fun _ => @sqrt_eps RNum) d.
  Lemma T_xa : 0 < nb -> na + nb <= 67108864 ->
    rl (fun x => @f_assoc RNum (@assoc_site_frac_ab RNum (d x) na nb)) (f_assoc (assoc_site_frac_ab d2 na2 nb2)).
  Proof.
    intros Hb Hab. apply (tr_f_assoc TR (fun x => @assoc_site_frac_ab RNum (d x) na nb)).
    - apply (tr_frac_ab TR); auto.
    - apply frac_ab_ok; auto.
  Qed.
  Lemma T_xb : 0 < nb -> na + nb <= 67108864 ->
    rl (fun x => @f_assoc RNum (@nadd RNum (@nmul RNum (@nsub RNum (@assoc_site_frac_ab RNum (d x) na nb) (@nlit RNum 1%Q)) (@ndiv RNum na nb)) (@nlit RNum 1%Q)))
       (f_assoc (nadd (nmul (nsub (assoc_site_frac_ab d2 na2 nb2) (nlit 1%Q)) (ndiv na2 nb2)) (nlit 1%Q))).
  Proof.
    intros Hb Hab. pose proof (tr_frac_ab TR d d2 na nb na2 nb2 Td Ta Tb Hd Ha Hb Hbr) as Hx.
    apply (tr_f_assoc TR (fun x => @nadd RNum (@nmul RNum (@nsub RNum (@assoc_site_frac_ab RNum (d x) na nb) (@nlit RNum 1%Q)) (@ndiv RNum na nb)) (@nlit RNum 1%Q))).
    - tr TR. lra.
    - rn. apply (frac_ab_ok (d x0) na nb); auto.
  Qed.
  Lemma T_xb' : 0 < nb -> na + nb <= 67108864 ->
    rl (fun x => @f_assoc RNum (@nadd RNum (@ndiv RNum (@nmul RNum (@nsub RNum (@assoc_site_frac_ab RNum (d x) na nb) (@nlit RNum 1%Q)) na) nb) (@nlit RNum 1%Q)))
       (f_assoc (nadd (ndiv (nmul (nsub (assoc_site_frac_ab d2 na2 nb2) (nlit 1%Q)) na2) nb2) (nlit 1%Q))).
  Proof.
    intros Hb Hab. pose proof (tr_frac_ab TR d d2 na nb na2 nb2 Td Ta Tb Hd Ha Hb Hbr) as Hx.
    apply (tr_f_assoc TR (fun x => @nadd RNum (@ndiv RNum (@nmul RNum (@nsub RNum (@assoc_site_frac_ab RNum (d x) na nb) (@nlit RNum 1%Q)) na) nb) (@nlit RNum 1%Q))).
    - tr TR. lra.
    - rn. replace ((@assoc_site_frac_ab RNum (d x0) na nb - 1) * na / nb) with ((@assoc_site_frac_ab RNum (d x0) na nb - 1) * (na / nb)) by (field; lra).
      apply (frac_ab_ok (d x0) na nb); auto.
  Qed.
  Lemma T_xa1 : rl (fun x => @f_assoc RNum (@assoc_site_frac_a RNum (d x) na)) (f_assoc (assoc_site_frac_a d2 na2)).
  Proof.
    apply (tr_f_assoc TR (fun x => @assoc_site_frac_a RNum (d x) na)).
    - apply (tr_frac_a TR); auto.
    - apply frac_a_ok; auto.
  Qed.
End Sites.

(** dft/association.rs 131-135: association strength times density of one component *)
Definition da_drho {K : Num} (p : params K) (t : car K) (wd : list (car K)) : car K :=
  let a := ixn (p_assoc_comp p) 0 in
  let n3i := da_n3i p wd in
  let k := nmul (nmul (da_n2 p t wd) n3i) (ix (seg_radius p t) a) in
  nmul (nmul (nmul (nadd (nmul (nmul (nadd (ndiv k (nlit 18%Q)) (nlit 0.5%Q)) k) (da_xi p t wd)) (nlit 1%Q)) n3i)
    (nmul (nexpm1 (nmul (nrecip t) (ix2 (p_epsilon_k_aibj p) a a)))
          (nmul (npowi (ix (p_sigma p) a) 3) (ix2 (p_kappa_aibj p) a a)))) (ix (da_rho0 p t wd) a).

Section Assoc.
  Variable p : params RNum.
  Hypothesis W : wfp p.
  Hypothesis Hph : phys p.
  Variable k : nat.
  Let TR : Transfer (lK (dual k)) (lz (dual k)) := TRn k.
  Notation rl := (rel TR).
  Notation x0 := (lz (dual k)).
  Let q : params (lK (dual k)) := plift (emb TR) p.
  Let n := length (p_m p).
  Variables (t : pt k -> R) (t2 : car (lK (dual k))).
  Variables (wd : pt k -> list R) (wd2 : list (car (lK (dual k)))).
  Hypothesis Tt : rl t t2.
  Hypothesis Tw : lrel TR wd wd2.
  Hypothesis Ht : 0 < t x0.
  Let qlen : length (p_m q) = n := qlen p k.
  Let w_ix := w_ix k wd wd2 Tw.
  Let T_seg := T_seg p k t t2 Tt Ht.
  Let seg_p := seg_p p W Hph k t Ht.
  Variable a : nat.
  Hypothesis Ha : p_assoc_comp p = [a].
  Hypothesis Hap : assoc_phys p.
  Let na := Na (mix_of p) a.
  Let nb := Nb (mix_of p) a.
  Lemma aa_lt : (a < n)%nat.
  Proof. exact (assoc_lt p W a Ha). Qed.

  Lemma dim_x x : da_dim p (wd x) = da_dim q wd2.
  Proof. unfold da_dim. rewrite qlen. lenR. rewrite (w_len k wd wd2 Tw x). reflexivity. Qed.
  Lemma T_n3 : rl (fun x => da_n3 p (wd x)) (da_n3 q wd2).
  Proof.
    apply (rel_eq TR (fun x => @ix RNum (wd x) (length (p_m p) * (da_dim q wd2 + 1)))).
    - intros x. unfold da_n3. rewrite dim_x. reflexivity.
    - unfold da_n3. rewrite qlen. apply w_ix.
  Qed.
  Lemma T_n2i i : rl (fun x => da_n2i p (t x) (wd x) i) (da_n2i q t2 wd2 i).
  Proof. unfold da_n2i, da_n0i. pose proof T_seg. pose proof Tw. tr TR. Qed.
  Lemma T_n2 : rl (fun x => da_n2 p (t x) (wd x)) (da_n2 q t2 wd2).
  Proof. unfold da_n2. rewrite qlen. apply (tr_nsumi TR). intros i Hi. apply T_n2i. Qed.
  Lemma T_n2vi j i : rl (fun x => da_n2vi p (wd x) j i) (da_n2vi q wd2 j i).
  Proof. unfold da_n2vi. rewrite qlen. apply w_ix. Qed.
  Hypothesis Hn0 : forall i, (i < n)%nat -> 0 <= @ix RNum (wd x0) i.
  Lemma area_p i : (i < n)%nat -> 0 < @ix RNum (seg_radius p (t x0)) i ^ 2 * (@ix RNum (p_m p) i * 4 * PI).
  Proof.
    intros Hi. pose proof (seg_p i Hi). destruct (Hph i Hi) as (Hmm & _). pose proof PI_RGT_0.
    apply Rmult_lt_0_compat; [apply pow_lt; auto | ]. apply Rmult_lt_0_compat; [lra | auto].
  Qed.
  Lemma n2i_nonneg i : (i < n)%nat -> 0 <= da_n2i p (t x0) (wd x0) i.
  Proof. intros Hi. unfold da_n2i, da_n0i. pose proof (area_p i Hi). rn. apply Rmult_le_pos; [auto | lra]. Qed.
  Lemma n2_nonneg : 0 <= da_n2 p (t x0) (wd x0).
  Proof. unfold da_n2. rewrite nsumi_R. apply rsum_nonneg. intros i Hi. apply seq_in in Hi. apply n2i_nonneg; auto. Qed.
  (** away from the switches at small density *)
  Hypothesis Hcut_a : @ix RNum (wd x0) a <> @n0_cutoff RNum.
  Hypothesis Hcut : total_density p (wd x0) <> @n0_cutoff RNum.
  Lemma T_rho0 : rl (fun x => @ix RNum (da_rho0 p (t x) (wd x)) a) (ix (da_rho0 q t2 wd2) a).
  Proof.
    pose proof aa_lt as L. unfold da_rho0. rewrite qlen. rewrite ix_mk1 by auto.
    apply (rel_eq TR (fun x => if @nltb RNum (@ix RNum (wd x) a) (@n0_cutoff RNum) then @ix RNum (wd x) a
      else @nmul RNum (@nadd RNum (@ndiv RNum (@nsumi RNum (da_dim q wd2) (fun j => @nmul RNum (da_n2vi p (wd x) j a) (da_n2vi p (wd x) j a)))
         (@nopp RNum (@nmul RNum (da_n2i p (t x) (wd x) a) (da_n2i p (t x) (wd x) a)))) (@nlit RNum 1%Q)) (@ix RNum (wd x) a))).
    { intros x. rewrite (@ix_mk1 RNum) by auto. cbv zeta. rewrite dim_x. reflexivity. }
    assert (Hc : rl (fun _ => @n0_cutoff RNum) n0_cutoff) by apply (tr_lit _ _ TR).
    apply (tr_br _ _ TR (fun x => @ix RNum (wd x) a) (fun _ => @n0_cutoff RNum)).
    - exact (sep_br k _ _ _ _ (w_ix a) Hc Hcut_a).
    - cbv zeta. unfold da_n0i. rewrite (tr_ltb _ _ TR _ _ _ _ (w_ix a) Hc). change (@nltb RNum) with Rltb. destruct (Rltb _ _) eqn:E; [apply w_ix | ].
      apply Rltb_false in E. pose proof n0_cut. pose proof (area_p a L) as Ar.
      apply (tr_mul _ _ TR); [ | apply w_ix]. apply (tr_add _ _ TR); [ | tr TR]. apply (tr_div _ _ TR).
      + apply (tr_nsumi TR). intros j Hj. apply (tr_mul _ _ TR); apply T_n2vi.
      + apply (tr_opp _ _ TR). apply (tr_mul _ _ TR); apply T_n2i.
      + assert (P : 0 < da_n2i p (t x0) (wd x0) a).
        { unfold da_n2i, da_n0i. rn. apply Rmult_lt_0_compat; [lra | exact Ar]. }
        rn. assert (0 < da_n2i p (t x0) (wd x0) a * da_n2i p (t x0) (wd x0) a) by (apply Rmult_lt_0_compat; auto). lra.
  Qed.
  Lemma T_xi : rl (fun x => da_xi p (t x) (wd x)) (da_xi q t2 wd2).
  Proof.
    unfold da_xi. cbv zeta. rewrite qlen. fold n.
    apply (rel_eq TR (fun x => if @nltb RNum (@nsumi RNum n (fun i => @ix RNum (wd x) i)) (@n0_cutoff RNum) then @n1 RNum
      else @nadd RNum (@ndiv RNum (@nsumi RNum (da_dim q wd2) (fun j => @nmul RNum (@nsumi RNum n (fun i => da_n2vi p (wd x) j i)) (@nsumi RNum n (fun i => da_n2vi p (wd x) j i))))
         (@nopp RNum (@nmul RNum (da_n2 p (t x) (wd x)) (da_n2 p (t x) (wd x))))) (@nlit RNum 1%Q))).
    { intros x. rewrite dim_x. reflexivity. }
    assert (Hc : rl (fun _ => @n0_cutoff RNum) n0_cutoff) by apply (tr_lit _ _ TR).
    assert (Hg : rl (fun x => @nsumi RNum n (fun i => @ix RNum (wd x) i)) (nsumi n (fun i => da_n0i q wd2 i))).
    { apply (tr_nsumi TR). intros i Hi. apply w_ix. }
    assert (Hs : @nsumi RNum n (fun i => @ix RNum (wd x0) i) <> @n0_cutoff RNum) by (rewrite nsumi_R; exact Hcut).
    apply (tr_br _ _ TR (fun x => @nsumi RNum n (fun i => @ix RNum (wd x) i)) (fun _ => @n0_cutoff RNum) (fun _ => @n1 RNum)).
    - exact (sep_br k _ _ _ _ Hg Hc Hs).
    - rewrite (tr_ltb _ _ TR _ _ _ _ Hg Hc). change (@nltb RNum) with Rltb. destruct (Rltb _ _) eqn:E; [apply (tr_n1 TR) | ].
      apply Rltb_false in E. pose proof n0_cut as Cp. rewrite nsumi_R in E.
      apply (tr_add _ _ TR); [ | tr TR]. apply (tr_div _ _ TR).
      + apply (tr_nsumi TR). intros j Hj. apply (tr_mul _ _ TR); apply (tr_nsumi TR); intros i Hi; apply T_n2vi.
      + apply (tr_opp _ _ TR). apply (tr_mul _ _ TR); apply T_n2.
      + assert (P : 0 < da_n2 p (t x0) (wd x0)).
        { assert (exists i, (i < n)%nat /\ 0 < @ix RNum (wd x0) i) as (i & Hi & Hp).
          { destruct (Classical_Prop.classic (exists i, (i < n)%nat /\ 0 < @ix RNum (wd x0) i)) as [? | C]; auto. exfalso.
            assert (Z : Sum i < n, @ix RNum (wd x0) i = 0); [ | lra]. apply rsum_zero. intros i Hi. apply seq_in in Hi.
            destruct (Rle_lt_or_eq_dec _ _ (Hn0 i Hi)); auto. exfalso. apply C. exists i; auto. }
          unfold da_n2. rewrite nsumi_R. apply (rsum_pos _ _ i).
          - intros j Hj. apply seq_in in Hj. apply n2i_nonneg; auto.
          - apply seq_in; auto.
          - unfold da_n2i, da_n0i. rn. apply Rmult_lt_0_compat; [exact Hp | exact (area_p i Hi)]. }
        rn. assert (0 < da_n2 p (t x0) (wd x0) * da_n2 p (t x0) (wd x0)) by (apply Rmult_lt_0_compat; auto). lra.
  Qed.
  Hypothesis Hn3 : da_n3 p (wd x0) < 1.
  Lemma T_n3i : rl (fun x => da_n3i p (wd x)) (da_n3i q wd2).
  Proof. unfold da_n3i. pose proof T_n3. tr TR. rn. lra. Qed.
  Lemma T_drho : rl (fun x => da_drho p (t x) (wd x)) (da_drho q t2 wd2).
  Proof.
    unfold da_drho. change (p_assoc_comp q) with (p_assoc_comp p). rewrite Ha. change (ixn [a] 0) with a. cbv zeta.
    pose proof T_n3i. pose proof T_n2. pose proof T_xi. pose proof T_rho0. pose proof T_seg. tr TR. all: rn; lra.
  Qed.
  (** vector densities not longer than the scalar ones *)
  Hypothesis Hrho0 : 0 <= @ix RNum (da_rho0 p (t x0) (wd x0)) a.
  Hypothesis Hxi : 0 <= da_xi p (t x0) (wd x0).
  Lemma bond_nonneg : 0 <= (exp (/ t x0 * @ix2 RNum (p_epsilon_k_aibj p) a a) - 1) * (@ix RNum (p_sigma p) a ^ 3 * @ix2 RNum (p_kappa_aibj p) a a).
  Proof.
    pose proof aa_lt as L. destruct (Hap a L) as (K0 & E0 & _). destruct (Hph a L) as (_ & S0 & _).
    assert (Kz : Kab (mix_of p) a <> 0) by (apply (assoc_unique p W a Ha a L); reflexivity).
    rewrite (w_eab _ W a a L L Kz Kz), (w_kap _ W a a L L). rewrite Rpowf3.
    2: { apply Rdiv_lt_0_compat; [ | lra]. apply Rmult_lt_0_compat; [lra | ]. apply sqrt_lt_R0. apply Rmult_lt_0_compat; auto. }
    apply Rmult_le_pos.
    - assert (0 <= / t x0 * ((@ix RNum (p_epsilon_k_ab p) a + @ix RNum (p_epsilon_k_ab p) a) / 2)).
      { apply Rmult_le_pos; [left; apply Rinv_0_lt_compat; exact Ht | lra]. }
      pose proof (exp_ineq1_le (/ t x0 * ((@ix RNum (p_epsilon_k_ab p) a + @ix RNum (p_epsilon_k_ab p) a) / 2))). lra.
    - apply Rmult_le_pos; [left; apply pow_lt; auto | ]. apply Rmult_le_pos; [apply sqrt_pos | ]. apply pow_le.
      left. apply Rdiv_lt_0_compat; [ | lra]. apply Rmult_lt_0_compat; [lra | ]. apply sqrt_lt_R0. apply Rmult_lt_0_compat; auto.
  Qed.
  Lemma da_drho_nonneg : 0 <= da_drho p (t x0) (wd x0).
  Proof.
    unfold da_drho. rewrite Ha. change (ixn [a] 0) with a. cbv zeta. pose proof bond_nonneg as B. rn.
    apply Rmult_le_pos; [ | exact Hrho0]. apply Rmult_le_pos; [ | exact B].
    assert (N3 : 0 < da_n3i p (wd x0)) by (unfold da_n3i; rn; apply Rinv_0_lt_compat; lra).
    assert (0 <= da_n2 p (t x0) (wd x0) * da_n3i p (wd x0) * @ix RNum (seg_radius p (t x0)) a).
    { pose proof n2_nonneg. pose proof (seg_p a aa_lt). repeat apply Rmult_le_pos; lra. }
    set (kk := da_n2 p (t x0) (wd x0) * da_n3i p (wd x0) * @ix RNum (seg_radius p (t x0)) a) in *.
    apply Rmult_le_pos; [ | lra]. assert (0 <= (kk / 18 + 1 / 2) * kk) by (apply Rmult_le_pos; lra).
    assert (0 <= (kk / 18 + 1 / 2) * kk * da_xi p (t x0) (wd x0)) by (apply Rmult_le_pos; auto). lra.
  Qed.
  Hypothesis Hna : 0 < na.
  Hypothesis Hnb : 0 < nb -> na + nb <= 67108864.
  Hypothesis Hsw : da_drho p (t x0) (wd x0) <> @sqrt_eps RNum.
  Theorem T_assoc_one : rl (fun x => phi_assoc_one p (t x) (wd x)) (phi_assoc_one q t2 wd2).
  Proof.
    assert (Ea : rl (fun _ => na) (ix (p_na q) a)) by exact (tr_ix1 TR (p_na p) a).
    assert (Eb : rl (fun _ => nb) (ix (p_nb q) a)) by exact (tr_ix1 TR (p_nb p) a).
    pose proof T_drho as Td. pose proof da_drho_nonneg as Hd. pose proof T_rho0 as Tr.
    assert (Hbr : brok TR (fun _ => @sqrt_eps RNum) (fun x => da_drho p (t x) (wd x))).
    { apply (sep_br k _ _ sqrt_eps _ (tr_lit _ _ TR _) Td). auto. }
    unfold phi_assoc_one. cbv zeta. unfold da_drho in Td, Hd, Hbr. cbv zeta in Td, Hd, Hbr.
    change (p_assoc_comp q) with (p_assoc_comp p) in *. rewrite Ha in *. change (ixn [a] 0) with a in *.
    assert (El := tr_ltb _ _ TR _ _ _ _ (tr_n0 TR) Eb). rewrite El. cbv beta.
    change (@ix RNum (p_na p) a) with na. change (@ix RNum (p_nb p) a) with nb.
    destruct (@nltb RNum (@n0 RNum) nb) eqn:El0.
    - change (@nltb RNum) with Rltb in El0. apply Rltb_true in El0. assert (Hb0 : 0 < nb) by (unfold n0 in El0; rn_in El0; lra).
      apply (tr_mul _ _ TR); [ | exact Tr]. apply (tr_add _ _ TR); apply (tr_mul _ _ TR); try assumption.
      + apply (T_xa TR _ _ na nb _ _ Td Ea Eb Hd Hna Hbr Hb0 (Hnb Hb0)).
      + apply (T_xb TR _ _ na nb _ _ Td Ea Eb Hd Hna Hbr Hb0 (Hnb Hb0)).
    - apply (tr_mul _ _ TR); [ | exact Tr]. apply (tr_mul _ _ TR); try assumption.
      apply (T_xa1 TR _ _ na _ Td Ea Hd Hna Hbr).
  Qed.
End Assoc.

(** pure_saft_functional.rs 116-122 *)
Definition pa_xi {K : Num} (p : params K) (t : car K) (wd : list (car K)) : car K :=
  let n2 := ix wd 0 in
  let n2v := skipn 2 wd in
  let r := nmul (ix (hs_diameter p t) 0) (nlit 0.5%Q) in
  if nltb n2 (nmul (nmul (nmul (nmul n0_cutoff (nlit 4%Q)) npi) (ix (p_m p) 0)) (npowi (nre r) 2)) then n1
  else nadd (ndiv (nopp (ndot n2v n2v)) (nmul n2 n2)) (nlit 1%Q).
Definition pa_n0 {K : Num} (p : params K) (t : car K) (wd : list (car K)) : car K :=
  let r := nmul (ix (hs_diameter p t) 0) (nlit 0.5%Q) in
  ndiv (ix wd 0) (nmul (nmul (nmul r r) (nlit 4%Q)) npi).
(** pure_saft_functional.rs 124-128 *)
Definition pa_drho {K : Num} (p : params K) (t : car K) (wd : list (car K)) : car K :=
  let n2 := ix wd 0 in
  let r := nmul (ix (hs_diameter p t) 0) (nlit 0.5%Q) in
  let n3m1rec := nrecip (nadd (nopp (ix wd 1)) (nlit 1%Q)) in
  let k := nmul (nmul n2 n3m1rec) r in
  nmul (nmul (nmul (nadd (nmul (nmul (nadd (ndiv k (nlit 18%Q)) (nlit 0.5%Q)) k) (pa_xi p t wd)) (nlit 1%Q)) n3m1rec)
    (nmul (nexpm1 (nmul (nrecip t) (ix2 (p_epsilon_k_aibj p) 0 0)))
          (nmul (npowi (ix (p_sigma p) 0) 3) (ix2 (p_kappa_aibj p) 0 0))))
    (nmul (ndiv (pa_n0 p t wd) (ix (p_m p) 0)) (pa_xi p t wd)).

Section Lists.
  Context {Pt : Type} {K : Num} {x0 : Pt} (TR : Transfer K x0).
  Lemma lrel_skipn j fl l : lrel TR fl l -> lrel TR (fun x => skipn j (fl x)) (skipn j l).
  Proof.
    intros (fs & E & F). exists (skipn j fs). split.
    - intros x. rewrite E. clear. revert j. induction fs; intros [ | j]; cbn; auto.
    - clear E. revert j. induction F; intros [ | j]; cbn; auto.
  Qed.
  Lemma tr_ndot fl l gl m : lrel TR fl l -> lrel TR gl m -> rel TR (fun x => @ndot RNum (fl x) (gl x)) (ndot l m).
  Proof.
    intros (fs & E & F) (gs & E' & G). unfold ndot. apply (tr_nsum TR).
    exists (map (fun fg x => @nmul RNum (fst fg x) (snd fg x)) (combine fs gs)). split.
    - intros x. rewrite E, E'. unfold nmul1. rewrite map_map. clear. revert gs. induction fs as [ | f fs IH]; intros [ | g gs]; try reflexivity.
      cbn [map combine]. f_equal. apply IH.
    - clear E E'. unfold nmul1. revert gs m G. induction F as [ | f a fs l A F IH]; intros gs m G; destruct G as [ | g b gs m B G]; cbn [map combine]; constructor.
      + apply (tr_mul _ _ TR); auto.
      + apply IH; auto.
  Qed.
End Lists.

Section Pure.
  Variable p : params RNum.
  Hypothesis W : wfp p.
  Hypothesis Hph : phys p.
  Hypothesis Hone : length (p_m p) = 1%nat.
  Variable k : nat.
  Let TR : Transfer (lK (dual k)) (lz (dual k)) := TRn k.
  Notation rl := (rel TR).
  Notation x0 := (lz (dual k)).
  Let q : params (lK (dual k)) := plift (emb TR) p.
  Variables (t : pt k -> R) (t2 : car (lK (dual k))).
  Variables (wd : pt k -> list R) (wd2 : list (car (lK (dual k)))).
  Hypothesis Tt : rl t t2.
  Hypothesis Tw : lrel TR wd wd2.
  Hypothesis Ht : 0 < t x0.
  Let L0 : (0 < length (p_m p))%nat. Proof. rewrite Hone. auto. Qed.
  Let w_ix := w_ix k wd wd2 Tw.
  Let r x := @nmul RNum (@ix RNum (hs_diameter p (t x)) 0) (@nlit RNum 0.5%Q).
  Let r2 := nmul (ix (hs_diameter q t2) 0) (nlit 0.5%Q).
  Lemma Tr : rl r r2.
  Proof. pose proof (T_hs p k t t2 Tt Ht). unfold r, r2. tr TR. Qed.
  Lemma r_p : 0 < r x0.
  Proof. unfold r. rn. pose proof (hs_p p W Hph k t Ht 0 L0). lra. Qed.
  Lemma m_p : 0 < @ix RNum (p_m p) 0.
  Proof. apply (Hph 0%nat L0). Qed.
  Hypothesis Hn3 : @ix RNum (wd x0) 1 < 1.

  (* ------------------------------------------------------------ fundamental measures *)
  Hypothesis Hc3 : @ix RNum (wd x0) 1 <> @n3_cutoff RNum.
  Lemma T_f3 : rl (fun x => @fmt_f3 RNum (@ix RNum (wd x) 1)) (fmt_f3 (ix wd2 1)).
  Proof.
    unfold fmt_f3. assert (Hc : rl (fun _ => @n3_cutoff RNum) n3_cutoff) by apply (tr_lit _ _ TR). pose proof (w_ix 1) as H1.
    apply (tr_br _ _ TR (fun x => @ix RNum (wd x) 1) (fun _ => @n3_cutoff RNum) (fun x => @fmt_f3_taylor RNum (@ix RNum (wd x) 1))
      (fun x => @fmt_f3_raw RNum (@ix RNum (wd x) 1))).
    - exact (sep_br k _ _ _ _ H1 Hc Hc3).
    - rewrite (tr_ltb _ _ TR _ _ _ _ H1 Hc). change (@nltb RNum) with Rltb. destruct (Rltb _ _) eqn:E.
      + unfold fmt_f3_taylor. tr TR. all: rn; lra.
      + apply Rltb_false in E. rewrite n3_cutoff_R in E. unfold fmt_f3_raw. cbn zeta. tr TR. all: rn; lra.
  Qed.
  Let n2v x := skipn 2 (wd x).
  Let n2v2 := skipn 2 wd2.
  Lemma T_n2v : lrel TR n2v n2v2.
  Proof. apply lrel_skipn. exact Tw. Qed.
  Lemma T_n1v : lrel TR (fun x => map (fun y => @ndiv RNum y (@nmul RNum (@nmul RNum (r x) (@nlit RNum 4%Q)) npi)) (n2v x))
     (map (fun y => ndiv y (nmul (nmul r2 (nlit 4%Q)) npi)) n2v2).
  Proof.
    apply (lrel_map TR (fun x y => @ndiv RNum y (@nmul RNum (@nmul RNum (r x) (@nlit RNum 4%Q)) npi))); [apply T_n2v | ].
    intros f a Hf. pose proof Tr. pose proof r_p. pose proof PI_RGT_0. tr TR. rn. apply Rgt_not_eq.
    apply Rmult_lt_0_compat; lra.
  Qed.
  Theorem T_pure_fmt v : v = WhiteBear \/ (v = AntiSymWhiteBear /\ 0 < @ix RNum (wd x0) 0 /\
      @ndot RNum (n2v x0) (n2v x0) <> @ix RNum (wd x0) 0 ^ 2) ->
    exists f a, (forall x, pure_phi_fmt v p (t x) (wd x) = Some (f x)) /\ pure_phi_fmt v q t2 wd2 = Some a /\ rl f a.
  Proof.
    intros Hv. pose proof Tr as Hr. pose proof r_p as Rp. pose proof T_f3 as Hf3. pose proof (w_ix 0) as H0. pose proof (w_ix 1) as H1.
    pose proof T_n1v as V1. pose proof T_n2v as V2. pose proof PI_RGT_0 as Pp.
    assert (D22 := tr_ndot TR _ _ _ _ V2 V2). assert (D12 := tr_ndot TR _ _ _ _ V1 V2).
    assert (Hpi : rl (fun _ => @pi36m1 RNum) pi36m1).
    { unfold pi36m1. tr TR. rn. lra. }
    assert (N1 : r x0 * 4 * PI <> 0) by (apply Rgt_not_eq; apply Rmult_lt_0_compat; lra).
    assert (N0 : r x0 * r x0 * 4 * PI <> 0).
    { apply Rgt_not_eq. apply Rmult_lt_0_compat; [ | lra]. assert (0 < r x0 * r x0) by (apply Rmult_lt_0_compat; auto). lra. }
    assert (T1 : rl (fun x => @ndiv RNum (@ix RNum (wd x) 0) (@nmul RNum (@nmul RNum (r x) (@nlit RNum 4%Q)) npi)) (ndiv (ix wd2 0) (nmul (nmul r2 (nlit 4%Q)) npi))).
    { tr TR. exact N1. }
    assert (T0 : rl (fun x => @ndiv RNum (@ix RNum (wd x) 0) (@nmul RNum (@nmul RNum (@nmul RNum (r x) (r x)) (@nlit RNum 4%Q)) npi)) (ndiv (ix wd2 0) (nmul (nmul (nmul r2 r2) (nlit 4%Q)) npi))).
    { tr TR. exact N0. }
    assert (S : exists s1 s2 a1 a2,
      (forall x, pure_fmt_scalars v (r x) (@ndiv RNum (@ix RNum (wd x) 0) (@nmul RNum (@nmul RNum (r x) (@nlit RNum 4%Q)) npi)) (@ix RNum (wd x) 0) (n2v x) = Some (s1 x, s2 x)) /\
      pure_fmt_scalars v r2 (ndiv (ix wd2 0) (nmul (nmul r2 (nlit 4%Q)) npi)) (ix wd2 0) n2v2 = Some (a1, a2) /\ rl s1 a1 /\ rl s2 a2).
    { destruct Hv as [-> | (-> & Hp & Hx)].
      - exists (fun x => @nsub RNum (@nmul RNum (@ndiv RNum (@ix RNum (wd x) 0) (@nmul RNum (@nmul RNum (r x) (@nlit RNum 4%Q)) npi)) (@ix RNum (wd x) 0))
           (@ndot RNum (map (fun y => @ndiv RNum y (@nmul RNum (@nmul RNum (r x) (@nlit RNum 4%Q)) npi)) (n2v x)) (n2v x))).
        exists (fun x => @nsub RNum (@nmul RNum (@ix RNum (wd x) 0) (@ix RNum (wd x) 0)) (@nmul RNum (@ndot RNum (n2v x) (n2v x)) (@nlit RNum 3%Q))).
        eexists. eexists. split; [intros x; reflexivity | split; [reflexivity | ]]. split.
        + apply (tr_sub _ _ TR); [tr TR | ]. exact D12.
        + apply (tr_sub _ _ TR); [tr TR | ]. apply (tr_mul _ _ TR); [exact D22 | tr TR].
      - set (xi := fun x => @ndiv RNum (@ndot RNum (n2v x) (n2v x)) (@npowi RNum (@ix RNum (wd x) 0) 2)).
        set (xi2 := ndiv (ndot n2v2 n2v2) (npowi (ix wd2 0) 2)).
        assert (Txi : rl xi xi2).
        { unfold xi, xi2. apply (tr_div _ _ TR); [exact D22 | tr TR | ]. rn. apply pow_nonzero. lra. }
        assert (Sx : @n1 RNum <> xi x0).
        { unfold xi, n1. rn. intros C. apply Hx. apply Rmult_eq_reg_r with (/ @ix RNum (wd x0) 0 ^ 2).
          - rewrite Rinv_r by (apply pow_nonzero; lra). unfold Rdiv in C. rewrite <- C. reflexivity.
          - apply Rinv_neq_0_compat. apply pow_nonzero. lra. }
        exists (fun x => @nsub RNum (@nmul RNum (@ndiv RNum (@ix RNum (wd x) 0) (@nmul RNum (@nmul RNum (r x) (@nlit RNum 4%Q)) npi)) (@ix RNum (wd x) 0))
           (@ndot RNum (map (fun y => @ndiv RNum y (@nmul RNum (@nmul RNum (r x) (@nlit RNum 4%Q)) npi)) (n2v x)) (n2v x))).
        exists (fun x => @nmul RNum (@nmul RNum (@ix RNum (wd x) 0) (@ix RNum (wd x) 0))
           (@npowi RNum (@nadd RNum (@nopp RNum (if @nltb RNum (@n1 RNum) (xi x) then @n1 RNum else xi x)) (@nlit RNum 1%Q)) 3)).
        eexists. eexists. split; [intros x; reflexivity | split; [reflexivity | ]]. split.
        + apply (tr_sub _ _ TR); [tr TR | ]. exact D12.
        + fold xi2.
          assert (Tb : rl (fun x => if @nltb RNum (@n1 RNum) (xi x) then @n1 RNum else xi x) (if nltb n1 xi2 then n1 else xi2)).
          { apply (tr_br _ _ TR (fun _ => @n1 RNum) xi (fun _ => @n1 RNum) xi).
            - exact (sep_br k _ _ _ _ (tr_n1 TR) Txi Sx).
            - rewrite (tr_ltb _ _ TR _ _ _ _ (tr_n1 TR) Txi). destruct (@nltb RNum _ _); [apply (tr_n1 TR) | exact Txi]. }
          tr TR. }
    destruct S as (s1 & s2 & a1 & a2 & E1 & E2 & S1 & S2).
    exists (fun x => @nadd RNum (@nadd RNum (@nopp RNum (@nmul RNum (@ndiv RNum (@ix RNum (wd x) 0) (@nmul RNum (@nmul RNum (@nmul RNum (r x) (r x)) (@nlit RNum 4%Q)) npi)) (@nln1p RNum (@nopp RNum (@ix RNum (wd x) 1)))))
      (@nmul RNum (s1 x) (@nrecip RNum (@nadd RNum (@nopp RNum (@ix RNum (wd x) 1)) (@nlit RNum 1%Q)))))
      (@nmul RNum (@nmul RNum (@nmul RNum (s2 x) (@ix RNum (wd x) 0)) (@pi36m1 RNum)) (@fmt_f3 RNum (@ix RNum (wd x) 1)))).
    eexists. split; [ | split].
    - intros x. unfold pure_phi_fmt. cbv zeta. fold (r x). fold (n2v x). rewrite E1. reflexivity.
    - unfold pure_phi_fmt. cbv zeta. fold r2. fold n2v2. rewrite E2. reflexivity.
    - tr TR. all: rn; lra.
  Qed.

  (* ------------------------------------------------------------------- association *)
  Hypothesis Hn2 : 0 <= @ix RNum (wd x0) 0.
  Definition n2_switch : R := @nmul RNum (@nmul RNum (@nmul RNum (@nmul RNum n0_cutoff (@nlit RNum 4%Q)) npi) (@ix RNum (p_m p) 0)) (@npowi RNum (r x0) 2).
  Lemma n2_switch_R : n2_switch = @n0_cutoff RNum * 4 * PI * @ix RNum (p_m p) 0 * r x0 ^ 2.
  Proof. unfold n2_switch. rn. ring. Qed.
  Hypothesis Hcut2 : @ix RNum (wd x0) 0 <> n2_switch.
  Lemma n2_switch_p : 0 < n2_switch.
  Proof.
    pose proof n0_cut. pose proof PI_RGT_0. pose proof m_p. pose proof r_p. rewrite n2_switch_R.
    apply Rmult_lt_0_compat; [ | apply pow_lt; auto]. apply Rmult_lt_0_compat; auto. apply Rmult_lt_0_compat; lra.
  Qed.
  Lemma T_pa_xi : rl (fun x => pa_xi p (t x) (wd x)) (pa_xi q t2 wd2).
  Proof.
    pose proof Tr as Hr. pose proof (w_ix 0) as H0. pose proof T_n2v as V2. assert (D22 := tr_ndot TR _ _ _ _ V2 V2).
    unfold pa_xi. cbv zeta. fold r2 n2v2.
    set (c2 := nmul (nmul (nmul (nmul n0_cutoff (nlit 4%Q)) npi) (ix (p_m q) 0)) (npowi (nre r2) 2)).
    assert (Hc : rl (fun x => n2_switch) c2).
    { unfold c2, n2_switch. pose proof (rel_nre k r r2 Hr) as Hre.
      apply (tr_mul _ _ TR _ (fun _ => @npowi RNum (r x0) 2)); [ | tr TR]. apply (tr_mul _ _ TR _ (fun _ => @ix RNum (p_m p) 0)); [ | apply (tr_ix1 TR)]. unfold n0_cutoff. tr TR. }
    assert (Hc' : rl (fun x => @nmul RNum (@nmul RNum (@nmul RNum (@nmul RNum n0_cutoff (@nlit RNum 4%Q)) npi) (@ix RNum (p_m p) 0)) (@npowi RNum (r x) 2))
       (nmul (nmul (nmul (nmul n0_cutoff (nlit 4%Q)) npi) (ix (p_m q) 0)) (npowi r2 2))).
    { unfold n0_cutoff. tr TR. }
    apply (tr_br _ _ TR (fun x => @ix RNum (wd x) 0) (fun x => @nmul RNum (@nmul RNum (@nmul RNum (@nmul RNum n0_cutoff (@nlit RNum 4%Q)) npi) (@ix RNum (p_m p) 0)) (@npowi RNum (@nre RNum (r x)) 2))
       (fun _ => @n1 RNum) (fun x => @nadd RNum (@ndiv RNum (@nopp RNum (@ndot RNum (n2v x) (n2v x))) (@nmul RNum (@ix RNum (wd x) 0) (@ix RNum (wd x) 0))) (@nlit RNum 1%Q))).
    - exact (sep_br k _ _ _ _ H0 Hc' Hcut2).
    - rewrite (tr_ltb _ _ TR _ _ _ _ H0 Hc). change (@nmul RNum (@nmul RNum (@nmul RNum (@nmul RNum n0_cutoff (@nlit RNum 4%Q)) npi) (@ix RNum (p_m p) 0)) (@npowi RNum (@nre RNum (r x0)) 2)) with n2_switch.
      change (@nltb RNum) with Rltb. destruct (Rltb _ _) eqn:E; [apply (tr_n1 TR) | ].
      apply Rltb_false in E. pose proof n2_switch_p. apply (tr_add _ _ TR); [ | tr TR]. apply (tr_div _ _ TR).
      + apply (tr_opp _ _ TR). exact D22.
      + tr TR.
      + rn. assert (0 < @ix RNum (wd x0) 0 * @ix RNum (wd x0) 0) by (apply Rmult_lt_0_compat; lra). lra.
  Qed.
  Lemma T_pa_n0 : rl (fun x => pa_n0 p (t x) (wd x)) (pa_n0 q t2 wd2).
  Proof.
    unfold pa_n0. cbv zeta. fold r2. pose proof Tr. pose proof r_p. pose proof PI_RGT_0. pose proof (w_ix 0). fold r.
    apply (tr_div _ _ TR (fun x => @ix RNum (wd x) 0) (fun x => @nmul RNum (@nmul RNum (@nmul RNum (r x) (r x)) (@nlit RNum 4%Q)) npi)); [tr TR | tr TR | ].
    rn. apply Rgt_not_eq. apply Rmult_lt_0_compat; [ | lra]. assert (0 < r x0 * r x0) by (apply Rmult_lt_0_compat; auto). lra.
  Qed.
  Lemma T_pa_drho : rl (fun x => pa_xi p (t x) (wd x)) (pa_xi q t2 wd2) -> rl (fun x => pa_drho p (t x) (wd x)) (pa_drho q t2 wd2).
  Proof.
    intros Txi. unfold pa_drho. cbv zeta. fold r2. pose proof Tr. pose proof T_pa_n0. pose proof (w_ix 0). pose proof (w_ix 1). pose proof m_p.
    repeat first [tr1 TR | exact Tr]. all: rn; lra.
  Qed.
  Variable Ha : p_assoc_comp p = [0%nat].
  Hypothesis Hap : assoc_phys p.
  Let na := Na (mix_of p) 0.
  Let nb := Nb (mix_of p) 0.
  Hypothesis Hxi : 0 <= pa_xi p (t x0) (wd x0).
  Lemma pa_drho_nonneg : 0 <= pa_drho p (t x0) (wd x0).
  Proof.
    unfold pa_drho. cbv zeta. pose proof (bond_nonneg p W Hph k t Ht 0%nat Ha Hap) as B. fold (r x0). pose proof r_p. pose proof m_p.
    assert (0 <= pa_n0 p (t x0) (wd x0)).
    { unfold pa_n0. cbv zeta. fold (r x0). rn. pose proof PI_RGT_0. apply Rmult_le_pos; auto. left. apply Rinv_0_lt_compat.
      apply Rmult_lt_0_compat; [ | lra]. assert (0 < r x0 * r x0) by (apply Rmult_lt_0_compat; auto). lra. }
    rn. apply Rmult_le_pos.
    2: { apply Rmult_le_pos; auto. apply Rmult_le_pos; auto. left. apply Rinv_0_lt_compat. auto. }
    apply Rmult_le_pos; [ | exact B].
    assert (N3 : 0 < / (- @ix RNum (wd x0) 1 + 1)) by (apply Rinv_0_lt_compat; lra).
    assert (0 <= @ix RNum (wd x0) 0 * / (- @ix RNum (wd x0) 1 + 1) * r x0).
    { apply Rmult_le_pos; [apply Rmult_le_pos; [exact Hn2 | left; exact N3] | left; exact r_p]. }
    set (kk := @ix RNum (wd x0) 0 * / (- @ix RNum (wd x0) 1 + 1) * r x0) in *.
    apply Rmult_le_pos; [ | lra]. assert (0 <= (kk / 18 + 1 / 2) * kk) by (apply Rmult_le_pos; lra).
    assert (0 <= (kk / 18 + 1 / 2) * kk * pa_xi p (t x0) (wd x0)) by (apply Rmult_le_pos; auto). lra.
  Qed.
  Hypothesis Hna : 0 < na.
  Hypothesis Hnb : 0 < nb -> na + nb <= 67108864.
  Hypothesis Hsw : pa_drho p (t x0) (wd x0) <> @sqrt_eps RNum.
  Theorem T_pure_assoc_xi : rl (fun x => pa_xi p (t x) (wd x)) (pa_xi q t2 wd2) -> rl (fun x => pure_phi_assoc p (t x) (wd x)) (pure_phi_assoc q t2 wd2).
  Proof.
    intros Tx.
    assert (Ea : rl (fun _ => na) (ix (p_na q) 0)) by exact (tr_ix1 TR (p_na p) 0).
    assert (Eb : rl (fun _ => nb) (ix (p_nb q) 0)) by exact (tr_ix1 TR (p_nb p) 0).
    pose proof (T_pa_drho Tx) as Td. pose proof pa_drho_nonneg as Hd. pose proof T_pa_n0 as Tn. pose proof m_p.
    assert (Hbr : brok TR (fun _ => @sqrt_eps RNum) (fun x => pa_drho p (t x) (wd x))).
    { apply (sep_br k _ _ sqrt_eps _ (tr_lit _ _ TR _) Td). auto. }
    assert (Tp : rl (fun x => @nmul RNum (@ndiv RNum (pa_n0 p (t x) (wd x)) (@ix RNum (p_m p) 0)) (pa_xi p (t x) (wd x)))
        (nmul (ndiv (pa_n0 q t2 wd2) (ix (p_m q) 0)) (pa_xi q t2 wd2))).
    { tr TR. lra. }
    assert (El := tr_ltb _ _ TR _ _ _ _ (tr_n0 TR) Eb). cbv beta in El.
    apply (rel_eq TR (fun x => if @nltb RNum (@n0 RNum) nb then
       @nmul RNum (@nmul RNum (@ndiv RNum (pa_n0 p (t x) (wd x)) (@ix RNum (p_m p) 0)) (pa_xi p (t x) (wd x)))
         (@nadd RNum (@nmul RNum (@f_assoc RNum (@assoc_site_frac_ab RNum (pa_drho p (t x) (wd x)) na nb)) na)
            (@nmul RNum (@f_assoc RNum (@nadd RNum (@ndiv RNum (@nmul RNum (@nsub RNum (@assoc_site_frac_ab RNum (pa_drho p (t x) (wd x)) na nb) (@nlit RNum 1%Q)) na) nb) (@nlit RNum 1%Q))) nb))
       else @nmul RNum (@nmul RNum (@ndiv RNum (pa_n0 p (t x) (wd x)) (@ix RNum (p_m p) 0)) (pa_xi p (t x) (wd x)))
         (@nmul RNum (@f_assoc RNum (@assoc_site_frac_a RNum (pa_drho p (t x) (wd x)) na)) na))).
    { intros x. reflexivity. }
    change (pure_phi_assoc q t2 wd2) with (if nltb n0 (ix (p_nb q) 0) then
       nmul (nmul (ndiv (pa_n0 q t2 wd2) (ix (p_m q) 0)) (pa_xi q t2 wd2))
         (nadd (nmul (f_assoc (assoc_site_frac_ab (pa_drho q t2 wd2) (ix (p_na q) 0) (ix (p_nb q) 0))) (ix (p_na q) 0))
            (nmul (f_assoc (nadd (ndiv (nmul (nsub (assoc_site_frac_ab (pa_drho q t2 wd2) (ix (p_na q) 0) (ix (p_nb q) 0)) (nlit 1%Q)) (ix (p_na q) 0)) (ix (p_nb q) 0)) (nlit 1%Q))) (ix (p_nb q) 0)))
       else nmul (nmul (ndiv (pa_n0 q t2 wd2) (ix (p_m q) 0)) (pa_xi q t2 wd2))
         (nmul (f_assoc (assoc_site_frac_a (pa_drho q t2 wd2) (ix (p_na q) 0))) (ix (p_na q) 0))).
    rewrite El. destruct (@nltb RNum (@n0 RNum) nb) eqn:El0.
    - change (@nltb RNum) with Rltb in El0. apply Rltb_true in El0. assert (Hb0 : 0 < nb) by (unfold n0 in El0; rn_in El0; lra).
      apply (tr_mul _ _ TR); [exact Tp | ]. apply (tr_add _ _ TR); apply (tr_mul _ _ TR); try assumption.
      + apply (T_xa TR _ _ na nb _ _ Td Ea Eb Hd Hna Hbr Hb0 (Hnb Hb0)).
      + apply (T_xb' TR _ _ na nb _ _ Td Ea Eb Hd Hna Hbr Hb0 (Hnb Hb0)).
    - apply (tr_mul _ _ TR); [exact Tp | ]. apply (tr_mul _ _ TR); try assumption.
      apply (T_xa1 TR _ _ na _ Td Ea Hd Hna Hbr).
  Qed.
  Theorem T_pure_assoc : rl (fun x => pure_phi_assoc p (t x) (wd x)) (pure_phi_assoc q t2 wd2).
  Proof. exact (T_pure_assoc_xi T_pa_xi). Qed.
End Pure.
