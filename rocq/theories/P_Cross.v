(** C03, C04, C05 for mixtures with cross-association. *)
From Coq Require Import ZArith QArith Reals Lra Lia String List Bool Arith Permutation FinFun.
From Coquelicot Require Import Coquelicot.
From Verif Require Import Num RNum RSum Tables M_Params F_Params M_Eos Spec F_Spec F_SpecPolar
  F_SpecAssoc F_Contrib F_Lump F_Total F_Lump2 Samples P_Params P_Select P_Lump
  F_Newton F_MassAction F_MassAction2 F_Gauss F_NewtonR F_Cross P_Assoc P_Assoc2 F_Perm P_Converge.
Import ListNotations.
Local Open Scope R_scope.
Set Bullet Behavior "Strict Subproofs".
Notation length := List.length.

Lemma filter_perm {A} (q : A -> bool) l l' : Permutation l l' -> Permutation (filter q l) (filter q l').
Proof.
  intros P. induction P; cbn [filter]; auto.
  - destruct (q x); auto.
  - destruct (q x), (q y); auto. apply perm_swap.
  - eapply perm_trans; eauto.
Qed.
Lemma nth_seq_id (l : list nat) : map (fun i => nth i l 0%nat) (seq 0 (length l)) = l.
Proof.
  apply (nth_ext _ _ 0%nat 0%nat); rewrite map_length, seq_length; auto. intros i Hi.
  rewrite (nth_indep _ 0%nat (nth (length l) l 0%nat)) by (rewrite map_length, seq_length; auto).
  rewrite (map_nth (fun i => nth i l 0%nat) (seq 0 (length l)) (length l) i). rewrite seq_nth; auto.
Qed.

(** the site labels of a relabelled mixture *)
Section Labels.
  Variables (prs : list (pure_record RNum)) (bin : list (list R)).
  Variables (p p' : params RNum) (l : list nat).
  Hypothesis Hp : from_records prs bin = Some p.
  Hypothesis Hl : Permutation l (seq 0 (length (p_m p))).
  Hypothesis Hp' : subset p l = Some p'.

  Lemma assoc_labels : p_nassoc p' = p_nassoc p /\
    exists f, bFun (p_nassoc p) f /\ bInjective (p_nassoc p) f /\
      forall i, (i < p_nassoc p)%nat -> nth (comp p' i) l 0%nat = comp p (f i).
  Proof.
    pose proof (wfp_from_records _ _ _ Hp) as W.
    assert (W' : wfp p') by (destruct (subset_from_records _ _ _ Hp') as (a & b & E); apply (wfp_from_records _ _ _ E)).
    pose proof (subset_lumped _ _ _ _ _ Hp Hp') as L.
    pose proof (nassoc_perm _ _ _ _ _ Hp Hp' Hl) as En. split; auto.
    set (q := fun j => @nonzero RNum (@ix RNum (p_kappa_ab p) j)).
    assert (E1 : map (fun i => nth i l 0%nat) (p_assoc_comp p') = filter q l).
    { rewrite (lu_ass _ _ _ L).
      rewrite (filter_ext_in _ (fun i => q (nth i l 0%nat))).
      - rewrite <- (filter_map q (fun i => nth i l 0%nat)). rewrite nth_seq_id. auto.
      - intros i Hi. apply seq_in in Hi. unfold q. rewrite (lu_kab _ _ _ L) by auto. auto. }
    assert (E2 : p_assoc_comp p = filter q (seq 0 (length (p_m p)))) by (rewrite (w_ass _ W) at 1; auto).
    assert (P : Permutation (p_assoc_comp p) (map (fun i => nth i l 0%nat) (p_assoc_comp p'))).
    { rewrite E1, E2. apply filter_perm. apply Permutation_sym. auto. }
    apply (Permutation_nth _ _ 0%nat) in P. cbv zeta in P. destruct P as (_ & f & B & I & F).
    rewrite <- (w_na _ W) in B, I, F. exists f. split; auto. split; auto.
    intros i Hi. unfold comp at 2. rewrite <- F by auto. unfold comp.
    rewrite (nth_indep (map _ _) 0%nat (nth 0 l 0%nat)) by (rewrite map_length, <- (w_na _ W'), En; auto).
    rewrite (map_nth (fun i => nth i l 0%nat)). auto.
  Qed.
End Labels.

(** the cross-association contribution, opened up *)
Lemma a_cross_unfold lu it (tol : R) (q : params RNum) (t v : R) (ms : list R) :
  @a_cross_assoc RNum lu it tol q (@state_new RNum t v ms) =
  if Rltb (rsum (s_rho (@state_new RNum t v ms)) (fun x : R => x)) (@f_eps RNum) then Some (@n0 RNum * v)
  else match newton_loop (@newton_step RNum lu (p_nassoc q) (delta_ q t v ms) (na_ q) (nb_ q) (rho_ q t v ms) tol) it
               (repeat (2 / 10) (2 * p_nassoc q)) with
       | Ok y => Some (@ca_energy RNum (p_nassoc q) (na_ q) (nb_ q) (rho_ q t v ms) y * v)
       | Err _ => None
       end.
Proof.
  unfold a_cross_assoc, cross_association. rewrite nsum_R.
  change (@nltb RNum) with Rltb.
  match goal with |- _ = (if ?B then _ else _) => set (b := B) end.
  match goal with |- match fst (if ?B then _ else _) with _ => _ end = _ => change B with b end.
  destruct b; [reflexivity | ].
  rewrite map_map_nre, map_nre.
  replace (repeat (2 / 10) (2 * p_nassoc q)) with (repeat (@nlit RNum 0.2%Q) (2 * p_nassoc q)) by (f_equal; lits; lra).
  match goal with |- _ = match ?B with _ => _ end => set (b := B) end.
  match goal with |- match fst (match ?B with _ => _ end) with _ => _ end = _ => change B with b end.
  destruct b; reflexivity.
Qed.

(* ----------------------------------------------------------------------------- C03 *)

Section C03.
  Variables (prs : list (pure_record RNum)) (bin : list (list R)).
  Variables (p p' : params RNum) (l : list nat).
  Hypothesis Hp : from_records prs bin = Some p.
  (** a reordering of the components: records, binary matrix (by [subset]) and moles *)
  Hypothesis Hl : Permutation l (seq 0 (length prs)).
  Hypothesis Hp' : subset p l = Some p'.
  Hypothesis Hph : phys p.
  Variables (t v : R) (moles : list R).
  Hypothesis PS : phys_state p t v moles.
  Let s := @state_new RNum t v moles.
  Let s' := @state_new RNum t v (pick moles l).

  Let n : length (p_m p) = length prs.
  Proof. rewrite (from_records_raw_of _ _ _ Hp). apply fr_len_m. Qed.
  Let Hl' : Permutation l (seq 0 (length (p_m p))).
  Proof. rewrite n. exact Hl. Qed.
  Let D : NoDup l.
  Proof. apply (Permutation_NoDup (Permutation_sym Hl)). apply seq_NoDup. Qed.
  Let Z : forall j, (j < length (p_m p))%nat -> ~ In j l -> nth j moles 0 = 0.
  Proof.
    intros j Hj Hn. exfalso. apply Hn. apply (Permutation_in _ (Permutation_sym Hl)). apply seq_in. rewrite <- n. auto.
  Qed.
  Let Rg := pick_regrouped p l t v moles D Z PS.
  Let PS' := pick_phys_state prs bin p' p l Hp Hp' t v moles D Z PS.
  Let W : wfp p := wfp_from_records _ _ _ Hp.
  Let W' : wfp p'.
  Proof. destruct (subset_from_records _ _ _ Hp') as (a & b & E); apply (wfp_from_records _ _ _ E). Qed.
  Let Hph' : phys p' := subset_phys prs bin p' p l Hp Hp' Hph.
  Let phi i := nth i l 0%nat.
  Let X := mix_of p.
  Let X' := mix_of p'.
  Let rho i := nth i moles 0 / v.
  Let rho' i := nth i (pick moles l) 0 / v.

  (** an accepted (or rejected) solve of the relabelled mixture is that of the mixture, step by
      step: same number of iterations, same outcome, same energy.  The linear solver is exact. *)
  Theorem C03_cross_association lu it tol : lu_exact lu ->
    a_cross_assoc lu it tol p' s' = a_cross_assoc lu it tol p s.
  Proof.
    intros Hlu. destruct (assoc_labels prs bin p p' l Hp Hl' Hp') as (En & f & B & I & F).
    set (NA := p_nassoc p) in *.
    assert (Ind : forall i, (i < NA)%nat -> (comp p' i < length l)%nat).
    { intros i Hi. pose proof (comp_lt p' W' i ltac:(rewrite En; auto)) as H.
      rewrite (lu_n _ _ _ (subset_lumped _ _ _ _ _ Hp Hp')) in H. auto. }
    assert (Nl : N X' = length l) by (apply (lu_n _ _ _ (subset_lumped _ _ _ _ _ Hp Hp'))).
    assert (Ed : forall i j, (i < NA)%nat -> (j < NA)%nat ->
      @ix2 RNum (delta_ p' t v (pick moles l)) i j = @ix2 RNum (delta_ p t v moles) (f i) (f j)).
    { intros i j Hi Hj.
      rewrite (delta_ix p' W' Hph' t v _ PS' i j) by (rewrite En; auto).
      rewrite (delta_ix p W Hph t v _ PS) by (apply B; auto).
      rewrite <- !F by auto.
      exact (Delta_lump X' X t phi rho' rho (L_phi _ _ _ _ _ Hp Hp') (L_rho _ _ _ _ _ Hp Hp' v _ _ Rg)
         (L_m _ _ _ _ _ Hp Hp') (L_s _ _ _ _ _ Hp Hp') (L_e _ _ _ _ _ Hp Hp') (L_k _ _ _ _ _ Hp Hp') (L_ea _ _ _ _ _ Hp Hp')
         (comp p' i) (comp p' j) ltac:(rewrite Nl; auto) ltac:(rewrite Nl; auto)). }
    assert (Ea : forall i, (i < NA)%nat -> @ix RNum (na_ p') i = @ix RNum (na_ p) (f i)).
    { intros i Hi. rewrite (na_ix p' i) by (rewrite En; auto). rewrite na_ix by (apply B; auto). rewrite <- F by auto.
      apply (L_na _ _ _ _ _ Hp Hp'). fold X'. rewrite Nl. auto. }
    assert (Eb : forall i, (i < NA)%nat -> @ix RNum (nb_ p') i = @ix RNum (nb_ p) (f i)).
    { intros i Hi. rewrite (nb_ix p' i) by (rewrite En; auto). rewrite nb_ix by (apply B; auto). rewrite <- F by auto.
      apply (L_nb _ _ _ _ _ Hp Hp'). fold X'. rewrite Nl. auto. }
    assert (Er : forall i, (i < NA)%nat -> @ix RNum (rho_ p' t v (pick moles l)) i = @ix RNum (rho_ p t v moles) (f i)).
    { intros i Hi. rewrite (rho_ix p' W' t v _ PS' i) by (rewrite En; auto). rewrite (rho_ix p W t v _ PS) by (apply B; auto).
      rewrite <- F by auto. rewrite nth_pick by auto. auto. }
    assert (Es : rsum (s_rho s') (fun x : R => x) = rsum (s_rho s) (fun x : R => x)).
    { assert (H : forall q ms, phys_state q t v ms -> rsum (s_rho (@state_new RNum t v ms)) (fun x : R => x) = Rho (mix_of q) (fun i => nth i ms 0 / v)).
      { intros q ms Q. unfold Rho. rewrite (rsum_nth _ 0).
        assert (Lr : length (s_rho (@state_new RNum t v ms)) = length (p_m q)).
        { cbn [s_rho state_new]. rewrite map_length. apply (ps_len _ _ _ _ Q). }
        match goal with |- rsum (seq 0 ?n1) _ = rsum (seq 0 ?n2) _ => replace n2 with n1 by exact Lr end.
        apply Sum_ext. intros i Hi. assert (Hi2 : (i < length (p_m q))%nat) by (rewrite <- Lr; exact Hi). apply (s_rho_ix q t v ms (ps_len _ _ _ _ Q) i Hi2). }
      unfold s, s'. rewrite (H p'), (H p) by auto.
      exact (Rho_lump X' X phi rho' rho (L_phi _ _ _ _ _ Hp Hp') (L_rho _ _ _ _ _ Hp Hp' v _ _ Rg)). }
    set (g := fun k => if Nat.ltb k NA then f k else (NA + f (k - NA))%nat).
    assert (Gl : forall k, (k < NA)%nat -> g k = f k) by (intros k Hk; unfold g; rewrite (proj2 (Nat.ltb_lt k NA)); auto).
    assert (Gr : forall k, (NA <= k)%nat -> g k = (NA + f (k - NA))%nat) by (intros k Hk; unfold g; rewrite (proj2 (Nat.ltb_ge k NA)); auto).
    assert (GB : bFun (NA + NA) g).
    { intros k Hk. destruct (Nat.lt_ge_cases k NA) as [H | H]; [rewrite Gl by auto; pose proof (B k H); lia | ].
      rewrite Gr by auto. pose proof (B (k - NA)%nat ltac:(lia)). lia. }
    assert (GI : bInjective (NA + NA) g).
    { intros k k' Hk Hk' E. destruct (Nat.lt_ge_cases k NA) as [H | H], (Nat.lt_ge_cases k' NA) as [H' | H'];
      rewrite ?(Gl k), ?(Gl k'), ?(Gr k), ?(Gr k') in E by auto.
      - apply I; auto.
      - pose proof (B k H). lia.
      - pose proof (B k' H'). lia.
      - assert (k - NA = k' - NA)%nat; [apply I; lia | lia]. }
    assert (HD : forall k k', (k < NA + NA)%nat -> (k' < NA + NA)%nat ->
      Dm NA (delta_ p' t v (pick moles l)) (na_ p') (nb_ p') (rho_ p' t v (pick moles l)) k k'
      = Dm NA (delta_ p t v moles) (na_ p) (nb_ p) (rho_ p t v moles) (g k) (g k')).
    { intros k k' Hk Hk'. unfold Dm, ca_D.
      destruct (Nat.ltb_spec k NA) as [H | H], (Nat.ltb_spec k' NA) as [H' | H'];
      rewrite ?(Gl k), ?(Gl k'), ?(Gr k), ?(Gr k') by auto.
      - rewrite !(proj2 (Nat.ltb_lt _ NA)) by (apply B; auto). auto.
      - rewrite (proj2 (Nat.ltb_lt (f k) NA)) by (apply B; auto). rewrite (proj2 (Nat.ltb_ge _ NA)) by lia.
        replace (NA + f (k' - NA) - NA)%nat with (f (k' - NA)%nat) by lia.
        rewrite Ed, Er, Eb by lia. auto.
      - rewrite (proj2 (Nat.ltb_lt (f k') NA)) by (apply B; auto). rewrite (proj2 (Nat.ltb_ge _ NA)) by lia.
        replace (NA + f (k - NA) - NA)%nat with (f (k - NA)%nat) by lia.
        rewrite Ed, Er, Ea by lia. auto.
      - rewrite !(proj2 (Nat.ltb_ge _ NA)) by lia. auto. }
    assert (He : forall y' y : list R, image NA g y' y ->
      @ca_energy RNum NA (na_ p') (nb_ p') (rho_ p' t v (pick moles l)) y'
      = @ca_energy RNum NA (na_ p) (nb_ p) (rho_ p t v moles) y).
    { intros y' y (L1 & L2 & E). rewrite !energy_spec. unfold site_energy.
      rewrite <- (bij_sum NA f (fun i => @ix RNum (rho_ p t v moles) i * (@ix RNum (na_ p) i * fx (fa y i) + @ix RNum (nb_ p) i * fx (fb NA y i)))) by auto.
      apply Sum_ext. intros i Hi. rewrite Ea, Eb, Er by auto. unfold fa, fb.
      rewrite (E i), (E (NA + i)%nat) by lia. rewrite (Gl i), (Gr (NA + i)%nat) by lia.
      replace (NA + i - NA)%nat with i by lia. auto. }
    unfold s, s'. rewrite !a_cross_unfold.
    pose proof (loop_perm lu NA Hlu (delta_ p t v moles) (delta_ p' t v (pick moles l)) (na_ p) (nb_ p) (rho_ p t v moles)
      (na_ p') (nb_ p') (rho_ p' t v (pick moles l)) tol g GB GI HD it (repeat (2 / 10) (2 * NA)) (repeat (2 / 10) (2 * NA))) as LP.
    assert (I0 : image NA g (repeat (2 / 10) (2 * NA)) (repeat (2 / 10) (2 * NA))).
    { split; [rewrite repeat_length; lia | ]. split; [rewrite repeat_length; lia | ]. intros k Hk.
      apply GB in Hk as Hg. rewrite !(nth_repeat_lt) by lia. auto. }
    specialize (LP I0). fold s s'. rewrite En. fold NA.
    replace (Rltb (rsum (s_rho s') (fun x : R => x)) (@f_eps RNum)) with (Rltb (rsum (s_rho s) (fun x : R => x)) (@f_eps RNum))
      by (f_equal; symmetry; exact Es).
    destruct (Rltb _ _); [reflexivity | ].
    destruct (newton_loop (@newton_step RNum lu NA (delta_ p' t v (pick moles l)) (na_ p') (nb_ p') (rho_ p' t v (pick moles l)) tol) it _) as [y' | e'],
      (newton_loop (@newton_step RNum lu NA (delta_ p t v moles) (na_ p) (nb_ p) (rho_ p t v moles) tol) it _) as [y | e]; try contradiction.
    - rewrite (He y' y LP). reflexivity.
    - reflexivity.
  Qed.

  (** The residual Helmholtz energy, for any number of associating components.  Missing: mixtures of
      quadrupolar components with different diameters, for which the claim is false
      ([C03_quadrupole_refuted]). *)
  Theorem C03_residual_partial lu o : lu_exact lu -> one_quadrupole_diameter p ->
    residual lu (with_options p' o) s' = residual lu (with_options p o) s.
  Proof.
    intros Hlu Hq. destruct (Nat.le_gt_cases (p_nassoc p) 1) as [H1 | H1].
    - apply (C03_residual_self_partial prs bin p p' l Hp Hl Hp' Hph t v moles PS lu o Hq H1).
    - rewrite !residual_total.
      pose proof (lump_hs _ _ _ _ _ Hp Hp' Hph t v _ _ Rg PS') as E1.
      pose proof (lump_hc _ _ _ _ _ Hp Hp' Hph t v _ _ Rg PS') as E2.
      pose proof (lump_disp _ _ _ _ _ Hp Hp' t v _ _ Rg PS') as E3.
      pose proof (lump_dipole _ _ _ _ _ Hp Hp' Hph t v _ _ Rg PS') as E4.
      pose proof (lump_dq _ _ _ _ _ Hp Hp' Hph t v _ _ Rg PS' (o_dq o)) as E5.
      pose proof (C03_quadrupole_partial prs bin p p' l Hp Hl Hp' Hph t v moles PS Hq) as E6.
      fold s s' in E1, E2, E3, E4, E5, E6. rewrite E1, E2, E3, E4, E5, E6.
      assert (En : p_nassoc p' = p_nassoc p) by (apply (nassoc_perm _ _ _ _ _ Hp Hp' Hl')).
      unfold assoc_term. rewrite En. destruct (p_nassoc p) as [ | [ | k]]; try lia.
      rewrite C03_cross_association by auto. reflexivity.
  Qed.
End C03.

(* -------------------------------------------------- distance to the published energy *)

Lemma fx_close y x e : / 2 <= y -> y <= x -> x <= 1 -> x - y <= e -> Rabs (fx x - fx y) <= 3 / 2 * e.
Proof.
  intros Hy Hxy Hx He.
  assert (L : 0 <= ln x - ln y <= 2 * (x - y)).
  { split.
    - assert (ln y <= ln x); [ | lra]. destruct (Req_dec x y) as [-> | ]; [lra | ]. left. apply ln_increasing; lra.
    - rewrite <- ln_div by lra. pose proof (exp_ineq1_le (ln (x / y))) as E. rewrite exp_ln in E by (apply Rdiv_lt_0_compat; lra).
      assert (x / y - 1 <= 2 * (x - y)); [ | lra].
      replace (x / y - 1) with ((x - y) / y) by (field; lra). apply Rmult_le_reg_r with y; [lra | ].
      unfold Rdiv. rewrite Rmult_assoc, Rinv_l by lra. nra. }
  assert (L2 : x - y <= ln x - ln y).
  { pose proof (exp_ineq1_le (ln (y / x))) as E. rewrite exp_ln in E by (apply Rdiv_lt_0_compat; lra).
    rewrite ln_div in E by lra. assert (x - y <= 1 - y / x); [ | lra].
    replace (1 - y / x) with ((x - y) / x) by (field; lra). apply Rmult_le_reg_r with x; [lra | ].
    unfold Rdiv. rewrite Rmult_assoc, Rinv_l by lra. nra. }
  unfold fx. rewrite Rabs_pos_eq; lra.
Qed.

(** error of the closed form below the low-density switch *)
Definition switch_error (p : params RNum) (moles : list R) : R :=
  let X := mix_of p in
  let a := comp p 0 in
  6 * nth a moles 0 * Na X a * Nb X a * (Na X a + Nb X a) ^ 2 / 2 ^ 78.

Lemma self_close p t v moles : wfp p -> phys p -> assoc_phys p -> phys_state p t v moles ->
  p_nassoc p = 1%nat ->
  let X := mix_of p in
  let a := comp p 0 in
  0 < Na X a -> 0 < Nb X a -> Na X a + Nb X a <= 2 ^ 26 ->
  close_to_law p t v moles (switch_error p moles) (a_assoc p (@state_new RNum t v moles)).
Proof.
  intros W Hph Hap PS Hn X a Ha Hb Hs.
  assert (La : p_assoc_comp p = [a]).
  { rewrite (w_na _ W) in Hn. unfold a, comp. destruct (p_assoc_comp p) as [ | b [ | ]]; try discriminate. reflexivity. }
  pose proof (assoc_lt p W a La) as Hlt.
  unfold close_to_law. cbv zeta. intros xa xb HM HB. fold X in HM, HB |- *. set (rho := fun i => nth i moles 0 / v) in *.
  pose proof (ps_v _ _ _ _ PS) as Hv.
  assert (Hma : 0 <= nth a moles 0) by (apply (ps_nonneg _ _ _ _ PS); auto).
  assert (Hrho : 0 <= rho a) by (apply Rmult_le_pos; [auto | left; apply Rinv_0_lt_compat; auto]).
  pose proof (Delta_nonneg p Hph Hap t v moles PS a a Hlt Hlt) as HD. change (0 <= Delta X t rho a a) in HD.
  rewrite (assoc_two_site_energy p W Hph t v moles PS a La Hb).
  set (d := Delta X t rho a a * rho a). assert (Hd : 0 <= d) by (apply Rmult_le_pos; auto).
  assert (Ecode : f_assoc_xx X rho (xa_code p t v moles a) (xb_code p t v moles a) =
     rho a * (Na X a * fx (xa_code p t v moles a a) + Nb X a * fx (xb_code p t v moles a a))).
  { unfold f_assoc_xx. apply (Sum_single (N X) a); auto.
    intros j Hj Hne. unfold xb_code, xa_code. apply Nat.eqb_neq in Hne. rewrite Hne, fx_1. ring. }
  assert (Etrue : f_assoc_xx X rho xa xb = rho a * (Na X a * fx (xa a) + Nb X a * fx (xb a))).
  { unfold f_assoc_xx. apply (Sum_single (N X) a); auto.
    intros j Hj Hne. destruct (nonassoc_one p t v moles xa xb j HM Hj) as [-> ->].
    - destruct (Req_EM_T (Kab X j) 0) as [ | K]; auto. apply (assoc_unique p W a La j Hj) in K. contradiction.
    - rewrite fx_1. ring. }
  assert (Law : xa a * (1 + d * Nb X a * xb a) = 1 /\ xb a * (1 + d * Na X a * xa a) = 1).
  { destruct (HM a Hlt) as [L1 L2].
    rewrite (Sum_single (N X) a) in L1; auto.
    2:{ intros j Hj Hne. unfold rho. rewrite (Delta_zero p W t v moles a La) by auto. ring. }
    rewrite (Sum_single (N X) a) in L2; auto.
    2:{ intros j Hj Hne. unfold rho. rewrite (Delta_zero p W t v moles a La) by auto. ring. }
    unfold d. split; [etransitivity; [ | exact L1]; ring | etransitivity; [ | exact L2]; ring]. }
  destruct Law as [L1 L2]. destruct (HB a Hlt) as [[A1 A2] [B1 B2]].
  set (ca := xa_code p t v moles a a) in *. set (cb := xb_code p t v moles a a) in *.
  assert (Eca : ca = @assoc_site_frac_ab RNum d (Na X a) (Nb X a)) by (unfold ca, xa_code; rewrite Nat.eqb_refl; reflexivity).
  assert (Ecb : cb = (ca - 1) * (Na X a / Nb X a) + 1) by (unfold cb, xb_code; rewrite Nat.eqb_refl; reflexivity).
  assert (Hse : 0 <= switch_error p moles).
  { unfold switch_error. fold a. change (mix_of p) with X. apply Rdiv_le_0_compat; [ | apply pow_lt; lra].
    repeat apply Rmult_le_pos; try lra; auto. }
  assert (Zero : ca = xa a -> cb = xb a -> Rabs (v * f_assoc_xx X rho (xa_code p t v moles a) (xb_code p t v moles a) - v * f_assoc_xx X rho xa xb) <= switch_error p moles).
  { intros E1 E2. rewrite Ecode, Etrue, E1, E2, Rminus_diag_eq by auto. rewrite Rabs_R0. auto. }
  destruct (Rle_or_lt d 0) as [Hd0 | Hd0].
  { assert (d = 0) as Ed by lra. rewrite Ed in *. destruct (C11_no_association (Na X a) (Nb X a) Hb) as [N1 N2].
    apply Zero; [rewrite Eca, N1; lra | rewrite Ecb, Eca, N2; lra]. }
  destruct (Rle_or_lt d (/ 2 ^ 26)) as [Hd1 | Hd1].
  2:{ destruct (C11_solves_mass_action d (Na X a) (Nb X a) Hd1 Ha Hb) as (_ & _ & _ & _ & U).
      destruct (U (xa a) (xb a) A1 B1 L1 L2) as [U1 U2]. apply Zero; [rewrite Eca; auto | rewrite Ecb, Eca; auto]. }
  assert (Hs1 : d * (Na X a + Nb X a) <= 1).
  { apply Rle_trans with (/ 2 ^ 26 * 2 ^ 26); [apply Rmult_le_compat; lra | rewrite Rinv_l; lra]. }
  destruct (C11_low_density d (Na X a) (Nb X a) (conj Hd0 Hd1) Ha Hb Hs1) as (R1 & R2 & C).
  destruct (C (xa a) (xb a) A1 B1 L1 L2) as [C1 C2]. clear C. rewrite <- Eca in R1, R2, C1, C2. rewrite <- Ecb in R2, C2.
  assert (Half : forall x b y, 0 < x <= 1 -> 0 < y <= 1 -> 0 < b -> d * b <= 1 -> x * (1 + d * b * y) = 1 -> / 2 <= x).
  { intros x b y Hx Hy Hb1 Hdb E. assert (0 < d * b) by (apply Rmult_lt_0_compat; auto).
    assert (d * b * y <= 1) by nra. assert (0 <= d * b * y) by (apply Rmult_le_pos; lra). nra. }
  assert (HA : / 2 <= xa a) by (apply (Half _ (Nb X a) (xb a)); auto; assert (0 < d * Na X a) by (apply Rmult_lt_0_compat; auto); lra).
  assert (HB2 : / 2 <= xb a) by (apply (Half _ (Na X a) (xa a)); auto; assert (0 < d * Nb X a) by (apply Rmult_lt_0_compat; auto); lra).
  pose proof (fx_close (xa a) ca _ HA ltac:(lra) ltac:(lra) (proj2 C1)) as F1.
  pose proof (fx_close (xb a) cb _ HB2 ltac:(lra) ltac:(lra) (proj2 C2)) as F2.
  change (Rabs (v * f_assoc_xx X rho (xa_code p t v moles a) (xb_code p t v moles a) - v * f_assoc_xx X rho xa xb) <= switch_error p moles).
  rewrite Ecode, Etrue.
  replace (v * (rho a * (Na X a * fx ca + Nb X a * fx cb)) - v * (rho a * (Na X a * fx (xa a) + Nb X a * fx (xb a))))
    with (nth a moles 0 * (Na X a * (fx ca - fx (xa a)) + Nb X a * (fx cb - fx (xb a)))) by (unfold rho; field; lra).
  rewrite Rabs_mult, (Rabs_pos_eq (nth a moles 0)) by auto.
  set (S2 := (Na X a + Nb X a) ^ 2) in *. assert (HS2 : 0 <= S2) by (apply pow_le; lra).
  apply Rle_trans with (nth a moles 0 * (6 * Na X a * Nb X a * S2 * d ^ 3)).
  - apply Rmult_le_compat_l; auto. eapply Rle_trans; [apply Rabs_triang | ].
    rewrite !Rabs_mult, (Rabs_pos_eq (Na X a)), (Rabs_pos_eq (Nb X a)) by lra.
    apply Rle_trans with (Na X a * (3 / 2 * (2 * Nb X a * S2 * d ^ 3)) + Nb X a * (3 / 2 * (2 * Na X a * S2 * d ^ 3))); [ | right; field].
    apply Rplus_le_compat; apply Rmult_le_compat_l; lra.
  - unfold switch_error. fold a. change (mix_of p) with X. fold S2.
    assert (D3 : d ^ 3 <= / 2 ^ 78).
    { replace (/ 2 ^ 78) with ((/ 2 ^ 26) ^ 3) by (rewrite pow_inv, <- pow_mult; reflexivity). apply pow_incr. lra. }
    replace (6 * nth a moles 0 * Na X a * Nb X a * S2 / 2 ^ 78) with (nth a moles 0 * (6 * Na X a * Nb X a * S2 * / 2 ^ 78)) by (unfold Rdiv; ring).
    apply Rmult_le_compat_l; auto. apply Rmult_le_compat_l; auto. repeat apply Rmult_le_pos; lra.
Qed.

(** what the association term of a mixture needs to be accurate: nothing without association; sites
    of both kinds for one associating component; otherwise that the accepted iterate is positive
    (see [C13_weak_association], [C13_equal_sites] for two classes of mixtures where it is) *)
Definition positive_run (p : params RNum) (t v : R) (moles : list R) (o : options RNum) : Prop :=
  forall k y, (k < o_max_iter o)%nat -> mixture_run p t v moles (o_tol o) k y -> all_positive (p_nassoc p) (y k).
Definition assoc_regular (p : params RNum) (t v : R) (moles : list R) (o : options RNum) : Prop :=
  let X := mix_of p in
  match p_nassoc p with
  | O => True
  | 1%nat => 0 < Na X (comp p 0) /\ 0 < Nb X (comp p 0) /\ Na X (comp p 0) + Nb X (comp p 0) <= 2 ^ 26
  | _ => (0 < o_max_iter o)%nat /\ 0 < o_tol o < 1 /\ / 2 ^ 52 <= Rho X (fun i => nth i moles 0 / v) /\
         positive_run p t v moles o
  end.
Definition assoc_error (p : params RNum) (v : R) (moles : list R) (o : options RNum) : R :=
  match p_nassoc p with
  | O => 0
  | 1%nat => switch_error p moles
  | _ => tol_error p v moles (o_tol o)
  end.

Theorem C13_association_term lu o prs bin p t v moles a : lu_exact lu -> from_records prs bin = Some p ->
  phys p -> assoc_phys p -> phys_state p t v moles -> assoc_regular p t v moles o ->
  assoc_term lu o p (@state_new RNum t v moles) = Some a ->
  close_to_law p t v moles (assoc_error p v moles o) a.
Proof.
  intros Hlu Hp Hph Hap PS Hr H. pose proof (wfp_from_records _ _ _ Hp) as W.
  unfold assoc_term in H. unfold assoc_regular in Hr. unfold assoc_error.
  destruct (p_nassoc p) as [ | [ | k]] eqn:En.
  - apply Some_inj in H. subst a. unfold close_to_law. cbv zeta. intros xa xb HM HB.
    replace (f_assoc_xx _ _ xa xb) with 0; [rewrite Rmult_0_r, Rminus_0_r, Rabs_R0; lra | ].
    symmetry. apply rsum_zero. intros i Hi. apply seq_in in Hi.
    destruct (nonassoc_one p t v moles xa xb i HM Hi) as [-> ->].
    + destruct (Req_EM_T (Kab (mix_of p) i) 0) as [ | K]; auto. exfalso.
      assert (I : In i (p_assoc_comp p)).
      { rewrite (w_ass _ W). apply filter_In. split; [apply seq_in; exact Hi | ]. apply nonzero_R. exact K. }
      rewrite (w_na _ W) in En. destruct (p_assoc_comp p); [destruct I | discriminate].
    + rewrite fx_1. ring.
  - apply Some_inj in H. subst a. destruct Hr as (R1 & R2 & R3). apply self_close; auto.
  - destruct Hr as (R1 & R2 & R3 & R4).
    destruct (C13_equation_of_state lu prs bin p t v moles _ _ a Hlu Hp Hph Hap PS R1 R2 R3 H) as (k2 & y & Hk & Hrun & _ & Acc).
    specialize (R4 k2 y Hk Hrun). rewrite En in R4. rewrite En in Acc. exact (Acc R4).
Qed.

(* ------------------------------------------------------------------------- regrouping *)

Section Regroup.
  Variables (prs : list (pure_record RNum)) (bin : list (list R)).
  Variables (p p' : params RNum) (l : list nat).
  Hypothesis Hp' : from_records prs bin = Some p'.
  Hypothesis Hp : subset p' l = Some p.
  Hypothesis Hph' : phys p'.
  Hypothesis Hap' : assoc_phys p'.
  Variables (t v : R) (moles moles' : list R).
  Hypothesis Hreg : regrouped l (length (p_m p')) moles moles'.
  Hypothesis PS : phys_state p t v moles.
  Let s := @state_new RNum t v moles.
  Let s' := @state_new RNum t v moles'.
  Variables (lu : lu_solver RNum) (o : options RNum).
  Hypothesis Hlu : lu_exact lu.

  Lemma subset_assoc_phys : assoc_phys p.
  Proof.
    intros i Hi. pose proof (L_phi _ _ _ _ _ Hp' Hp i Hi) as Hphi.
    destruct (Hap' _ Hphi) as (A & B & C & D).
    pose proof (L_k _ _ _ _ _ Hp' Hp i Hi) as E1. pose proof (L_ea _ _ _ _ _ Hp' Hp i Hi) as E2.
    pose proof (L_na _ _ _ _ _ Hp' Hp i Hi) as E3. pose proof (L_nb _ _ _ _ _ Hp' Hp i Hi) as E4.
    change (@ix RNum (p_kappa_ab p) i = @ix RNum (p_kappa_ab p') (nth i l 0%nat)) in E1.
    change (@ix RNum (p_epsilon_k_ab p) i = @ix RNum (p_epsilon_k_ab p') (nth i l 0%nat)) in E2.
    change (@ix RNum (p_na p) i = @ix RNum (p_na p') (nth i l 0%nat)) in E3.
    change (@ix RNum (p_nb p) i = @ix RNum (p_nb p') (nth i l 0%nat)) in E4.
    rewrite E1, E2, E3, E4. auto.
  Qed.

  Theorem regroup_close a a' e e' : close_to_law p t v moles e a -> close_to_law p' t v moles' e' a' ->
    Rabs (a - a') <= e + e'.
  Proof.
    intros C C'.
    pose proof (lump_phys_state _ _ _ _ _ Hp' Hp t v moles moles' Hreg PS) as PS'.
    destruct (law_exists p' Hph' Hap' t v moles' PS') as (xa & xb & HM & HB).
    destruct (lump_mass_action _ _ _ _ _ Hp' Hp t v moles moles' Hreg xa xb HM) as [HM2 Ef].
    specialize (C' xa xb HM HB).
    specialize (C _ _ HM2 (fun i Hi => HB _ (L_phi _ _ _ _ _ Hp' Hp i Hi))).
    cbv beta in C. rewrite Ef in C.
    match type of C with Rabs (a - ?F) <= _ => set (F0 := F) in *;
      replace (a - a') with ((a - F0) + - (a' - F0)) by ring end.
    eapply Rle_trans; [apply Rabs_triang | ]. rewrite Rabs_Ropp. lra.
  Qed.

  Theorem regroup_assoc_close a a' : assoc_regular p t v moles o -> assoc_regular p' t v moles' o ->
    assoc_term lu o p s = Some a -> assoc_term lu o p' s' = Some a' ->
    Rabs (a - a') <= assoc_error p v moles o + assoc_error p' v moles' o.
  Proof.
    intros R R' E E'.
    pose proof (lump_phys_state _ _ _ _ _ Hp' Hp t v moles moles' Hreg PS) as PS'.
    destruct (subset_from_records _ _ _ Hp) as (prs2 & bin2 & Hp2).
    pose proof (C13_association_term lu o _ _ p t v moles a Hlu Hp2 (subset_phys prs bin p p' l Hp' Hp Hph') subset_assoc_phys PS R E) as C.
    pose proof (C13_association_term lu o _ _ p' t v moles' a' Hlu Hp' Hph' Hap' PS' R' E') as C'.
    apply regroup_close; auto.
  Qed.

  Lemma regroup_rest : a_quadrupole p s = a_quadrupole p' s' -> exists b,
    (residual lu (with_options p o) s = option_map (fun a => b + a) (assoc_term lu o p s)) /\
    (residual lu (with_options p' o) s' = option_map (fun a => b + a) (assoc_term lu o p' s')).
  Proof.
    intros Hq. rewrite !residual_total.
    pose proof (lump_hs _ _ _ _ _ Hp' Hp Hph' t v moles moles' Hreg PS) as E1.
    pose proof (lump_hc _ _ _ _ _ Hp' Hp Hph' t v moles moles' Hreg PS) as E2.
    pose proof (lump_disp _ _ _ _ _ Hp' Hp t v moles moles' Hreg PS) as E3.
    pose proof (lump_dipole _ _ _ _ _ Hp' Hp Hph' t v moles moles' Hreg PS) as E4.
    pose proof (lump_dq _ _ _ _ _ Hp' Hp Hph' t v moles moles' Hreg PS (o_dq o)) as E5.
    fold s s' in E1, E2, E3, E4, E5. rewrite E1, E2, E3, E4, E5, Hq.
    eexists. split; [destruct (assoc_term lu o p s) | destruct (assoc_term lu o p' s')]; reflexivity.
  Qed.

  Theorem regroup_residual_close r r' : assoc_regular p t v moles o -> assoc_regular p' t v moles' o ->
    a_quadrupole p s = a_quadrupole p' s' ->
    residual lu (with_options p o) s = Some r -> residual lu (with_options p' o) s' = Some r' ->
    Rabs (r - r') <= assoc_error p v moles o + assoc_error p' v moles' o.
  Proof.
    intros R R' Hq. destruct (regroup_rest Hq) as (b & -> & ->).
    destruct (assoc_term lu o p s) as [a | ] eqn:Ea; [ | discriminate].
    destruct (assoc_term lu o p' s') as [a' | ] eqn:Ea'; [ | discriminate].
    intros H H'. apply Some_inj in H. apply Some_inj in H'. subst r r'.
    replace (b + a - (b + a')) with (a - a') by ring.
    apply regroup_assoc_close; auto.
  Qed.
End Regroup.

(* ----------------------------------------------------------------------------- C04 *)

Section C04.
  Variables (prs : list (pure_record RNum)) (bin : list (list R)).
  Variables (p p' : params RNum) (l : list nat).
  Hypothesis Hp : from_records prs bin = Some p.
  Hypothesis Hp' : subset p l = Some p'.
  Hypothesis Hph : phys p.
  Hypothesis Hap : assoc_phys p.
  Variables (t v : R) (moles : list R).
  (** the subset lists each component once and contains all components that are present *)
  Hypothesis D : NoDup l.
  Hypothesis Z : forall j, (j < length prs)%nat -> ~ In j l -> nth j moles 0 = 0.
  Hypothesis PS : phys_state p t v moles.
  Let s := @state_new RNum t v moles.
  Let s' := @state_new RNum t v (pick moles l).

  Let n : length (p_m p) = length prs.
  Proof. rewrite (from_records_raw_of _ _ _ Hp). apply fr_len_m. Qed.
  Let Z' : forall j, (j < length (p_m p))%nat -> ~ In j l -> nth j moles 0 = 0.
  Proof. rewrite n. exact Z. Qed.
  Let Rg := pick_regrouped p l t v moles D Z' PS.
  Let PS' := pick_phys_state prs bin p' p l Hp Hp' t v moles D Z' PS.

  (** Any number of associating components: both mixtures have the same residual Helmholtz energy up
      to the tolerance of the association solver.  Missing: runs of the solver that accept a vector
      with a fraction that is not positive. *)
  Theorem C04_residual_partial lu o r r' : lu_exact lu ->
    (forall i j, (i <= j < length l)%nat -> (nth i l 0 <= nth j l 0)%nat) ->
    assoc_regular p t v moles o -> assoc_regular p' t v (pick moles l) o ->
    residual lu (with_options p' o) s' = Some r' -> residual lu (with_options p o) s = Some r ->
    Rabs (r' - r) <= assoc_error p' v (pick moles l) o + assoc_error p v moles o.
  Proof.
    intros Hlu Ho R R'. apply (regroup_residual_close prs bin p' p l Hp Hp' Hph Hap t v _ _ Rg PS' lu o Hlu); auto.
    apply (C04_quadrupole prs bin p p' l Hp Hp' Hph t v moles D Z PS Ho).
  Qed.
End C04.

(* ----------------------------------------------------------------------------- C05 *)

Section C05.
  Variables (prs : list (pure_record RNum)) (bin : list (list R)).
  Variables (p p' : params RNum) (l : list nat).
  Hypothesis Hp : from_records prs bin = Some p.
  (** [p'] lists copies of the components of [p], each any number of times, in any order;
      copies share the binary parameters of the original (the diagonal entry between copies) *)
  Hypothesis Hp' : subset p l = Some p'.
  Hypothesis Hph : phys p.
  Hypothesis Hap : assoc_phys p.
  Variables (t v : R) (moles : list R).
  (** the mixture of copies; the original mixture has the summed amounts *)
  Hypothesis PS : phys_state p' t v moles.
  Let total := merge l (length prs) moles.
  Let s' := @state_new RNum t v moles.
  Let s := @state_new RNum t v total.

  Let n : length (p_m p) = length prs.
  Proof. rewrite (from_records_raw_of _ _ _ Hp). apply fr_len_m. Qed.
  Let Rg : regrouped l (length (p_m p)) moles total.
  Proof.
    rewrite n. apply regrouped_merge. rewrite (ps_len _ _ _ _ PS).
    apply (lu_n _ _ _ (subset_lumped _ _ _ _ _ Hp Hp')).
  Qed.

  Theorem C05_residual_partial lu o r r' : lu_exact lu ->
    (forall i j, (i <= j < length l)%nat -> (nth i l 0 <= nth j l 0)%nat) \/ one_quadrupole_diameter p ->
    assoc_regular p t v total o -> assoc_regular p' t v moles o ->
    residual lu (with_options p' o) s' = Some r' -> residual lu (with_options p o) s = Some r ->
    Rabs (r' - r) <= assoc_error p' v moles o + assoc_error p v total o.
  Proof.
    intros Hlu Ho R R'. apply (regroup_residual_close prs bin p' p l Hp Hp' Hph Hap t v _ _ Rg PS lu o Hlu); auto.
    apply (C05_quadrupole prs bin p p' l Hp Hp' Hph t v moles PS Ho).
  Qed.
End C05.

Print Assumptions C03_cross_association.
Print Assumptions C03_residual_partial.
Print Assumptions C04_residual_partial.
Print Assumptions C05_residual_partial.
Print Assumptions C13_association_term.
