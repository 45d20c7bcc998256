(** C41 for several associating components: the functional's association term with dual numbers.

    The site fractions are iterated from the fractions of the previous grid point and stopped by a
    tolerance, so that they are not exact.  For every order, every direction in temperature and
    weighted densities and every eps there is a tolerance from which on all derivatives returned at
    all points of a profile are within eps of the derivatives of the exact energy density, whenever
    the iterates stay positive. *)
From Coq Require Import ZArith QArith Reals Lra Lia String List Bool.
From Coquelicot Require Import Coquelicot.
From Interval Require Import Tactic.
From Verif Require Import Num RNum RSum Tables M_Params F_Params M_Eos M_Dft Spec SpecDft F_Spec F_SpecPolar F_SpecAssoc
  F_Contrib F_Newton F_Gauss F_MassAction F_MassAction2 F_NewtonR F_Cross F_Transfer F_TransferS XNum DNum F_Level Samples P_Params
  P_Assoc P_Assoc2 P_Dual P_Dual2 F_DualNewton F_DualGauss P_Dual3 F_Dft F_Dft2 F_DftT F_DftT2 P_DftR P_DftD P_Profile P_Converge P_Dual4 F_CrossDual.
Import ListNotations.
Local Open Scope R_scope.
Set Bullet Behavior "Strict Subproofs".
Notation length := List.length.

(* ------------------------------------------------------------------------- specification *)
(** The law of mass action at one grid point with weighted densities [w]: densities and contact
    values are reduced by the vector densities ([rho_eff], [xi_all], with the switches at 1e-9). *)
Definition pair_strength (p : params RNum) (tt : R) (dim : nat) (w : list R) (i j : nat) : R :=
  let X := mix_of p in let u := 1 - nth (length (p_m p) * (dim + 1)) w 0 in
  let n2 := n2_all p tt w in let xi := xi_all p tt dim w in
  let D := Di X tt i * Di X tt j / (Di X tt i + Di X tt j) in
  (1 / u + D * n2 * xi / (2 * u ^ 2) + D ^ 2 * n2 ^ 2 * xi / (18 * u ^ 3))
  * Sij X i j ^ 3 * Kapij X i j * (exp ((Eab X i + Eab X j) / 2 / tt) - 1).
Definition point_law (p : params RNum) (tt : R) (dim : nat) (w : list R) (x : list R) : Prop :=
  let X := mix_of p in let c := comp p in
  site_law (p_nassoc p) (fun i j => pair_strength p tt dim w (c i) (c j)) (fun i => Na X (c i)) (fun i => Nb X (c i))
    (fun i => rho_eff p tt (c i) dim w) x.
Definition point_energy (p : params RNum) (tt : R) (dim : nat) (w : list R) (x : list R) : R :=
  let X := mix_of p in let c := comp p in
  site_energy (p_nassoc p) (fun i => Na X (c i)) (fun i => Nb X (c i)) (fun i => rho_eff p tt (c i) dim w) x.
(** a run of Newton's method from the start vector [y 0]: accepted after [k] steps, positive *)
Definition point_run (p : params RNum) (tt : R) (dim : nat) (w : list R) (tol : R) (k : nat) (y : nat -> list R) : Prop :=
  let X := mix_of p in let c := comp p in
  newton_run (p_nassoc p) (fun i j => pair_strength p tt dim w (c i) (c j)) (fun i => Na X (c i)) (fun i => Nb X (c i))
    (fun i => rho_eff p tt (c i) dim w) tol k y /\
  (forall j, (j <= k)%nat -> all_positive (p_nassoc p) (y j)).
(** total density after the reduction, and points away from the switches *)
Definition rho_total (p : params RNum) (tt : R) (dim : nat) (w : list R) : R := Sum i < length (p_m p), rho_eff p tt i dim w.
Definition point_regular (p : params RNum) (tt : R) (dim : nat) (w : list R) : Prop :=
  let c := length (p_m p) in
  length w = (c * (dim + 1) + 1)%nat /\ (forall i, (i < c)%nat -> 0 <= nth i w 0 /\ nth i w 0 <> / 10 ^ 9) /\
  (Sum i < c, nth i w 0) <> / 10 ^ 9 /\ nth (c * (dim + 1)) w 0 < 1 /\
  (forall i, (i < c)%nat -> 0 <= rho_eff p tt i dim w) /\ 0 <= xi_all p tt dim w.

(** the runs at the points of a profile: the accepted fractions of a point start the next one;
    points below the smallest density reset the fractions to one *)
Fixpoint profile_run (p : params RNum) (tt : R) (dim max_iter : nat) (tol : R) (x : list R) (pts : list (list R)) : Prop :=
  match pts with
  | [] => True
  | w :: pts =>
      (rho_total p tt dim w < / 2 ^ 52 /\ profile_run p tt dim max_iter tol (map (fun _ => 1) x) pts) \/
      (/ 2 ^ 52 <= rho_total p tt dim w /\ exists k y, (k < max_iter)%nat /\ y O = x /\ point_run p tt dim w tol k y /\
         profile_run p tt dim max_iter tol (y (S k)) pts)
  end.

Lemma eff_alg (S a : R) : S * / - (a * a) + 1 = 1 - S * / a ^ 2.
Proof. rewrite Rinv_opp. replace (a ^ 2) with (a * a) by ring. ring. Qed.

Section Point.
  Variables (prs : list (pure_record RNum)) (bin : list (list R)) (p : params RNum).
  Hypothesis Hp : from_records prs bin = Some p.
  Hypothesis Hph : phys p.
  Hypothesis Hap : assoc_phys p.
  Let W : wfp p := wfp_from_records prs bin p Hp.
  Notation X := (mix_of p). Notation c := (length (p_m p)). Notation m := (p_nassoc p).

  Lemma dim_of (w : list R) dim : length w = (c * (dim + 1) + 1)%nat -> (0 < c)%nat -> @da_dim RNum p w = dim.
  Proof. exact (dim_len p w dim). Qed.
  Lemma rho_eff_at tt dim w i : (i < c)%nat -> length w = (c * (dim + 1) + 1)%nat -> @ix RNum (da_rho0 p tt w) i = rho_eff p tt i dim w.
  Proof.
    intros Hi L. unfold da_rho0. rewrite (@ix_mk1 RNum) by auto. cbv zeta. rewrite (dim_of _ _ L), n0_cutoff_R, (n2i_spec prs bin p Hp) by lia. unfold rho_eff.
    change (@da_n0i RNum p w i) with (nth i w 0). change (@nltb RNum) with Rltb. destruct (Rltb _ _); [reflexivity | ].
    rewrite nsumi_R. rn. f_equal. unfold Rdiv.
    replace (Sum j < dim, @da_n2vi RNum p w j i * @da_n2vi RNum p w j i) with (Sum j < dim, nth (c * (j + 1) + i) w 0 ^ 2).
    2: { apply Sum_ext. intros j _. unfold da_n2vi. change (@ix RNum w (length (p_m p) * (j + 1) + i)) with (nth (c * (j + 1) + i) w 0). ring. }
    exact (eff_alg _ _).
  Qed.
  Lemma xi_at tt dim w : (0 < c)%nat -> length w = (c * (dim + 1) + 1)%nat -> @da_xi RNum p tt w = xi_all p tt dim w.
  Proof.
    intros C L. unfold da_xi. cbv zeta. rewrite (dim_of _ _ L C), n0_cutoff_R, (n2_spec prs bin p Hp), !nsumi_R. unfold xi_all.
    change (@nltb RNum) with Rltb. change (Sum i < c, @da_n0i RNum p w i) with (Sum i < c, nth i w 0).
    destruct (Rltb _ _); [unfold n1; rn; reflexivity | ].
    rn. unfold Rdiv.
    rewrite (rsum_ext _ _ (fun j => (Sum i < c, nth (c * (j + 1) + i) w 0) ^ 2)).
    2: { intros j _. rewrite nsumi_R. unfold da_n2vi. change (Sum i < c, @ix RNum w (c * (j + 1) + i)) with (Sum i < c, nth (c * (j + 1) + i) w 0). ring. }
    exact (eff_alg _ _).
  Qed.
  Lemma strength_at tt dim w i j : 0 < tt -> (i < c)%nat -> (j < c)%nat -> length w = (c * (dim + 1) + 1)%nat -> nth (c * (dim + 1)) w 0 < 1 ->
    @association_strength RNum p tt (seg_radius p tt) (da_n2 p tt w) (da_n3i p w) (da_xi p tt w) i j = pair_strength p tt dim w i j.
  Proof.
    intros Ht Hi Hj L H3. unfold pair_strength. cbv zeta. rewrite (n2_spec prs bin p Hp), (xi_at _ dim) by (auto; lia). unfold da_n3i, da_n3. rewrite (dim_of _ _ L) by lia.
    change (@ix RNum w (c * (dim + 1))) with (nth (c * (dim + 1)) w 0). set (n3 := nth _ _ _) in *.
    replace (@nrecip RNum (@nadd RNum (@nopp RNum n3) (@nlit RNum 1%Q))) with (/ (1 - n3)) by (rn; f_equal; ring).
    rewrite (strength_d prs bin p Hp Hph tt Ht) by (auto; lra). reflexivity.
  Qed.
  Lemma pair_strength_nonneg tt dim w i j : 0 < tt -> (i < c)%nat -> (j < c)%nat -> point_regular p tt dim w -> 0 <= pair_strength p tt dim w i j.
  Proof.
    intros Ht Hi Hj (_ & P0 & _ & H3 & _ & Hx). unfold pair_strength. cbv zeta. set (u := 1 - _). assert (Hu : 0 < u) by (unfold u; lra). clearbody u.
    destruct (Hap i Hi) as (K1 & E1 & _). destruct (Hap j Hj) as (K2 & E2 & _). destruct (Hph i Hi) as (_ & S1 & _). destruct (Hph j Hj) as (_ & S2 & _).
    pose proof (Di_pos p Hph tt Ht i Hi) as D1. pose proof (Di_pos p Hph tt Ht j Hj) as D2.
    assert (HD : 0 <= Di X tt i * Di X tt j / (Di X tt i + Di X tt j)).
    { left. apply Rdiv_lt_0_compat; [apply Rmult_lt_0_compat; auto | lra]. }
    set (D := _ / _) in *. clearbody D.
    assert (Hn : 0 <= n2_all p tt w).
    { unfold n2_all. apply rsum_nonneg. intros k Hk. apply seq_in in Hk. apply Rmult_le_pos; [apply P0; auto | ].
      unfold surface. pose proof PI_RGT_0. destruct (Hph k Hk) as (M1 & _). pose proof (pow2_ge_0 (Di X tt k)). apply Rmult_le_pos; auto. apply Rmult_le_pos; [lra | ].
      left. exact M1. }
    set (n2 := n2_all p tt w) in *. clearbody n2. set (xi := xi_all p tt dim w) in *. clearbody xi.
    assert (A : 0 <= 1 / u + D * n2 * xi / (2 * u ^ 2) + D ^ 2 * n2 ^ 2 * xi / (18 * u ^ 3)).
    { assert (0 < u ^ 2) by (apply pow_lt; auto). assert (0 < u ^ 3) by (apply pow_lt; auto).
      apply Rplus_le_le_0_compat; [apply Rplus_le_le_0_compat | ].
      - left. apply Rdiv_lt_0_compat; lra.
      - apply Rmult_le_pos; [ | left; apply Rinv_0_lt_compat; lra]. repeat apply Rmult_le_pos; auto.
      - apply Rmult_le_pos; [ | left; apply Rinv_0_lt_compat; lra]. apply Rmult_le_pos; auto. apply Rmult_le_pos; apply pow2_ge_0. }
    set (Y := 1 / u + _ + _) in *. clearbody Y.
    assert (B : 0 <= Sij X i j ^ 3).
    { apply pow_le. unfold Sij. change (0 < Sg X i) in S1. change (0 < Sg X j) in S2. lra. }
    assert (C : 0 <= Kapij X i j).
    { unfold Kapij. apply Rmult_le_pos; [apply sqrt_pos | ]. apply pow_le. change (0 < Sg X i) in S1. change (0 < Sg X j) in S2.
      apply Rmult_le_pos; [apply sqrt_pos | left; apply Rinv_0_lt_compat]. unfold Sij. lra. }
    assert (G : 0 <= exp ((Eab X i + Eab X j) / 2 / tt) - 1).
    { assert (0 <= (Eab X i + Eab X j) / 2 / tt).
      { change (0 <= Eab X i) in E1. change (0 <= Eab X j) in E2. apply Rmult_le_pos; [lra | left; apply Rinv_0_lt_compat; lra]. }
      pose proof (exp_ineq1_le ((Eab X i + Eab X j) / 2 / tt)). lra. }
    generalize dependent (Sij X i j ^ 3). intros b B. generalize dependent (Kapij X i j). intros k C.
    generalize dependent (exp ((Eab X i + Eab X j) / 2 / tt) - 1). intros g G. repeat apply Rmult_le_pos; auto.
  Qed.

  (* -------------------------------------------------------------------- dual numbers *)
  Variables (n : nat) (t : R) (dt : list R).
  Hypothesis Ht : 0 < t.
  Notation zn := (lz (dual n)). Notation E := (emb (TRn n)).
  Notation tz := (aff n t dt). Notation td := (seed n t dt).
  Notation q := (plift (emb (TRn n)) p).
  Notation wdz := (wdz n). Notation wdd := (wdd n).
  Let Tt : rel (TRn n) tz td := rel_aff n t dt.
  Let Ht0 : 0 < tz zn. Proof. rewrite aff_base. exact Ht. Qed.

  Lemma T_rho_i wd i : (i < c)%nat -> 0 <= nth i (map fst wd) 0 -> nth i (map fst wd) 0 <> / 10 ^ 9 ->
    rel (TRn n) (fun z => @ix RNum (da_rho0 p (tz z) (wdz wd z)) i) (ix (da_rho0 q td (wdd wd)) i).
  Proof.
    intros L Hpos Hcut. pose proof (wdz_rel n wd) as Tw. pose proof (qlen p n) as Ql. unfold da_rho0.
    rewrite Ql. rewrite ix_mk1 by auto. set (TR := TRn n).
    set (wd1 := wdz wd) in *. set (wd2 := wdd wd) in *.
    assert (Hc0 : @ix RNum (wd1 zn) i <> @n0_cutoff RNum).
    { unfold wd1. rewrite (wdz_ix n), n0_cutoff_R. intros C. apply Hcut. rewrite C. lra. }
    apply (rel_eq TR (fun x => if @nltb RNum (@ix RNum (wd1 x) i) (@n0_cutoff RNum) then @ix RNum (wd1 x) i
      else @nmul RNum (@nadd RNum (@ndiv RNum (@nsumi RNum (da_dim q wd2) (fun j => @nmul RNum (da_n2vi p (wd1 x) j i) (da_n2vi p (wd1 x) j i)))
         (@nopp RNum (@nmul RNum (da_n2i p (tz x) (wd1 x) i) (da_n2i p (tz x) (wd1 x) i)))) (@nlit RNum 1%Q)) (@ix RNum (wd1 x) i))).
    { intros x. rewrite (@ix_mk1 RNum) by auto. cbv zeta. rewrite (dim_x p n wd1 wd2 Tw). reflexivity. }
    assert (Hc : rel TR (fun _ => @n0_cutoff RNum) n0_cutoff) by apply (tr_lit _ _ TR).
    pose proof (w_ix n wd1 wd2 Tw i) as Wi.
    apply (tr_br _ _ TR (fun x => @ix RNum (wd1 x) i) (fun _ => @n0_cutoff RNum)).
    - exact (sep_br n _ _ _ _ Wi Hc Hc0).
    - cbv zeta. unfold da_n0i. rewrite (tr_ltb _ _ TR _ _ _ _ Wi Hc). change (@nltb RNum) with Rltb. destruct (Rltb _ _) eqn:El; [exact Wi | ].
      apply Rltb_false in El. pose proof n0_cut. pose proof (area_p p W Hph n tz Ht0 i L) as Ar.
      apply (tr_mul _ _ TR); [ | exact Wi]. apply (tr_add _ _ TR); [ | tr TR]. apply (tr_div _ _ TR).
      + apply (tr_nsumi TR). intros j Hj. apply (tr_mul _ _ TR); apply (T_n2vi p n wd1 wd2 Tw).
      + apply (tr_opp _ _ TR). apply (tr_mul _ _ TR); apply (T_n2i p n tz td wd1 wd2 Tt Tw Ht0).
      + assert (P : 0 < da_n2i p (tz zn) (wd1 zn) i).
        { unfold da_n2i, da_n0i. rn. apply Rmult_lt_0_compat; [lra | exact Ar]. }
        rn. assert (0 < da_n2i p (tz zn) (wd1 zn) i * da_n2i p (tz zn) (wd1 zn) i) by (apply Rmult_lt_0_compat; auto). lra.
  Qed.

  Section At.
    Variables (wd : list (R * list R)) (dim : nat).
    Hypothesis Hreg : point_regular p t dim (map fst wd).
    Hypothesis Hm : (0 < m)%nat.
    Let Hc : (0 < c)%nat. Proof. pose proof (comp_lt p W 0%nat Hm). lia. Qed.
    Let Lw z : length (wdz wd z) = (c * (dim + 1) + 1)%nat.
    Proof. unfold P_DftD.wdz. rewrite map_length. destruct Hreg as (L & _). rewrite map_length in L. exact L. Qed.
    Notation rho0 := (fun z => @da_rho0 RNum p (tz z) (wdz wd z)).
    Notation rho0d := (da_rho0 q td (wdd wd)).
    Notation n2d := (da_n2 q td (wdd wd)). Notation n3d := (da_n3i q (wdd wd)). Notation xid := (da_xi q td (wdd wd)).
    Let Dl z := @ca_delta RNum p (tz z) (seg_radius p (tz z)) (da_n2 p (tz z) (wdz wd z)) (da_n3i p (wdz wd z)) (da_xi p (tz z) (wdz wd z)).

    Lemma at_rho : lrel (TRn n) rho0 rho0d.
    Proof.
      destruct Hreg as (_ & P0 & _).
      assert (L : length rho0d = c).
      { unfold da_rho0. rewrite (qlen p n). apply mk1_length. }
      exists (map (fun i z => @ix RNum (rho0 z) i) (seq 0 c)). split.
      - intros z. rewrite map_map. apply (nth_ext _ _ 0 0).
        + unfold da_rho0. rewrite mk1_length, map_length, seq_length. reflexivity.
        + intros i Hi. unfold da_rho0 in Hi. rewrite mk1_length in Hi. symmetry. etransitivity; [exact (nth_mk1 c (fun i => @ix RNum (rho0 z) i) i 0 Hi) | reflexivity].
      - rewrite <- (F_DualNewton.mk1_ix n rho0d), L. unfold mk1.
        assert (G : forall l, (forall i, In i l -> (i < c)%nat) -> Forall2 (rel (TRn n)) (map (fun i z => @ix RNum (rho0 z) i) l) (map (ix rho0d) l)).
        { induction l as [ | i l IH]; intros Hl; cbn [map]; constructor.
          - apply T_rho_i; [apply Hl; left; auto | apply P0, Hl; left; auto | apply P0, Hl; left; auto].
          - apply IH. intros j Hj. apply Hl. right. auto. }
        apply G. intros i Hi. apply seq_in in Hi. auto.
    Qed.
    Lemma at_str i j : (i < m)%nat -> (j < m)%nat -> rel (TRn n) (fun z => @ix2 RNum (Dl z) i j) (ix2 (ca_delta q td (seg_radius q td) n2d n3d xid) i j).
    Proof.
      intros Hi Hj. destruct Hreg as (_ & P0 & Hs & H3 & _ & _). pose proof (wdz_rel n wd) as Tw.
      pose (st := fun z : pt n => mkState (K := RNum) (tz z) 1 nil nil nil). pose (st2 := mkState (K := lK (dual n)) td n1 nil nil nil).
      assert (N0 : forall i, (i < c)%nat -> 0 <= @ix RNum (wdz wd zn) i) by (intros k Hk; rewrite (wdz_ix n); apply P0; auto).
      pose proof (T_n2 p n tz td (wdz wd) (wdd wd) Tt Tw Ht0) as T2.
      assert (T3 : rel (TRn n) (fun z => da_n3i p (wdz wd z)) n3d).
      { apply (T_n3i p n (wdz wd) (wdd wd) Tw). unfold da_n3. rewrite (dim_of _ _ (Lw zn) Hc), (wdz_ix n). exact H3. }
      assert (T1 : rel (TRn n) (fun z => da_xi p (tz z) (wdz wd z)) xid).
      { apply (T_xi p W Hph n tz td (wdz wd) (wdd wd) Tt Tw Ht0 N0). rewrite (wdz_base n), n0_cutoff_R. intros C. apply Hs.
        change (total_density p (map fst wd)) with (Sum i < c, nth i (map fst wd) 0) in C. rewrite C. lra. }
      pose proof (F_TransferS.tr_strength (TRn n) p W Hph st st2 Tt Ht0 (comp p i) (comp p j) _ _ _ _ _ _ (comp_lt p W i Hi) (comp_lt p W j Hj) T2 T3 T1) as Ts.
      unfold ca_delta. change (p_nassoc q) with m. rewrite ix2_mk2 by auto.
      eapply (rel_eq (TRn n)); [ | exact Ts]. intros z. unfold Dl, ca_delta. rewrite ix2_mk2 by auto. reflexivity.
    Qed.
    Lemma at_near : near (dual n) (fun z => (forall i j, (i < m)%nat -> (j < m)%nat ->
        @ix2 RNum (Dl z) i j = pair_strength p (tz z) dim (wdz wd z) (comp p i) (comp p j)) /\
      (forall i, (i < m)%nat -> @ix RNum (@ca_sel RNum p (rho0 z)) i = rho_eff p (tz z) (comp p i) dim (wdz wd z))).
    Proof.
      destruct Hreg as (_ & P0 & Hs & H3 & _ & _). pose proof (wdz_rel n wd) as Tw.
      assert (N1 : near (dual n) (fun z => 0 < tz z)) by exact (rel_gt (dual n) _ _ 0 Tt Ht0).
      assert (N2 : near (dual n) (fun z => @ix RNum (wdz wd z) (c * (dim + 1)) < 1)).
      { apply (rel_lt (dual n) _ _ 1 (w_ix n _ _ Tw (c * (dim + 1))%nat)). cbv beta. rewrite (wdz_ix n). exact H3. }
      eapply near_imp; [ | exact (near_and _ _ _ N1 N2)]. intros z [A B]. split.
      - intros i j Hi Hj. unfold Dl, ca_delta. rewrite ix2_mk2 by auto. apply strength_at; auto; apply comp_lt; auto.
      - intros i Hi. unfold ca_sel. rewrite (ix_mk1 (K := RNum)) by auto. apply rho_eff_at; auto. exact (comp_lt p W i Hi).
    Qed.
    Lemma at_sites i : (i < m)%nat -> @ix RNum (na_ p) i = Na X (comp p i) /\ @ix RNum (nb_ p) i = Nb X (comp p i).
    Proof. intros Hi. split; [apply na_ix; auto | apply nb_ix; auto]. Qed.
    Lemma at_total : @nsum RNum (rho0 zn) = rho_total p t dim (map fst wd).
    Proof.
      unfold rho_total. rewrite nsum_R. etransitivity; [exact (rsum_nth _ 0 (fun x => x)) | ].
      assert (Ls : length (rho0 zn) = c) by (unfold da_rho0; apply mk1_length).
      etransitivity; [exact (f_equal (fun k => rsum (seq 0 k) (fun i => nth i (rho0 zn) 0)) Ls) | ].
      apply Sum_ext. intros i Hi. etransitivity; [exact (rho_eff_at (tz zn) dim (wdz wd zn) i Hi (Lw zn)) | ].
      rewrite (wdz_base n), aff_base. reflexivity.
    Qed.

    (** one grid point, any start vector *)
    Theorem C41_cross_point (lu : lu_solver (lK (dual n))) : lu_dual n lu -> / 2 ^ 52 <= rho_total p t dim (map fst wd) ->
      exists F : pt n -> list R, near (dual n) (fun z => point_law p (tz z) dim (wdz wd z) (F z)) /\
        forall eps, 0 < eps -> exists tol0, 0 < tol0 < 1 /\
        forall tol max_iter k y, 0 < tol <= tol0 -> (k < max_iter)%nat -> point_run p t dim (map fst wd) tol k y ->
          exists a, cross_association lu q td rho0d (seg_radius q td) n2d n3d xid max_iter (E tol) (Some (map E (y O))) = (Ok a, Some (map E (y (S k)))) /\
            forall s, length s = n -> exists r d, coef n s a = Fin r /\
              partial n s (fun z => point_energy p (tz z) dim (wdz wd z) (F z)) d /\ Rabs (r - d) < eps.
    Proof.
      intros Hlu Hrho. pose proof at_near as Nr. pose proof (near_z (dual n) _ Nr) as [B1' B2']. cbv beta in B1', B2'.
      assert (B1 : forall i j, (i < m)%nat -> (j < m)%nat -> @ix2 RNum (Dl zn) i j = pair_strength p t dim (map fst wd) (comp p i) (comp p j)).
      { intros i j Hi Hj. rewrite B1', (wdz_base n), aff_base by auto. reflexivity. }
      assert (B2 : forall i, (i < m)%nat -> @ix RNum (@ca_sel RNum p (rho0 zn)) i = rho_eff p t (comp p i) dim (map fst wd)).
      { intros i Hi. rewrite B2', (wdz_base n), aff_base by auto. reflexivity. }
      assert (Pd : forall i j, (i < m)%nat -> (j < m)%nat -> 0 <= @ix2 RNum (Dl zn) i j).
      { intros i j Hi Hj. rewrite B1 by auto. apply pair_strength_nonneg; auto; apply comp_lt; auto. }
      assert (Pn : forall i, (i < m)%nat -> 0 <= @ix RNum (na_ p) i /\ 0 <= @ix RNum (nb_ p) i /\ 0 <= @ix RNum (@ca_sel RNum p (rho0 zn)) i).
      { intros i Hi. destruct (at_sites i Hi) as [-> ->]. destruct (Hap (comp p i) (comp_lt p W i Hi)) as (_ & _ & A & B).
        split; [exact A | ]. split; [exact B | ]. rewrite B2 by auto. destruct Hreg as (_ & _ & _ & _ & P & _). apply P. apply comp_lt; auto. }
      rewrite <- at_total in Hrho.
      destruct (core p n rho0 rho0d td n2d n3d xid Dl at_rho at_str Pd Pn lu Hlu Hrho) as (F & LF & H).
      exists F. split.
      { eapply near_imp; [ | exact (near_and _ _ _ Nr LF)]. intros z [[A1 A2] B]. unfold point_law. cbv zeta.
        eapply site_law_ext; [ | | exact B]; [exact A1 | ]. intros i Hi. destruct (at_sites i Hi) as [-> ->]. rewrite <- A2 by auto. auto. }
      intros eps He. destruct (H eps He) as (tol0 & Ht1 & H0). exists tol0. split; auto.
      intros tol max_iter k y Htol Hk [Run Py].
      destruct (H0 tol max_iter k y Htol Hk) as (a & Ea & Ca); [ | exact Py | ].
      { cbv zeta in Run. 
        assert (Ba : forall y i, (i < m)%nat ->
          bonds_a m (@ix2 RNum (Dl zn)) (@ix RNum (nb_ p)) (@ix RNum (@ca_sel RNum p (rho0 zn))) y i =
          bonds_a m (fun i j => pair_strength p t dim (map fst wd) (comp p i) (comp p j)) (fun i => Nb X (comp p i)) (fun i => rho_eff p t (comp p i) dim (map fst wd)) y i).
        { intros y' i Hi. apply Sum_ext. intros j Hj. rewrite B1, B2 by auto. destruct (at_sites j Hj) as [_ ->]. auto. }
        assert (Bb : forall y i, (i < m)%nat ->
          bonds_b m (@ix2 RNum (Dl zn)) (@ix RNum (na_ p)) (@ix RNum (@ca_sel RNum p (rho0 zn))) y i =
          bonds_b m (fun i j => pair_strength p t dim (map fst wd) (comp p i) (comp p j)) (fun i => Na X (comp p i)) (fun i => rho_eff p t (comp p i) dim (map fst wd)) y i).
        { intros y' i Hi. apply Sum_ext. intros j Hj. rewrite B1, B2 by auto. destruct (at_sites j Hj) as [-> _]. auto. }
        assert (Rn : forall y, residual_norm m (@ix2 RNum (Dl zn)) (@ix RNum (na_ p)) (@ix RNum (nb_ p)) (@ix RNum (@ca_sel RNum p (rho0 zn))) y =
          residual_norm m (fun i j => pair_strength p t dim (map fst wd) (comp p i) (comp p j)) (fun i => Na X (comp p i)) (fun i => Nb X (comp p i)) (fun i => rho_eff p t (comp p i) dim (map fst wd)) y).
        { intros y'. unfold residual_norm. f_equal. f_equal; apply Sum_ext; intros i Hi; [rewrite Ba by auto | rewrite Bb by auto]; auto. }
        destruct Run as (U1 & U2 & U3). split; [ | split].
        - intros j Hj. destruct (U1 j Hj) as [Lj Uj]. split; auto. intros Nz. destruct (Uj Nz) as [L1 H1]. split; auto. intros i Hi. rewrite !Ba, !Bb by auto. apply H1; auto.
        - intros j Hj. rewrite Rn. auto.
        - rewrite Rn. auto. }
      exists a. split; [exact Ea | ]. intros s Hs. destruct (Ca s Hs) as (r & d & C1 & C2 & C3). exists r, d. split; auto. split; auto.
      eapply partial_near; [ | exact C2]. eapply near_imp; [ | exact Nr]. intros z [_ A2]. unfold point_energy. cbv zeta.
      apply site_energy_ext. intros i Hi. destruct (at_sites i Hi) as [-> ->]. rewrite <- A2 by auto. auto.
    Qed.
    Lemma at_dilute lu max_iter tol x : rho_total p t dim (map fst wd) < / 2 ^ 52 ->
      cross_association lu q td rho0d (seg_radius q td) n2d n3d xid max_iter tol (Some (map E x)) = (Ok n0, Some (map E (map (fun _ => 1) x))).
    Proof. intros H. rewrite <- at_total in H. exact (core_dilute p n rho0 rho0d td n2d n3d xid at_rho lu max_iter tol x H). Qed.
  End At.

  (** A whole profile.  [l] is what the functional returns, one number per grid point. *)
  Theorem C41_cross_profile (lu : lu_solver (lK (dual n))) dim (wds : list (list (R * list R))) : lu_dual n lu -> (2 <= m)%nat ->
    List.Forall (fun wd => point_regular p t dim (map fst wd)) wds ->
    exists Fs : list (pt n -> list R),
      Forall2 (fun wd F => / 2 ^ 52 <= rho_total p t dim (map fst wd) -> near (dual n) (fun z => point_law p (tz z) dim (wdz wd z) (F z))) wds Fs /\
      forall eps, 0 < eps -> exists tol0, 0 < tol0 < 1 /\
      forall tol max_iter, 0 < tol <= tol0 -> profile_run p t dim max_iter tol (repeat (2 / 10) (2 * m)) (map (map fst) wds) ->
        exists l, phi_assoc lu max_iter (E tol) q td (map wdd wds) = Ok l /\ length l = length wds /\
          forall k, (k < length wds)%nat -> let wd := nth k wds [] in let a := nth k l n0 in
            (rho_total p t dim (map fst wd) < / 2 ^ 52 -> a = n0) /\
            (/ 2 ^ 52 <= rho_total p t dim (map fst wd) -> forall s, length s = n -> exists r d, coef n s a = Fin r /\
              partial n s (fun z => point_energy p (tz z) dim (wdz wd z) (nth k Fs (fun _ => []) z)) d /\ Rabs (r - d) < eps).
  Proof.
    intros Hlu Hm Hreg.
    assert (G : exists Fs : list (pt n -> list R),
      Forall2 (fun wd F => / 2 ^ 52 <= rho_total p t dim (map fst wd) -> near (dual n) (fun z => point_law p (tz z) dim (wdz wd z) (F z))) wds Fs /\
      forall eps, 0 < eps -> exists tol0, 0 < tol0 < 1 /\
      forall tol max_iter x, 0 < tol <= tol0 -> profile_run p t dim max_iter tol x (map (map fst) wds) ->
        exists l, phi_assoc_cross lu q td max_iter (E tol) (map E x) (map wdd wds) = Ok l /\ length l = length wds /\
          forall k, (k < length wds)%nat -> let wd := nth k wds [] in let a := nth k l n0 in
            (rho_total p t dim (map fst wd) < / 2 ^ 52 -> a = n0) /\
            (/ 2 ^ 52 <= rho_total p t dim (map fst wd) -> forall s, length s = n -> exists r d, coef n s a = Fin r /\
              partial n s (fun z => point_energy p (tz z) dim (wdz wd z) (nth k Fs (fun _ => []) z)) d /\ Rabs (r - d) < eps)).
    { induction Hreg as [ | wd wds Hw Hr IH].
      - exists []. split; [constructor | ]. intros eps He. exists (1 / 2). split; [lra | ]. intros tol mi x Htol _. exists []. split; [reflexivity | ]. split; [reflexivity | ].
        intros k Hk. cbn [List.length] in Hk. lia.
      - destruct IH as (Fs & LF & H).
        destruct (Rlt_le_dec (rho_total p t dim (map fst wd)) (/ 2 ^ 52)) as [Dil | Den].
        + exists ((fun _ => []) :: Fs). split; [constructor; auto; intros; lra | ]. intros eps He. destruct (H eps He) as (tol0 & Ht1 & H0). exists tol0. split; auto.
          intros tol mi x Htol R. cbn [map profile_run] in R. destruct R as [[_ R] | [C _]]; [ | exfalso; apply (Rlt_irrefl (/ 2 ^ 52)); eapply Rle_lt_trans; [exact C | exact Dil]].
          destruct (H0 tol mi _ Htol R) as (l & El & Ll & Cl). exists (n0 :: l). split; [ | split].
          * cbn [map phi_assoc_cross]. rewrite (at_dilute wd dim Hw lu mi (E tol) x Dil). cbn [unwrap_or]. rewrite El. reflexivity.
          * cbn [List.length]. lia.
          * intros [ | k] Hk; cbn [nth]; [split; [auto | intros C; exfalso; apply (Rlt_irrefl (/ 2 ^ 52)); eapply Rle_lt_trans; [exact C | exact Dil]] | ]. apply Cl. cbn [List.length] in Hk. lia.
        + destruct (C41_cross_point wd dim Hw ltac:(lia) lu Hlu Den) as (F & LF0 & HF).
          exists (F :: Fs). split; [constructor; auto | ]. intros eps He. destruct (H eps He) as (tol1 & Ht1 & H1). destruct (HF eps He) as (tol2 & Ht2 & H2).
          exists (Rmin tol1 tol2). pose proof (Rmin_l tol1 tol2). pose proof (Rmin_r tol1 tol2). split.
          { split; [apply Rmin_pos; lra | lra]. }
          intros tol mi x Htol R. cbn [map profile_run] in R. destruct R as [[C _] | [_ (k & y & Hk & Y0 & Run & R)]]; [exfalso; apply (Rlt_irrefl (/ 2 ^ 52)); eapply Rle_lt_trans; [exact Den | exact C] | ].
          destruct (H2 tol mi k y ltac:(lra) Hk Run) as (a & Ea & Ca). rewrite Y0 in Ea.
          destruct (H1 tol mi _ ltac:(lra) R) as (l & El & Ll & Cl). exists (a :: l). split; [ | split].
          * cbn [map phi_assoc_cross]. rewrite Ea. cbn [unwrap_or]. rewrite El. reflexivity.
          * cbn [List.length]. lia.
          * intros [ | j] Hj; cbn [nth]; [split; [intros C; exfalso; apply (Rlt_irrefl (/ 2 ^ 52)); eapply Rle_lt_trans; [exact Den | exact C] | intros _; exact Ca] | ].
            apply Cl. cbn [List.length] in Hj. lia. }
    destruct G as (Fs & LF & H). exists Fs. split; auto. intros eps He. destruct (H eps He) as (tol0 & Ht1 & H0). exists tol0. split; auto.
    intros tol mi Htol R. destruct (H0 tol mi _ Htol R) as (l & El & Cl). exists l. split; [ | exact Cl].
    unfold phi_assoc. change (p_nassoc q) with m. destruct (Nat.eqb_spec m 1) as [C | _]; [lia | ].
    assert (Guess : repeat (@nlit (lK (dual n)) (2 # 10)) (2 * m) = map E (repeat (2 / 10) (2 * m))).
    { rewrite P_Dual4.map_repeat'. f_equal. eapply (rel_fun (dual n)); [exact (tr_lit _ _ (TRn n) (2 # 10)) | ].
      pose proof (tr_emb _ _ (TRn n) (2 / 10)) as Te. eapply (rel_eq (TRn n)); [ | exact Te]. intros z. cbn. unfold Rlit. cbn. lra. }
    match goal with |- context [repeat ?w (2 * m)] => change (repeat w (2 * m)) with (repeat (@nlit (lK (dual n)) (2 # 10)) (2 * m)) end.
    rewrite Guess. exact El.
  Qed.
End Point.

(* ------------------------------------------------ profiles for which the runs exist *)
(** no site would form more than 1/4 bonds if all sites were free *)
Definition weak_point (p : params RNum) (tt : R) (dim : nat) (w : list R) : Prop :=
  let X := mix_of p in let c := comp p in
  weak (p_nassoc p) (fun i j => pair_strength p tt dim w (c i) (c j)) (fun i => Na X (c i)) (fun i => Nb X (c i))
    (fun i => rho_eff p tt (c i) dim w).
(** start vectors from which Newton's method converges at every such point *)
Definition good_start (m : nat) (x : list R) : Prop := length x = (2 * m)%nat /\ forall k, (k < 2 * m)%nat -> 2 / 10 <= nth k x 0 <= 12 / 10.

Section Weak.
  Variables (n : nat) (De : nat -> nat -> R) (A B Ro : nat -> R).
  Hypothesis HDe : forall i j, (i < n)%nat -> (j < n)%nat -> 0 <= De i j.
  Hypothesis HAB : forall i, (i < n)%nat -> 0 <= A i /\ 0 <= B i /\ 0 <= Ro i.
  Hypothesis Hw : weak n De A B Ro.
  Notation ba := (bonds_a n De B Ro). Notation bb := (bonds_b n De A Ro).
  Lemma good_fa x i : good_start n x -> (i < n)%nat -> 2 / 10 <= fa x i <= 12 / 10.
  Proof. intros [_ H] Hi. apply H. lia. Qed.
  Lemma good_fb x i : good_start n x -> (i < n)%nat -> 2 / 10 <= fb n x i <= 12 / 10.
  Proof. intros [_ H] Hi. apply H. lia. Qed.
  Lemma good_inv x : good_start n x -> weak_inv n De A B Ro 0 x.
  Proof.
    intros G. pose proof (fun i Hi => good_fa x i G Hi) as Ga. pose proof (fun i Hi => good_fb x i G Hi) as Gb.
    split; [apply G | ]. split.
    - intros i Hi. specialize (Ga i Hi). specialize (Gb i Hi). split; lra.
    - intros i Hi.
      assert (Q1 : 0 <= ba x i <= 3 / 10).
      { split; [apply (ba_nonneg n De A B Ro HDe HAB x i Hi); intros j Hj; specialize (Gb j Hj); lra | ].
        pose proof (ba_bound n De A B Ro HDe HAB Hw x (12 / 10) i Hi ltac:(lra)) as H.
        assert (H1 : Rabs (ba x i) <= 12 / 10 / 4) by (apply H; intros j Hj; specialize (Gb j Hj); rewrite Rabs_right; lra).
        pose proof (Rle_abs (ba x i)). lra. }
      assert (Q2 : 0 <= bb x i <= 3 / 10).
      { split; [apply (bb_nonneg n De A B Ro HDe HAB x i Hi); intros j Hj; specialize (Ga j Hj); lra | ].
        pose proof (bb_bound n De A B Ro HDe HAB Hw x (12 / 10) i Hi ltac:(lra)) as H.
        assert (H1 : Rabs (bb x i) <= 12 / 10 / 4) by (apply H; intros j Hj; specialize (Ga j Hj); rewrite Rabs_right; lra).
        pose proof (Rle_abs (bb x i)). lra. }
      specialize (Ga i Hi). specialize (Gb i Hi). cbn [pow Nat.pow]. split; apply Rabs_le; split; nra.
  Qed.
  Lemma norm_term x i : (i < n)%nat -> Rabs (1 / fa x i - 1 - ba x i) <= residual_norm n De A B Ro x /\ Rabs (1 / fb n x i - 1 - bb x i) <= residual_norm n De A B Ro x.
  Proof.
    intros Hi. unfold residual_norm.
    set (Sa := Sum i < n, _). set (Sb := Sum i < n, _).
    assert (Pa : 0 <= Sa) by (apply rsum_nonneg; intros; apply pow2_ge_0). assert (Pb : 0 <= Sb) by (apply rsum_nonneg; intros; apply pow2_ge_0).
    assert (Ta : (1 / fa x i - 1 - ba x i) ^ 2 <= Sa).
    { apply (rsum_ge_term (seq 0 n) (fun i => (1 / fa x i - 1 - ba x i) ^ 2) i); [intros; apply pow2_ge_0 | apply seq_in; auto]. }
    assert (Tb : (1 / fb n x i - 1 - bb x i) ^ 2 <= Sb).
    { apply (rsum_ge_term (seq 0 n) (fun i => (1 / fb n x i - 1 - bb x i) ^ 2) i); [intros; apply pow2_ge_0 | apply seq_in; auto]. }
    split; rewrite <- sqrt_Rsqr_abs; apply sqrt_le_1_alt; unfold Rsqr; lra.
  Qed.
  (** the step after the accepted iterate is a good start for the next point *)
  Lemma defect_of u b e : 0 < u <= 2 -> 0 <= b <= / 2 -> Rabs (1 / u - 1 - b) <= e -> e <= / 10 -> Rabs (u * (1 + b) - 1) <= 1 / 8.
  Proof.
    intros Hu Hb He H10. assert (P : 9 / 10 <= 1 / u) by (pose proof (Rabs_def2 (1 / u - 1 - b) (2 / 10) ltac:(lra)) as [_ Q]; apply Rabs_le_between in He; lra).
    assert (U : u <= 10 / 9).
    { apply Rmult_le_compat_r with (r := u) in P; [ | lra]. unfold Rdiv in P at 2. rewrite Rmult_assoc, Rinv_l in P by lra. lra. }
    replace (u * (1 + b) - 1) with (- (u * (1 / u - 1 - b))) by (field; lra). rewrite Rabs_Ropp, Rabs_mult, (Rabs_right u) by lra.
    pose proof (Rabs_pos (1 / u - 1 - b)). nra.
  Qed.
  Lemma frac_range u b f : 0 < u <= 2 -> 0 <= b <= / 2 -> Rabs (u * (1 + b) - 1) <= f -> f <= 1 / 10 -> 2 / 10 <= u <= 12 / 10.
  Proof. intros Hu Hb Hf F1. apply Rabs_le_between in Hf. split; nra. Qed.
  Lemma two_bound x i : (i < n)%nat -> (forall i, (i < n)%nat -> 0 < fa x i <= 2 /\ 0 < fb n x i <= 2) -> 0 <= ba x i <= / 2 /\ 0 <= bb x i <= / 2.
  Proof.
    intros Hi P. split; (split; [ | match goal with |- ?b <= _ => pose proof (Rle_abs b) end]).
    - apply (ba_nonneg n De A B Ro HDe HAB x i Hi). intros j Hj. destruct (P j Hj). lra.
    - pose proof (ba_bound n De A B Ro HDe HAB Hw x 2 i Hi ltac:(lra)) as H1. assert (Rabs (ba x i) <= 2 / 4); [ | lra].
      apply H1. intros j Hj. destruct (P j Hj). rewrite Rabs_right; lra.
    - apply (bb_nonneg n De A B Ro HDe HAB x i Hi). intros j Hj. destruct (P j Hj). lra.
    - pose proof (bb_bound n De A B Ro HDe HAB Hw x 2 i Hi ltac:(lra)) as H1. assert (Rabs (bb x i) <= 2 / 4); [ | lra].
      apply H1. intros j Hj. destruct (P j Hj). rewrite Rabs_right; lra.
  Qed.
  Lemma good_next j x x' tol : weak_inv n De A B Ro j x -> tol <= / 10 -> residual_norm n De A B Ro x < tol ->
    newton_update n De A B Ro x x' -> good_start n x'.
  Proof.
    intros (Lx & Px & _) Ht Hr U.
    assert (S8 : site_defect n De A B Ro x (1 / 8)).
    { intros i Hi. destruct (norm_term x i Hi) as [N1 N2]. destruct (two_bound x i Hi Px). destruct (Px i Hi).
      split; [apply (defect_of _ _ (residual_norm n De A B Ro x)); auto; lra | apply (defect_of _ _ (residual_norm n De A B Ro x)); auto; lra]. }
    destruct (weak_step n De A B Ro HDe HAB Hw x x' (1 / 8) ltac:(lra) Lx Px S8 U) as [P' S'].
    split; [apply U | ]. intros k Hk.
    destruct (Nat.lt_ge_cases k n) as [H | H].
    - destruct (S' k H) as [D _]. destruct (two_bound x' k H P') as [Bk _]. destruct (P' k H) as [F _]. apply (frac_range (fa x' k) (ba x' k) (1 / 8 * (1 / 8))); auto. lra.
    - assert (Hk' : (k - n < n)%nat) by lia. destruct (S' _ Hk') as [_ D]. destruct (two_bound x' _ Hk' P') as [_ Bk]. destruct (P' _ Hk') as [_ F].
      assert (Ef : fb n x' (k - n) = nth k x' 0) by (unfold fb; f_equal; lia). rewrite <- Ef.
      apply (frac_range (fb n x' (k - n)) (bb x' (k - n)) (1 / 8 * (1 / 8))); auto. lra.
  Qed.
End Weak.

Lemma update_ext n De De' A B Ro Ro' x x' :
  (forall i j, (i < n)%nat -> (j < n)%nat -> De i j = De' i j) -> (forall i, (i < n)%nat -> Ro i = Ro' i) ->
  newton_update n De A B Ro x x' -> newton_update n De' A B Ro' x x'.
Proof.
  intros E1 E2 [L U]. split; auto. intros i Hi.
  assert (Ba : forall y, bonds_a n De' B Ro' y i = bonds_a n De B Ro y i) by (intros y; apply Sum_ext; intros j Hj; rewrite E1, E2 by auto; auto).
  assert (Bb : forall y, bonds_b n De' A Ro' y i = bonds_b n De A Ro y i) by (intros y; apply Sum_ext; intros j Hj; rewrite E1, E2 by auto; auto).
  rewrite !Ba, !Bb. apply U; auto.
Qed.
Lemma norm_ext n De De' A B Ro Ro' x :
  (forall i j, (i < n)%nat -> (j < n)%nat -> De i j = De' i j) -> (forall i, (i < n)%nat -> Ro i = Ro' i) ->
  residual_norm n De A B Ro x = residual_norm n De' A B Ro' x.
Proof.
  intros E1 E2. unfold residual_norm. f_equal. f_equal; apply Sum_ext; intros i Hi; f_equal; f_equal; apply Sum_ext; intros j Hj; rewrite E1, E2 by auto; auto.
Qed.

Section WeakProfile.
  Variables (prs : list (pure_record RNum)) (bin : list (list R)) (p : params RNum).
  Hypothesis Hp : from_records prs bin = Some p.
  Hypothesis Hph : phys p.
  Hypothesis Hap : assoc_phys p.
  Let W : wfp p := wfp_from_records prs bin p Hp.
  Notation X := (mix_of p). Notation c := (length (p_m p)). Notation m := (p_nassoc p).
  Variables (t : R) (dim : nat).
  Hypothesis Ht : 0 < t.
  Hypothesis Hm : (0 < m)%nat.

  Lemma point_weak_run w x K tol : point_regular p t dim w -> weak_point p t dim w -> / 2 ^ 52 <= rho_total p t dim w -> good_start m x ->
    0 < tol <= / 10 -> 8 * sqrt (2 * INR m) * (4 / 5) ^ (2 ^ K) < tol ->
    exists k y, (k <= K)%nat /\ y O = x /\ point_run p t dim w tol k y /\ good_start m (y (S k)).
  Proof.
    intros Hreg Hw Hr Gx Htol Hb. destruct Hreg as (L & P0 & Hs & H3 & Pe & Px) eqn:Er. clear Er.
    set (De := fun i j => pair_strength p t dim w (comp p i) (comp p j)). set (Ro := fun i => rho_eff p t (comp p i) dim w).
    set (A := fun i => Na X (comp p i)). set (B := fun i => Nb X (comp p i)).
    assert (HDe : forall i j, (i < m)%nat -> (j < m)%nat -> 0 <= De i j).
    { intros i j Hi Hj. apply (pair_strength_nonneg p Hph Hap); auto; apply (comp_lt p W); auto. }
    assert (HAB : forall i, (i < m)%nat -> 0 <= A i /\ 0 <= B i /\ 0 <= Ro i).
    { intros i Hi. destruct (Hap (comp p i) (comp_lt p W i Hi)) as (_ & _ & S1 & S2). split; [exact S1 | ]. split; [exact S2 | ]. apply Pe. apply (comp_lt p W); auto. }
    assert (Es : forall i j, (i < m)%nat -> (j < m)%nat -> str p t (seg_radius p t) (da_n2 p t w) (da_n3i p w) (da_xi p t w) i j = De i j).
    { intros i j Hi Hj. exact (strength_at prs bin p Hp Hph t dim w (comp p i) (comp p j) Ht (comp_lt p W i Hi) (comp_lt p W j Hj) L H3). }
    assert (Ed : forall i, (i < m)%nat -> den p (da_rho0 p t w) i = Ro i).
    { intros i Hi. exact (rho_eff_at prs bin p Hp t dim w (comp p i) (comp_lt p W i Hi) L). }
    assert (Hd : / 2 ^ 52 <= rsum (da_rho0 p t w) (fun x : R => x)).
    { eapply Rle_trans; [exact Hr | ]. right. unfold rho_total. rewrite (rsum_nth _ 0 (fun x => x)).
      assert (Ls : length (da_rho0 p t w) = c) by (unfold da_rho0; apply mk1_length).
      symmetry. etransitivity; [exact (f_equal (fun k => rsum (seq 0 k) (fun i => nth i (da_rho0 p t w) 0)) Ls) | ].
      apply Sum_ext. intros i Hi. exact (rho_eff_at prs bin p Hp t dim w i Hi L). }
    destruct (C13_invariant gauss_lu gauss_lu_exact p t (da_rho0 p t w) (seg_radius p t) (da_n2 p t w) (da_n3i p w) (da_xi p t w)) 
      with (I := weak_inv m De A B Ro) (K := K) (max_iter := S K) (tol := tol) (x0 := Some x) as (k & y & Hk & Y0 & Yi & Yu & Yj & Yk & _).
    - intros i j Hi Hj. rewrite Es by auto. auto.
    - intros i Hi. rewrite Ed by auto. exact (HAB i Hi).
    - lia.
    - exact Hd.
    - apply good_inv; auto.
    - intros j y (Ly & Py & _). split; auto. intros i Hi. destruct (Py i Hi). split; lra.
    - intros j y y' Iy U. apply (weak_inv_step m De A B Ro HDe HAB Hw j y); auto. exact (update_ext m _ De A B _ Ro y y' Es Ed U).
    - intros y Iy. eapply Rle_lt_trans; [ | exact Hb]. eapply Rle_trans; [right; exact (norm_ext m _ De A B _ Ro y Es Ed) | ]. apply (weak_inv_norm m De A B Ro HDe HAB Hw K y Iy).
    - exists k, y. split; auto. split; [exact Y0 | ].
      assert (Yu' : forall j, newton_update m De A B Ro (y j) (y (S j))) by (intros j; exact (update_ext m _ De A B _ Ro _ _ Es Ed (Yu j))).
      assert (Yk' : residual_norm m De A B Ro (y k) < tol) by (eapply Rle_lt_trans; [right; symmetry; exact (norm_ext m _ De A B _ Ro _ Es Ed) | exact Yk]).
      split.
      + split; [split; [ | split] | ].
        * intros j _. destruct (Yi j) as (Lj & _). split; [exact Lj | intros _; exact (Yu' j)].
        * intros j Hj. eapply Rle_trans; [exact (Yj j Hj) | ]. right. exact (norm_ext m _ De A B _ Ro _ Es Ed).
        * exact Yk'.
        * intros j _ i Hi. destruct (Yi j) as (_ & Pj & _). destruct (Pj i Hi). split; lra.
      + apply (good_next m De A B Ro HDe HAB Hw k (y k) (y (S k)) tol); [apply Yi | lra | exact Yk' | apply Yu'].
  Qed.

  (** weak association at every point of the profile: the runs exist, from the initial 0.2 on *)
  Theorem C41_weak_profile (pts : list (list R)) K max_iter tol : List.Forall (point_regular p t dim) pts -> List.Forall (weak_point p t dim) pts ->
    0 < tol <= / 10 -> (K < max_iter)%nat -> 8 * sqrt (2 * INR m) * (4 / 5) ^ (2 ^ K) < tol ->
    profile_run p t dim max_iter tol (repeat (2 / 10) (2 * m)) pts.
  Proof.
    intros Hreg Hw Htol HK Hb.
    assert (G0 : good_start m (repeat (2 / 10) (2 * m))).
    { split; [apply repeat_length | ]. intros k Hk. rewrite nth_repeat_lt by auto. lra. }
    revert G0. generalize (repeat (2 / 10) (2 * m)). induction Hreg as [ | w pts Hr Hrs IH]; intros x Gx; [exact I | ].
    pose proof (Forall_inv Hw) as Hw1. apply Forall_inv_tail in Hw. cbn [profile_run].
    destruct (Rlt_le_dec (rho_total p t dim w) (/ 2 ^ 52)) as [D | D].
    - left. split; auto. apply IH; auto. split; [rewrite map_length; apply Gx | ]. intros k Hk.
      assert (Ik : In (nth k (map (fun _ : R => 1) x) 0) (map (fun _ : R => 1) x)) by (apply nth_In; rewrite map_length, (proj1 Gx); auto).
      apply in_map_iff in Ik. destruct Ik as (u & Eu & _). rewrite <- Eu. lra.
    - right. split; auto. destruct (point_weak_run w x K tol Hr Hw1 D Gx Htol Hb) as (k & y & Hk & Y0 & Run & G).
      exists k, y. split; [lia | ]. split; auto.
  Qed.
End WeakProfile.

(* ------------------------------------------------------------------ non-trivial cases *)
(** two isotopologues of water at 350 K: an empty point and a point with vector densities *)
Definition wet : list R := [/ 10 ^ 5; / 10 ^ 5; / 10 ^ 6; / 10 ^ 6; / 10 ^ 3].
Definition empty : list R := [0; 0; 0; 0; 0].
Lemma ww_D i : (i < 2)%nat -> 2.5 <= Di (mix_of ww) 350 i <= 3.
Proof. intros Hi. destruct i as [ | [ | i]]; [exact w1_D | exact w1_D | lia]. Qed.
Lemma ww_D1 : Di (mix_of ww) 350 1 = Di (mix_of ww) 350 0. Proof. reflexivity. Qed.
Lemma ww_surface i : (i < 2)%nat -> surface ww 350 i = PI * 1.065587 * Di (mix_of ww) 350 0 ^ 2.
Proof. intros Hi. destruct i as [ | [ | i]]; [reflexivity | reflexivity | lia]. Qed.
Lemma wet_n2 : n2_all ww 350 wet = 2 / 10 ^ 5 * (PI * 1.065587 * Di (mix_of ww) 350 0 ^ 2).
Proof. unfold n2_all. change (length (p_m ww)) with 2%nat. cbn [seq rsum]. rewrite !ww_surface by lia. cbn [nth wet]. set (s := PI * _ * _). clearbody s. lra. Qed.
Lemma wet_xi : 0.99 <= xi_all ww 350 1 wet <= 1.
Proof.
  unfold xi_all. rewrite wet_n2. change (length (p_m ww)) with 2%nat. cbn [seq rsum Nat.mul Nat.add nth wet]. rewrite (proj2 (Rltb_false _ _)) by lra.
  pose proof (ww_D 0%nat ltac:(lia)) as H. set (D := Di _ _ _) in *. clearbody D. split; interval.
Qed.
Lemma wet_rho i : (i < 2)%nat -> 9 / 10 ^ 6 <= rho_eff ww 350 i 1 wet <= / 10 ^ 5.
Proof.
  intros Hi. unfold rho_eff. rewrite ww_surface by auto. change (length (p_m ww)) with 2%nat.
  pose proof (ww_D 0%nat ltac:(lia)) as H. set (D := Di _ _ _) in *. clearbody D.
  destruct i as [ | [ | i]]; [ | | lia]; cbn [seq rsum Nat.mul Nat.add nth wet]; rewrite (proj2 (Rltb_false _ _)) by lra; split; interval.
Qed.
Lemma wet_strength i j : (i < 2)%nat -> (j < 2)%nat -> 0 <= pair_strength ww 350 1 wet i j <= 10 ^ 4.
Proof.
  intros Hi Hj. unfold pair_strength. rewrite wet_n2. change (length (p_m ww)) with 2%nat. pose proof wet_xi as Hx. pose proof (ww_D 0%nat ltac:(lia)) as H.
  replace (nth (2 * (1 + 1)) wet 0) with (/ 10 ^ 3) by reflexivity.
  assert (Ed : forall k, (k < 2)%nat -> Di (mix_of ww) 350 k = Di (mix_of ww) 350 0) by (intros [ | [ | k]] Hk; [reflexivity | reflexivity | lia]).
  assert (Es : Sij (mix_of ww) i j = 3.000683).
  { destruct i as [ | [ | i]]; try lia; destruct j as [ | [ | j]]; try lia; unfold Sij; change (Sg (mix_of ww) 0) with 3.000683; change (Sg (mix_of ww) 1) with 3.000683; lra. }
  assert (Ek : Kapij (mix_of ww) i j = 0.034867983).
  { destruct i as [ | [ | i]]; try lia; destruct j as [ | [ | j]]; try lia; unfold Kapij; rewrite Es; change (Kab (mix_of ww) 0) with 0.034867983; change (Kab (mix_of ww) 1) with 0.034867983;
      change (Sg (mix_of ww) 0) with 3.000683; change (Sg (mix_of ww) 1) with 3.000683; rewrite !sqrt_square by lra; field; lra. }
  assert (Ee : Eab (mix_of ww) i = 2500.6706 /\ Eab (mix_of ww) j = 2500.6706).
  { destruct i as [ | [ | i]]; try lia; destruct j as [ | [ | j]]; try lia; split; reflexivity. }
  destruct Ee as [-> ->]. rewrite Es, Ek, (Ed i), (Ed j) by auto. set (D := Di _ _ _) in *. set (xi := xi_all _ _ _ _) in *. clearbody D xi. cbv zeta. split; interval.
Qed.
Lemma wet_regular : point_regular ww 350 1 wet.
Proof.
  unfold point_regular. change (length (p_m ww)) with 2%nat. cbn [Nat.mul Nat.add]. repeat apply conj.
  - reflexivity.
  - intros [ | [ | i]] Hi; try lia; cbn [nth wet]; lra.
  - cbn [seq rsum nth wet]. lra.
  - cbn [nth wet]. lra.
  - intros i Hi. pose proof (wet_rho i Hi). lra.
  - pose proof wet_xi. lra.
Qed.
Lemma empty_regular : point_regular ww 350 1 empty.
Proof.
  unfold point_regular. change (length (p_m ww)) with 2%nat. cbn [Nat.mul Nat.add]. repeat apply conj.
  - reflexivity.
  - intros [ | [ | i]] Hi; try lia; cbn [nth empty]; lra.
  - cbn [seq rsum nth empty]. lra.
  - cbn [nth empty]. lra.
  - intros [ | [ | i]] Hi; try lia; unfold rho_eff; cbn [nth empty]; rewrite (proj2 (Rltb_true _ _)) by lra; lra.
  - unfold xi_all. change (length (p_m ww)) with 2%nat. cbn [seq rsum nth empty]. rewrite (proj2 (Rltb_true _ _)) by lra. lra.
Qed.
Lemma empty_rho i : (i < 2)%nat -> rho_eff ww 350 i 1 empty = 0.
Proof. intros Hi. unfold rho_eff. destruct i as [ | [ | i]]; try lia; cbn [nth empty]; rewrite (proj2 (Rltb_true _ _)) by lra; reflexivity. Qed.
Lemma ww_sites i : (i < 2)%nat -> Na (mix_of ww) i = 1 /\ Nb (mix_of ww) i = 1.
Proof. intros Hi. destruct i as [ | [ | i]]; try lia; split; reflexivity. Qed.
Lemma weak_alg a b e g : 9 / 10 ^ 6 <= a <= / 10 ^ 5 -> 9 / 10 ^ 6 <= b <= / 10 ^ 5 -> 0 <= e <= 10 ^ 4 -> 0 <= g <= 10 ^ 4 ->
  a * 1 * e + (b * 1 * g + 0) <= / 4.
Proof. intros. nra. Qed.
Lemma wet_weak : weak_point ww 350 1 wet.
Proof.
  unfold weak_point, weak. cbv zeta. rewrite ww_nassoc. intros i Hi. cbn [seq rsum]. rewrite !ww_cmp by lia.
  destruct (ww_sites 0%nat ltac:(lia)) as [-> ->]. destruct (ww_sites 1%nat ltac:(lia)) as [-> ->].
  pose proof (wet_rho 0%nat ltac:(lia)) as R0. pose proof (wet_rho 1%nat ltac:(lia)) as R1.
  pose proof (wet_strength i 0%nat Hi ltac:(lia)) as S0. pose proof (wet_strength i 1%nat Hi ltac:(lia)) as S1.
  split; apply weak_alg; auto.
Qed.
Lemma empty_weak : weak_point ww 350 1 empty.
Proof.
  unfold weak_point, weak. cbv zeta. rewrite ww_nassoc. intros i Hi. cbn [seq rsum]. rewrite !ww_cmp, !empty_rho by lia. lra.
Qed.
Lemma steps_small tol : 0 < tol -> exists K, 8 * sqrt (2 * INR 2) * (4 / 5) ^ (2 ^ K) < tol.
Proof.
  intros Ht. replace (2 * INR 2) with (2 * 2) by (cbn; lra). rewrite sqrt_square by lra.
  destruct (pow_lt_1_zero (4 / 5)) with (y := tol / 16) as (K & HK); [rewrite Rabs_right; lra | lra | ].
  exists K. specialize (HK (2 ^ K)%nat). rewrite Rabs_right in HK; [ | apply Rle_ge, pow_le; lra].
  assert (K <= 2 ^ K)%nat by (apply Nat.lt_le_incl, Nat.pow_gt_lin_r; lia). specialize (HK ltac:(lia)). lra.
Qed.
Example C41_cross_case n dt d1 d2 : exists F : pt n -> list R,
  near (dual n) (fun z => point_law ww (aff n 350 dt z) 1 (wdz n (point wet d2) z) (F z)) /\
  forall eps, 0 < eps -> exists tol max_iter a, 0 < tol /\
    phi_assoc (gaussK_lu (lK (dual n))) max_iter (emb (TRn n) tol) (plift (emb (TRn n)) ww) (seed n 350 dt) [wdd n (point empty d1); wdd n (point wet d2)] = Ok [n0; a] /\
    forall s, length s = n -> exists r d, coef n s a = Fin r /\
      partial n s (fun z => point_energy ww (aff n 350 dt z) 1 (wdz n (point wet d2) z) (F z)) d /\ Rabs (r - d) < eps.
Proof.
  assert (H350 : 0 < 350) by lra.
  destruct (C41_cross_profile _ _ _ ww_ok ww_phys ww_assoc n 350 dt H350 (gaussK_lu (lK (dual n))) 1 [point empty d1; point wet d2] (gaussK_lu_dual n)) as (Fs & LF & H).
  - rewrite ww_nassoc. lia.
  - constructor; [rewrite point_fst; exact empty_regular | constructor; [rewrite point_fst; exact wet_regular | constructor]].
  - assert (De : / 2 ^ 52 <= rho_total ww 350 1 wet).
    { unfold rho_total. change (length (p_m ww)) with 2%nat. cbn [seq rsum]. pose proof (wet_rho 0%nat ltac:(lia)). pose proof (wet_rho 1%nat ltac:(lia)). lra. }
    assert (Em : rho_total ww 350 1 empty < / 2 ^ 52).
    { unfold rho_total. change (length (p_m ww)) with 2%nat. cbn [seq rsum]. rewrite !empty_rho by lia. lra. }
    exists (nth 1 Fs (fun _ => [])). split.
    { inversion LF as [ | ? F0 ? Fs1 _ LF1]. inversion LF1 as [ | ? F1 ? Fs2 L1 _]. subst. cbn [nth]. apply L1. rewrite point_fst. exact De. }
    intros eps He. destruct (H eps He) as (tol0 & Ht & H0).
    set (tol := Rmin tol0 (/ 10)). assert (Htol : 0 < tol <= tol0 /\ tol <= / 10).
    { unfold tol. split; [split; [apply Rmin_pos; lra | apply Rmin_l] | apply Rmin_r]. }
    destruct (steps_small tol ltac:(lra)) as (K & HK).
    destruct (H0 tol (S K) ltac:(lra)) as (l & El & Ll & Cl).
    { cbn [map]. rewrite !point_fst. apply (C41_weak_profile _ _ _ ww_ok ww_phys ww_assoc 350 1 H350) with (K := K).
      - rewrite ww_nassoc. lia.
      - constructor; [exact empty_regular | constructor; [exact wet_regular | constructor]].
      - constructor; [exact empty_weak | constructor; [exact wet_weak | constructor]].
      - lra.
      - lia.
      - rewrite ww_nassoc. exact HK. }
    destruct l as [ | a0 [ | a [ | ? ?]]]; try discriminate.
    exists tol, (S K), a. split; [lra | ]. split.
    + destruct (Cl 0%nat ltac:(cbn; lia)) as [Z _]. cbv zeta in Z. cbn [nth] in Z. rewrite point_fst in Z. rewrite Z in El by exact Em. exact El.
    + destruct (Cl 1%nat ltac:(cbn; lia)) as [_ Z]. cbv zeta in Z. cbn [nth] in Z. rewrite point_fst in Z. exact (Z De).
Qed.

Print Assumptions C41_cross_point.
Print Assumptions C41_cross_profile.
Print Assumptions C41_weak_profile.
