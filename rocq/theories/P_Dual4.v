(** C15/C08 for mixtures with several associating components and the default start vector: the
    derivatives converge to those of the exact Helmholtz energy as the tolerance goes to zero.

    The equation of state starts the site-fraction iteration at 0.2 and stops at a residual below
    the tolerance, so that the real site fractions are not exact.  For every order, every direction
    in temperature, volume and mole numbers and every eps there is a tolerance from which on all
    returned derivatives are within eps of the exact ones, whenever the iteration stays positive
    (which [C13_weak_association] and [C13_equal_sites] show for large classes of mixtures). *)
From Coq Require Import ZArith QArith Reals Lra Lia String List Bool.
From Coquelicot Require Import Coquelicot.
From Interval Require Import Tactic.
From Verif Require P_Params P_DftR.
From Verif Require Import Num RNum RSum Tables M_Params F_Params M_Eos Spec F_Spec F_SpecPolar F_SpecAssoc F_Contrib F_Newton F_Gauss
  F_MassAction F_MassAction2 F_NewtonR F_Cross F_Total Samples F_Transfer XNum F_Transfer2 F_Transfer3 DNum F_Level F_Linear
  F_Implicit P_Assoc P_Assoc2 P_Dual P_Dual2 F_DualNewton F_DualGauss P_Dual3 F_Cont F_Perturb F_DualRun P_Converge.
Import ListNotations.
Local Open Scope R_scope.
Set Bullet Behavior "Strict Subproofs".
Notation length := List.length.

Lemma map_repeat' {A B} (f : A -> B) a k : map f (repeat a k) = repeat (f a) k.
Proof. induction k; cbn; congruence. Qed.
Lemma partial_plus n s f g a b : partial n s f a -> partial n s g b -> partial n s (fun z => f z + g z) (a + b).
Proof.
  revert s f g a b. induction n as [ | n IH]; intros s f g a b A B; cbn [partial] in *; [subst; reflexivity | ].
  destruct (hd false s); [ | exact (IH _ _ _ _ _ A B)].
  destruct A as (f' & A1 & A2). destruct B as (g' & B1 & B2). exists (fun y => f' y + g' y). split; [ | exact (IH _ _ _ _ _ A2 B2)].
  eapply near_imp; [ | exact (near_and (dual n) _ _ A1 B1)]. intros y [D1 D2]. cbv beta in *.
  exact (is_derive_plus (fun x => f (x, y)) (fun x => g (x, y)) 0 _ _ D1 D2).
Qed.

Section Routine.
  Variables (prs : list (pure_record RNum)) (bin : list (list R)) (p : params RNum).
  Hypothesis Hp : from_records prs bin = Some p.
  Hypothesis Hph : phys p.
  Hypothesis Hap : assoc_phys p.
  (** order, state and directions, as in P_Dual.v *)
  Variables (n : nat) (t v : R) (dt dv : list R) (seeds : list (R * list R)).
  Notation moles0 := (map fst seeds).
  Hypothesis PS : phys_state p t v moles0.
  Notation z0 := (lz (dual n)). Notation X := (mix_of p). Notation m := (p_nassoc p). Notation E := (emb (TRn n)).
  Notation temp z := (aff n t dt z). Notation vol z := (aff n v dv z).
  Notation moles z := (map (fun md => aff n (fst md) (snd md) z) seeds).
  Notation rho z := (fun i => nth i (moles z) 0 / vol z).
  Hypothesis Hd : / 2 ^ 52 <= Rho X (fun i => nth i moles0 0 / v).
  Notation law_at := (law_at p n t v dt dv seeds). Notation energy_at := (energy_at p n v dv seeds).
  Notation q := (dparams p n). Notation s2 := (dstate n t v dt dv seeds).

  Theorem C15_default_start (lu : lu_solver (lK (dual n))) : lu_dual n lu ->
    exists F : pt n -> list R, near (dual n) (fun z => law_at z (F z)) /\
      forall eps, 0 < eps -> exists tol0, 0 < tol0 < 1 /\
      forall tol max_iter k y, 0 < tol <= tol0 -> (k < max_iter)%nat -> mixture_run p t v moles0 tol k y ->
        (forall j, (j <= k)%nat -> all_positive m (y j)) ->
        exists a, a_cross_assoc lu max_iter (E tol) q s2 = Some a /\
          forall s, length s = n -> exists r d, coef n s a = Fin r /\ partial n s (fun z => vol z * energy_at z (F z)) d /\ Rabs (r - d) < eps.
  Proof.
    intros Hlu.
    pose (W := wfp_from_records prs bin p Hp). pose proof (PS' p n t v dt dv seeds PS) as PSz.
    pose (Tt := rel_aff n t dt). pose (Tv := rel_aff n v dv). pose (TM := Tm n seeds).
    set (st := fun z => @state_new RNum (temp z) (vol z) (moles z)).
    pose proof (tr_rho (TRn n) p (fun z => temp z) (fun z => vol z) (seed n t dt) (seed n v dv) _ _ Tv TM PSz) as Trho.
    pose proof (tr_n2 (TRn n) p _ _ _ _ _ _ Tt Tv TM PSz) as Tn2.
    pose proof (tr_n3i (TRn n) p W Hph _ _ _ _ _ _ Tt Tv TM PSz) as Tn3.
    pose proof (tr_packing (TRn n) p _ _ _ _ _ _ Tt Tv TM PSz) as Teta.
    pose proof (fun i j Hi Hj => tr_strength (TRn n) p W Hph (fun z => temp z) (fun z => vol z) _ (fun z => moles z) Tt PSz (comp p i) (comp p j) _ _ (fun _ => @n1 RNum) _ _ _
      (comp_lt p W i Hi) (comp_lt p W j Hj) Tn2 Tn3 (tr_n1 (TRn n))) as Tstr.
    set (n2' := assoc_n2 q (s_t s2) (s_rho s2)). set (n3' := nrecip (nadd (nopp (packing q (s_t s2) (s_rho s2))) (nlit 1%Q))).
    set (D2 := ca_delta q (s_t s2) (seg_radius q (s_t s2)) n2' n3' n1).
    set (r2 := ca_sel q (s_rho s2)).
    set (Dl := fun z => F_Cross.delta_ p (temp z) (vol z) (moles z)).
    set (rz := fun z => rho_ p (temp z) (vol z) (moles z)).
    assert (Lm : forall z, length (moles z) = length (p_m p)).
    { intros z. rewrite map_length. pose proof (ps_len _ _ _ _ PS) as H. rewrite map_length in H. exact H. }
    assert (Hdl : forall i j, (i < m)%nat -> (j < m)%nat -> represents n (fun z => @ix2 RNum (Dl z) i j) (ix2 D2 i j)).
    { intros i j Hi Hj. apply rel_represents. unfold D2, ca_delta. change (p_nassoc q) with m. rewrite ix2_mk2 by auto.
      eapply (rel_near (dual n)); [ | exact (Tstr i j Hi Hj)]. apply near_all. intros z. unfold Dl, F_Cross.delta_, ca_delta. rewrite ix2_mk2 by auto. reflexivity. }
    assert (Sel : forall l, ca_sel q (map E l) = map E (ca_sel p l)).
    { intros l. unfold ca_sel. change (p_nassoc q) with m. unfold mk1. rewrite map_map. apply map_ext. intros i.
      eapply (rel_fun (dual n)); [exact (tr_ix1 (TRn n) l _) | exact (tr_emb _ _ (TRn n) _)]. }
    assert (Hr : forall i, (i < m)%nat -> represents n (fun z => @ix RNum (rz z) i) (ix r2 i)).
    { intros i Hi. apply rel_represents. unfold r2, ca_sel. change (p_nassoc q) with m. rewrite ix_mk1 by auto.
      eapply (rel_near (dual n)); [ | exact (tr_ix (TRn n) _ _ (comp p i) Trho)]. apply near_all. intros z. unfold rz, rho_, ca_sel. rewrite ix_mk1 by auto. reflexivity. }
    assert (Erho : forall z i, (i < m)%nat -> @ix RNum (rz z) i = rho z (comp p i)).
    { intros z i Hi. unfold rz, rho_, ca_sel. rewrite ix_mk1 by auto. apply (s_rho_ix p (temp z) (vol z) (moles z) (Lm z)). apply comp_lt; auto. }
    assert (Ed : near (dual n) (fun z => forall i j, (i < m)%nat -> (j < m)%nat -> @ix2 RNum (Dl z) i j = Delta X (temp z) (rho z) (comp p i) (comp p j))).
    { assert (N1 : near (dual n) (fun z => 0 < temp z)).
      { apply (rel_gt (dual n) _ _ 0 Tt). rewrite aff_base. exact (ps_t _ _ _ _ PS). }
      assert (N2 : near (dual n) (fun z => packing p (temp z) (s_rho (st z)) < 1)).
      { apply (rel_lt (dual n) _ _ 1 Teta). cbv beta. rewrite (packing_spec p W) by apply (ps_len _ _ _ _ PSz).
        exact (Zeta3_lt1 p _ _ _ PSz). }
      eapply near_imp; [ | exact (near_and _ _ _ N1 N2)]. intros z [A B] i j Hi Hj.
      unfold Dl, F_Cross.delta_, ca_delta. rewrite ix2_mk2 by auto. unfold n2_, n3i_.
      rewrite (assoc_n2_spec p W _ _ _ (Lm z)), (packing_spec p W _ _ _ (Lm z)). unfold st in B. rewrite (packing_spec p W _ _ _ (Lm z)) in B. rn. unfold Eta in *.
      replace (- Zeta X (temp z) (rho z) 3 + 1) with (1 - Zeta X (temp z) (rho z) 3) by ring.
      apply (association_strength_spec p W Hph (temp z) (vol z) (moles z)); auto; try (apply comp_lt; auto). lra. }
    assert (En : forall z i, (i < m)%nat -> @ix RNum (na_ p) i = Na X (comp p i) /\ @ix RNum (nb_ p) i = Nb X (comp p i) /\ @ix RNum (rz z) i = rho z (comp p i)).
    { intros z i Hi. split; [apply na_ix; auto | ]. split; [apply nb_ix; auto | auto]. }
    pose proof (near_z (dual n) _ Ed) as Ed0. cbv beta in Ed0.
    assert (Pd : forall i j, (i < m)%nat -> (j < m)%nat -> 0 <= @ix2 RNum (Dl z0) i j).
    { intros i j Hi Hj. rewrite Ed0 by auto. apply (Delta_nonneg p Hph Hap _ _ _ PSz); apply comp_lt; auto. }
    assert (Pn : forall i, (i < m)%nat -> 0 <= @ix RNum (na_ p) i /\ 0 <= @ix RNum (nb_ p) i /\ 0 <= @ix RNum (rz z0) i).
    { intros i Hi. destruct (En z0 i Hi) as (-> & -> & ->). destruct (Hap (comp p i) (comp_lt p W i Hi)) as (_ & _ & A & B).
      split; [exact A | ]. split; [exact B | ]. apply (rho_nonneg p _ _ _ PSz). apply comp_lt; auto. }
    assert (Lr : (forall z, length (rz z) = m) /\ length r2 = m).
    { split; [intros z; unfold rz, rho_, ca_sel | unfold r2, ca_sel]; apply mk1_length. }
    destruct (C15_start_exists prs bin p Hp Hph Hap n t v dt dv seeds PS) as (x & Hx & _).
    assert (Hx' : site_law m (fun i j => @ix2 RNum (Dl z0) i j) (fun i => @ix RNum (na_ p) i) (fun i => @ix RNum (nb_ p) i) (fun i => @ix RNum (rz z0) i) x).
    { eapply site_law_ext; [ | | exact Hx]; [intros; symmetry; auto | ]. intros i Hi. destruct (En z0 i Hi) as (-> & -> & ->). auto. }
    assert (Sq : square m D2).
    { unfold D2, ca_delta. change (p_nassoc q) with m. split; [apply mk1_length | ]. intros r Hr'. unfold mk2, mk1 in Hr'. apply in_map_iff in Hr'.
      destruct Hr' as (i & <- & _). rewrite map_length, seq_length. reflexivity. }
    destruct (C15_all_orders n m Dl (na_ p) (nb_ p) rz D2 r2 Hdl Lr Hr Pd Pn lu (E 0) Hlu x Hx') as (F & F0 & LF & xn & Exn & Lxn & _ & Rxn).
    exists F. split.
    { eapply near_imp; [ | exact (near_and _ _ _ Ed LF)]. intros z [A B]. eapply site_law_ext; [ | | exact B]; auto. }
    intros eps He.
    pose proof (proj2 (exact_law m (Dl z0) (na_ p) (nb_ p) (rz z0) x) Hx') as [Lx Sx].
    assert (HDm : forall k l, (k < m + m)%nat -> (l < m + m)%nat -> 0 <= Dm m (Dl z0) (na_ p) (nb_ p) (rz z0) k l).
    { exact (c15_HD n m Dl (na_ p) (nb_ p) rz Pd Pn). }
    pose proof (c15_Td n m Dl D2 Hdl) as Td. pose proof (c15_Tr n m rz r2 Lr Hr) as Tr.
    destruct (cont_energy n m Dl D2 (fun _ => na_ p) (fun _ => nb_ p) rz (map E (na_ p)) (map E (nb_ p)) r2 Td
      (c15_Tc n (na_ p)) (c15_Tc n (nb_ p)) Tr lu (E 0) Hlu HDm (fun k => nth k x 0)) with (vol := fun z => vol z) (vol2 := seed n v dv) (c := n) (eps := eps)
      as (d & Pos & Cl).
    { intros k Hk. exact (proj2 (Sx k Hk)). }
    { intros k Hk. exact (proj1 (Sx k Hk)). }
    { exact Tv. }
    { exact He. }
    destruct (tol_small d Pos) as (tol0 & Ht0 & Hsm). exists tol0. split; auto.
    intros tol max_iter k y Ht Hk (Y0 & Run) Py.
    (* the run in terms of the lists of the routine *)
    assert (Ez : forall i, (i < m)%nat -> rho z0 (comp p i) = nth (comp p i) moles0 0 / v).
    { intros i Hi. rewrite aff_base. do 2 f_equal. apply map_ext. intros md. apply aff_base. }
    assert (Mz : moles z0 = moles0) by (apply map_ext; intros md; apply aff_base).
    assert (EdR : forall i j, (i < m)%nat -> (j < m)%nat -> @ix2 RNum (Dl z0) i j = Delta X t (fun i => nth i moles0 0 / v) (comp p i) (comp p j)).
    { intros i j Hi Hj. rewrite Ed0 by auto. rewrite !aff_base, Mz. reflexivity. }
    assert (Ba : forall y i, (i < m)%nat ->
      bonds_a m (@ix2 RNum (Dl z0)) (@ix RNum (nb_ p)) (@ix RNum (rz z0)) y i =
      bonds_a m (fun i j => Delta X t (fun i => nth i moles0 0 / v) (comp p i) (comp p j)) (fun i => Nb X (comp p i)) (fun i => nth (comp p i) moles0 0 / v) y i).
    { intros y' i Hi. apply Sum_ext. intros j Hj. rewrite EdR by auto. destruct (En z0 j Hj) as (_ & -> & ->). rewrite Ez by auto. auto. }
    assert (Bb : forall y i, (i < m)%nat ->
      bonds_b m (@ix2 RNum (Dl z0)) (@ix RNum (na_ p)) (@ix RNum (rz z0)) y i =
      bonds_b m (fun i j => Delta X t (fun i => nth i moles0 0 / v) (comp p i) (comp p j)) (fun i => Na X (comp p i)) (fun i => nth (comp p i) moles0 0 / v) y i).
    { intros y' i Hi. apply Sum_ext. intros j Hj. rewrite EdR by auto. destruct (En z0 j Hj) as (-> & _ & ->). rewrite Ez by auto. auto. }
    assert (Rn : forall y, residual_norm m (@ix2 RNum (Dl z0)) (@ix RNum (na_ p)) (@ix RNum (nb_ p)) (@ix RNum (rz z0)) y =
      residual_norm m (fun i j => Delta X t (fun i => nth i moles0 0 / v) (comp p i) (comp p j)) (fun i => Na X (comp p i)) (fun i => Nb X (comp p i)) (fun i => nth (comp p i) moles0 0 / v) y).
    { intros y'. unfold residual_norm. f_equal. f_equal; apply Sum_ext; intros i Hi; [rewrite Ba by auto | rewrite Bb by auto]; auto. }
    assert (Run' : newton_run m (@ix2 RNum (Dl z0)) (@ix RNum (na_ p)) (@ix RNum (nb_ p)) (@ix RNum (rz z0)) tol k y).
    { destruct Run as (U1 & U2 & U3). split; [ | split].
      - intros j Hj. destruct (U1 j Hj) as [Lj Uj]. split; auto. intros Nz. destruct (Uj Nz) as [L1 H1]. split; auto. intros i Hi. rewrite !Ba, !Bb by auto. apply H1; auto.
      - intros j Hj. rewrite Rn. auto.
      - rewrite Rn. auto. }
    assert (Td0 : forall i j, (i < m)%nat -> (j < m)%nat -> rel (TRn n) (fun _ => @ix2 RNum (Dl z0) i j) (ix2 (map (map nre) D2) i j)).
    { intros i j Hi Hj. destruct Sq as [S1 S2].
      assert (Ei : ix2 (map (map nre) D2) i j = nre (ix2 D2 i j)).
      { unfold ix2.
        assert (E1 : nth i (map (map nre) D2) [] = map nre (nth i D2 [])).
        { etransitivity; [apply (nth_indep _ [] (map nre [])); rewrite map_length, S1; exact Hi | apply (map_nth (map nre))]. }
        rewrite E1. unfold ix.
        etransitivity; [apply (nth_indep _ _ (nre n0)); rewrite map_length, (S2 (nth i D2 [])); [exact Hj | apply nth_In; rewrite S1; exact Hi] | ].
        apply (map_nth nre). }
      rewrite Ei. exact (rel_nre n _ _ (Td i j Hi Hj)). }
    pose proof (lrel_nre n _ _ Tr) as Tr0.
    pose proof (run_loop n m (Dl z0) (na_ p) (nb_ p) (rz z0) (map (map nre) D2) (map nre r2) Td0 Tr0 HDm lu tol Hlu k max_iter y Hk Run' Py) as Lp.
    destruct (Cl (y (S k))) as (xw & x0 & Ew & E0 & Co).
    { destruct Run' as (U1 & _ & _). destruct (U1 k ltac:(lia)) as [_ Uk]. destruct Uk as [L1 _].
      - intros i Hi. destruct (Py k ltac:(lia) i Hi). split; lra.
      - lia. }
    { intros l Hl. eapply Rle_lt_trans; [ | apply (Hsm tol Ht)]. destruct Run' as (U1 & _ & U3). destruct (U1 k ltac:(lia)) as [Lk Uk].
      apply (update_close m (Dl z0) (na_ p) (nb_ p) (rz z0) HDm tol (y k)); auto.
      - lra.
      - apply Uk. intros i Hi. destruct (Py k ltac:(lia) i Hi). split; lra. }
    assert (Ex0 : mk1 (m + m) (fun k => nth k x 0) = x).
    { apply (nth_ext _ _ 0 0); [rewrite mk1_length; auto | ]. intros i Hi. rewrite mk1_length in Hi. exact (nth_mk1 (m + m) (fun k => nth k x 0) i 0 Hi). }
    rewrite Ex0 in E0.
    assert (x0 = xn) by congruence. subst x0.
    (* the derivative steps do not depend on the tolerance *)
    assert (Tolf : forall c x2, newton_deriv (newton_step lu m D2 (map E (na_ p)) (map E (nb_ p)) r2 (E tol)) c x2
      = newton_deriv (newton_step lu m D2 (map E (na_ p)) (map E (nb_ p)) r2 (E 0)) c x2).
    { induction c as [ | c IH]; intros x2; auto. cbn [newton_deriv]. unfold newton_step. destruct (lu _ _); [apply IH | reflexivity]. }
    exists (nmul (ca_energy m (map E (na_ p)) (map E (nb_ p)) r2 xw) (seed n v dv)). split.
    - unfold a_cross_assoc.
      assert (Cr : cross_association lu q (s_t s2) (s_rho s2) (seg_radius q (s_t s2)) n2' n3' n1 max_iter (E tol) None =
        (Ok (ca_energy m (map E (na_ p)) (map E (nb_ p)) r2 xw), None)).
      { unfold cross_association. change (p_nassoc q) with m. fold D2 r2.
        assert (Eps : nltb (nsum (s_rho s2)) f_eps = false).
        { pose proof (tr_ltb _ _ (TRn n) _ _ _ _ (tr_nsum (TRn n) _ _ Trho) (tr_lit _ _ (TRn n) (1 # 4503599627370496))) as Tb.
          unfold f_eps. etransitivity; [exact Tb | ]. change (@nltb RNum) with Rltb. apply Rltb_false. cbv beta.
          assert (Es : @nsum RNum (s_rho (@state_new RNum (temp z0) (vol z0) (moles z0))) = Rho X (fun i => nth i moles0 0 / v)).
          { rewrite nsum_R. etransitivity; [exact (rsum_nth _ 0 (fun x => x)) | ].
            assert (Ls : length (s_rho (@state_new RNum (temp z0) (vol z0) (moles z0))) = length (p_m p)) by (cbn [s_rho state_new]; rewrite map_length; apply Lm).
            etransitivity; [exact (f_equal (fun k => rsum (seq 0 k) (fun i => nth i (s_rho (@state_new RNum (temp z0) (vol z0) (moles z0))) 0)) Ls) | ].
            unfold Rho. change (Spec.N X) with (length (p_m p)). apply Sum_ext. intros i Hi. etransitivity; [apply (s_rho_ix p (temp z0) (vol z0) (moles z0) (Lm z0)); exact Hi | ].
            rewrite !aff_base, Mz. reflexivity. }
          rewrite Es. eapply Rle_trans; [ | exact Hd]. cbn. unfold Rlit. cbn. lra. }
        rewrite Eps. change (p_na q) with (map E (p_na p)). change (p_nb q) with (map E (p_nb p)). rewrite !Sel.
        change (ca_sel p (p_na p)) with (na_ p). change (ca_sel p (p_nb p)) with (nb_ p).
        assert (Guess : repeat (nlit (2 # 10)) (2 * m) = map E (y O)).
        { rewrite Y0. rewrite map_repeat'. f_equal. eapply (rel_fun (dual n)); [exact (tr_lit _ _ (TRn n) (2 # 10)) | ].
          pose proof (tr_emb _ _ (TRn n) (2 / 10)) as Te. eapply (rel_eq (TRn n)); [ | exact Te]. intros z. cbn. unfold Rlit. cbn. lra. }
        match goal with |- context [repeat ?w (2 * m)] => change (repeat w (2 * m)) with (repeat (@nlit (lK (dual n)) (2 # 10)) (2 * m)) end.
        rewrite Guess, Lp, nderiv_dual, Tolf, Ew. reflexivity. }
      fold n2' n3'. rewrite Cr. cbn [fst]. reflexivity.
    - intros s Hs. destruct (Co s Hs) as (r & r0 & C1 & C2 & C3). exists r, r0. split; auto. split; auto.
      assert (Rv : rel (TRn n) (fun z => vol z * energy_at z (F z)) (nmul (ca_energy m (map E (na_ p)) (map E (nb_ p)) r2 xn) (seed n v dv))).
      { eapply (rel_eq (TRn n)); [ | exact (tr_mul _ _ (TRn n) _ _ _ _ (represents_rel n _ _ Rxn) Tv)]. intros z. cbv beta. rn. rewrite Rmult_comm. f_equal.
        apply site_energy_ext. intros i Hi. destruct (En z i Hi) as (-> & -> & ->). auto. }
      destruct (rel_represents n _ _ Rv s Hs) as (d' & Ed' & Pd'). assert (Fin d' = Fin r0) by congruence. injection H as ->. exact Pd'.
  Qed.

  (** the whole residual Helmholtz energy *)
  Definition other_contributions (o : options RNum) (s : state RNum) : R :=
    a_hs p s + a_hc p s + a_disp p s
    + (if Nat.ltb 0 (p_ndipole p) then a_dipole p s else 0)
    + (if Nat.ltb 0 (p_nquadpole p) then a_quadrupole p s else 0)
    + (if Nat.ltb 0 (p_ndipole p) && Nat.ltb 0 (p_nquadpole p) then a_dq p (o_dq o) s else 0).
  (** no contribution is evaluated at a pole of its Pade approximant *)
  Definition no_pole (dq : dq_variant) : Prop :=
    let rho i := nth i moles0 0 / v in
    (p_ndipole p <> 0%nat -> dd2 X t rho <> dd3 X t rho) /\
    (p_nquadpole p <> 0%nat -> qq2_code X t rho <> qq3 X t rho) /\
    (p_ndipole p <> 0%nat -> p_nquadpole p <> 0%nat -> dq2_var p dq t rho <> dq3 X t rho).
  Lemma coef_nsum_app s l (a : dnum n) : coef n s (nsum (l ++ [a])) = xadd (coef n s (nsum l)) (coef n s a).
  Proof. unfold nsum. rewrite fold_left_app. cbn [fold_left]. apply coef_add. Qed.

  Theorem C08_cross_residual (lu : lu_solver (lK (dual n))) max_eta dq : lu_dual n lu -> (2 <= m)%nat -> no_pole dq ->
    exists F : pt n -> list R, near (dual n) (fun z => law_at z (F z)) /\
      forall eps, 0 < eps -> exists tol0, 0 < tol0 < 1 /\
      forall tol max_iter k y, 0 < tol <= tol0 -> (k < max_iter)%nat -> mixture_run p t v moles0 tol k y ->
        (forall j, (j <= k)%nat -> all_positive m (y j)) ->
        let o := @mkOptions RNum max_eta max_iter tol dq in
        exists a, residual lu (with_options q (lift_options E o)) s2 = Some a /\
          forall s, length s = n -> exists r d, coef n s a = Fin r /\
            partial n s (fun z => other_contributions o (path n t v dt dv seeds z) + vol z * energy_at z (F z)) d /\ Rabs (r - d) < eps.
  Proof.
    intros Hlu Hm (P1 & P2 & P3). destruct (C15_default_start lu Hlu) as (F & LF & H). exists F. split; auto.
    intros eps He. destruct (H eps He) as (tol0 & Ht0 & H0). exists tol0. split; auto.
    intros tol max_iter k y Ht Hk Run Py o. destruct (H0 tol max_iter k y Ht Hk Run Py) as (b & Eb & Cb).
    pose (W := wfp_from_records prs bin p Hp). pose proof (PS' p n t v dt dv seeds PS) as PSz.
    pose (Tt := rel_aff n t dt). pose (Tv := rel_aff n v dv). pose (TM := Tm n seeds).
    set (l := [a_hs q s2; a_hc q s2; a_disp q s2]
       ++ (if Nat.ltb 0 (p_ndipole p) then [a_dipole q s2] else [])
       ++ (if Nat.ltb 0 (p_nquadpole p) then [a_quadrupole q s2] else [])
       ++ (if Nat.ltb 0 (p_ndipole p) && Nat.ltb 0 (p_nquadpole p) then [a_dq q dq s2] else [])).
    assert (Er : residual lu (with_options q (lift_options E o)) s2 = Some (nsum (l ++ [b]))).
    { unfold residual, with_options, l. cbn [e_contributions e_params p_ndipole p_nquadpole p_nassoc plift dparams lift_options o_max_iter o_tol o_dq o].
      destruct (Nat.ltb 0 (p_ndipole p)), (Nat.ltb 0 (p_nquadpole p)), m as [ | [ | k']]; try lia; cbn [andb app map eval_contribution collect_opt];
        rewrite Eb; reflexivity. }
    exists (nsum (l ++ [b])). split; auto. intros s Hs. destruct (Cb s Hs) as (r & d & C1 & C2 & C3).
    assert (Rl : rel (TRn n) (fun z => other_contributions o (path n t v dt dv seeds z)) (nsum l)).
    { set (st := fun z => path n t v dt dv seeds z).
      assert (Ll : lrel (TRn n) (fun z => [a_hs p (st z); a_hc p (st z); a_disp p (st z)]
       ++ (if Nat.ltb 0 (p_ndipole p) then [a_dipole p (st z)] else [])
       ++ (if Nat.ltb 0 (p_nquadpole p) then [a_quadrupole p (st z)] else [])
       ++ (if Nat.ltb 0 (p_ndipole p) && Nat.ltb 0 (p_nquadpole p) then [a_dq p dq (st z)] else [])) l).
      { unfold l. repeat apply (lrel_app (TRn n)).
        - apply (lrel_cons (TRn n)). { apply represents_rel. exact (C08_hard_sphere prs bin p Hp Hph n t v dt dv seeds PS). }
          apply (lrel_cons (TRn n)). { apply represents_rel. exact (C08_hard_chain prs bin p Hp Hph n t v dt dv seeds PS). }
          apply (lrel_sing (TRn n)). apply represents_rel. exact (C08_dispersion prs bin p Hp Hph n t v dt dv seeds PS).
        - destruct (Nat.ltb_spec 0 (p_ndipole p)); [ | apply (lrel_nil (TRn n))]. apply (lrel_sing (TRn n)).
          apply (dipole_rel prs bin p Hp Hph n t v dt dv seeds PS). left. apply P1. lia.
        - destruct (Nat.ltb_spec 0 (p_nquadpole p)); [ | apply (lrel_nil (TRn n))]. apply (lrel_sing (TRn n)).
          apply (quadrupole_rel prs bin p Hp Hph n t v dt dv seeds PS). left. apply P2. lia.
        - destruct (Nat.ltb_spec 0 (p_ndipole p)), (Nat.ltb_spec 0 (p_nquadpole p)); cbn [andb]; try apply (lrel_nil (TRn n)). apply (lrel_sing (TRn n)).
          apply (dipole_quadrupole_rel prs bin p Hp Hph n t v dt dv seeds PS). left. apply P3; lia. }
      eapply (rel_eq (TRn n)); [ | exact (tr_nsum (TRn n) _ _ Ll)]. intros z. cbv beta. unfold other_contributions. fold (st z). cbn [o o_dq]. rewrite nsum_R.
      destruct (Nat.ltb 0 (p_ndipole p)), (Nat.ltb 0 (p_nquadpole p)); cbn [andb app rsum]; lra. }
    destruct (rel_represents n _ _ Rl s Hs) as (r1 & E1 & Q1). exists (r1 + r), (r1 + d). split; [ | split].
    - rewrite coef_nsum_app, E1, C1. reflexivity.
    - exact (partial_plus n s _ _ _ _ Q1 C2).
    - replace (r1 + r - (r1 + d)) with (r - d) by ring. exact C3.
  Qed.

  (** Runs that keep an invariant: no assumption about the iteration is left. *)
  Lemma invariant_run (I : nat -> list R -> Prop) K max_iter tol : (K < max_iter)%nat -> 0 < tol < 1 ->
    let rho i := nth i moles0 0 / v in let c := comp p in
    let De i j := Delta X t rho (c i) (c j) in let A i := Na X (c i) in let B i := Nb X (c i) in let Ro i := rho (c i) in
    I O (repeat (2 / 10) (2 * m)) ->
    (forall j x, I j x -> length x = (2 * m)%nat /\ all_positive m x) ->
    (forall j x x', I j x -> newton_update m De A B Ro x x' -> I (S j) x') ->
    (forall x, I K x -> residual_norm m De A B Ro x < tol) ->
    exists k y, (k < max_iter)%nat /\ mixture_run p t v moles0 tol k y /\ forall j, (j <= k)%nat -> all_positive m (y j).
  Proof.
    intros HK Ht rho c De A B Ro I0 IP IS IK.
    destruct (eos_invariant gauss_lu gauss_lu_exact prs bin p Hp Hph Hap t v moles0 PS Hd I K max_iter tol HK Ht I0 IP IS IK) as (a & Ea & _).
    destruct (C13_equation_of_state gauss_lu prs bin p t v moles0 max_iter tol a gauss_lu_exact Hp Hph Hap PS ltac:(lia) Ht Hd Ea) as (k & y & Hk & Run & _).
    exists k, y. do 2 (split; auto). destruct Run as (Z0 & Z1 & _).
    assert (Iz : forall j, (j <= k)%nat -> I j (y j)).
    { induction j as [ | j IH]; intros Hj; [rewrite Z0; exact I0 | ].
      specialize (IH ltac:(lia)). apply (IS j (y j)); auto. destruct (Z1 j ltac:(lia)) as [_ U]. apply U.
      destruct (IP _ _ IH) as [_ P]. intros i Hi. destruct (P i Hi). split; lra. }
    intros j Hj. apply (IP j). auto.
  Qed.

  (** bonds per site if all sites were free, for a site on component i *)
  Notation rho0 := (fun i => nth i moles0 0 / v).
  Definition free_bonds_a (i : nat) : R := Sum j < N X, rho0 j * Nb X j * Delta X t rho0 i j.
  Definition free_bonds_b (i : nat) : R := Sum j < N X, rho0 j * Na X j * Delta X t rho0 i j.
  Lemma free_sums : 
    let rho i := nth i moles0 0 / v in let c := comp p in
    let De i j := Delta X t rho (c i) (c j) in let A i := Na X (c i) in let B i := Nb X (c i) in let Ro i := rho (c i) in
    (forall i j, (i < m)%nat -> (j < m)%nat -> 0 <= De i j) /\ (forall i, (i < m)%nat -> 0 <= A i /\ 0 <= B i /\ 0 <= Ro i) /\
    (forall i, (Sum j < m, Ro j * B j * De i j) = free_bonds_a (c i)) /\ (forall i, (Sum j < m, Ro j * A j * De i j) = free_bonds_b (c i)).
  Proof.
    intros rho c De A B Ro. pose (W := wfp_from_records prs bin p Hp). split; [ | split; [ | split]].
    - intros i j Hi Hj. apply (Delta_nonneg p Hph Hap t v moles0 PS); apply (comp_lt p W); auto.
    - intros i Hi. pose proof (comp_lt p W i Hi) as Hc. split; [apply Hap; auto | ]. split; [apply Hap; auto | ].
      apply (rho_nonneg p t v moles0 PS). auto.
    - intros i. apply (sum_assoc p W (fun j => rho j * Nb X j * Delta X t rho (c i) j)). intros j Hj E0. unfold rho. rewrite Delta_nonassoc by auto. ring.
    - intros i. apply (sum_assoc p W (fun j => rho j * Na X j * Delta X t rho (c i) j)). intros j Hj E0. unfold rho. rewrite Delta_nonassoc by auto. ring.
  Qed.
  Lemma weak_run K max_iter tol : (K < max_iter)%nat -> 0 < tol < 1 -> 8 * sqrt (2 * INR m) * (4 / 5) ^ (2 ^ K) < tol ->
    (forall i, (i < N X)%nat -> free_bonds_a i <= / 4 /\ free_bonds_b i <= / 4) ->
    exists k y, (k < max_iter)%nat /\ mixture_run p t v moles0 tol k y /\ forall j, (j <= k)%nat -> all_positive m (y j).
  Proof.
    intros HK Ht Hb Hw. pose (W := wfp_from_records prs bin p Hp). destruct free_sums as (HDe & HAB & Sa & Sb).
    set (rho := fun i => nth i moles0 0 / v) in *. set (c := comp p) in *. set (De := fun i j => Delta X t rho (c i) (c j)) in *.
    set (A := fun i => Na X (c i)) in *. set (B := fun i => Nb X (c i)) in *. set (Ro := fun i => rho (c i)) in *.
    assert (Wk : weak m De A B Ro).
    { intros i Hi. destruct (Hw (c i)) as [H1 H2]; [apply (comp_lt p W); auto | ].
      split; [exact (eq_ind_r (fun w => w <= / 4) H1 (Sa i)) | exact (eq_ind_r (fun w => w <= / 4) H2 (Sb i))]. }
    apply (invariant_run (weak_inv m De A B Ro) K); auto.
    - apply weak_inv_start; auto.
    - intros j x (L & P & _). split; auto. intros i Hi. destruct (P i Hi). split; lra.
    - intros j x x'. apply weak_inv_step; auto.
    - intros x Hx. eapply Rle_lt_trans; [apply (weak_inv_norm m De A B Ro HDe HAB Wk K x Hx) | exact Hb].
  Qed.
  Lemma equal_run K max_iter tol d : (S K < max_iter)%nat -> 0 < tol < 1 -> 0 <= d <= 4 ^ K ->
    sqrt (2 * INR m) * (d * (1 + 2 * d) / 4 ^ K) < tol ->
    (forall i, (i < N X)%nat -> Kab X i <> 0 -> free_bonds_a i = d /\ free_bonds_b i = d) ->
    exists k y, (k < max_iter)%nat /\ mixture_run p t v moles0 tol k y /\ forall j, (j <= k)%nat -> all_positive m (y j).
  Proof.
    intros HK Ht Hdr Hb Hw. pose (W := wfp_from_records prs bin p Hp). destruct free_sums as (HDe & HAB & Sa & Sb).
    set (rho := fun i => nth i moles0 0 / v) in *. set (c := comp p) in *. set (De := fun i j => Delta X t rho (c i) (c j)) in *.
    set (A := fun i => Na X (c i)) in *. set (B := fun i => Nb X (c i)) in *. set (Ro := fun i => rho (c i)) in *.
    assert (Hu : forall i, (i < m)%nat -> (Sum j < m, Ro j * B j * De i j) = d /\ (Sum j < m, Ro j * A j * De i j) = d).
    { intros i Hi. enough (H12 : free_bonds_a (c i) = d /\ free_bonds_b (c i) = d) by (split; [exact (eq_trans (Sa i) (proj1 H12)) | exact (eq_trans (Sb i) (proj2 H12))]).
      apply Hw; [apply (comp_lt p W); auto | ].
      assert (In (c i) (p_assoc_comp p)) as I by (apply nth_In; rewrite <- (w_na _ W); auto).
      rewrite (w_ass _ W) in I at 1. apply filter_In in I. destruct I as [_ I]. apply nonzero_R in I. exact I. }
    apply (invariant_run (uniform_inv m d) (S K)); auto.
    - apply uniform_inv_start.
    - intros j x. apply uniform_inv_pos.
    - intros j x x'. apply uniform_inv_step; auto; apply Hdr.
    - intros x Hx. eapply Rle_lt_trans; [apply (uniform_inv_norm m De A B Ro d (proj1 Hdr) Hu K x (proj2 Hdr) Hx) | exact Hb].
  Qed.

  (** all derivatives of the residual Helmholtz energy, no assumption on the iteration *)
  Definition derivatives_within (F : pt n -> list R) (o : options RNum) (lu : lu_solver (lK (dual n))) (eps : R) : Prop :=
    exists a, residual lu (with_options q (lift_options E o)) s2 = Some a /\
      forall s, length s = n -> exists r d, coef n s a = Fin r /\
        partial n s (fun z => other_contributions o (path n t v dt dv seeds z) + vol z * energy_at z (F z)) d /\ Rabs (r - d) < eps.
  Theorem C08_weak_association (lu : lu_solver (lK (dual n))) max_eta dq : lu_dual n lu -> (2 <= m)%nat -> no_pole dq ->
    (forall i, (i < N X)%nat -> free_bonds_a i <= / 4 /\ free_bonds_b i <= / 4) ->
    exists F : pt n -> list R, near (dual n) (fun z => law_at z (F z)) /\
      forall eps, 0 < eps -> exists tol0, 0 < tol0 < 1 /\ forall tol max_iter K, 0 < tol <= tol0 -> (K < max_iter)%nat ->
        8 * sqrt (2 * INR m) * (4 / 5) ^ (2 ^ K) < tol -> derivatives_within F (@mkOptions RNum max_eta max_iter tol dq) lu eps.
  Proof.
    intros Hlu Hm Np Hw. destruct (C08_cross_residual lu max_eta dq Hlu Hm Np) as (F & LF & H). exists F. split; auto.
    intros eps He. destruct (H eps He) as (tol0 & Ht0 & H0). exists tol0. split; auto. intros tol max_iter K Ht HK Hb.
    destruct (weak_run K max_iter tol HK ltac:(lra) Hb Hw) as (k & y & Hk & Run & Py). exact (H0 tol max_iter k y Ht Hk Run Py).
  Qed.
  Theorem C08_equal_sites (lu : lu_solver (lK (dual n))) max_eta dq d : lu_dual n lu -> (2 <= m)%nat -> no_pole dq -> 0 <= d ->
    (forall i, (i < N X)%nat -> Kab X i <> 0 -> free_bonds_a i = d /\ free_bonds_b i = d) ->
    exists F : pt n -> list R, near (dual n) (fun z => law_at z (F z)) /\
      forall eps, 0 < eps -> exists tol0, 0 < tol0 < 1 /\ forall tol max_iter K, 0 < tol <= tol0 -> (S K < max_iter)%nat -> d <= 4 ^ K ->
        sqrt (2 * INR m) * (d * (1 + 2 * d) / 4 ^ K) < tol -> derivatives_within F (@mkOptions RNum max_eta max_iter tol dq) lu eps.
  Proof.
    intros Hlu Hm Np Pd Hw. destruct (C08_cross_residual lu max_eta dq Hlu Hm Np) as (F & LF & H). exists F. split; auto.
    intros eps He. destruct (H eps He) as (tol0 & Ht0 & H0). exists tol0. split; auto. intros tol max_iter K Ht HK Hdk Hb.
    destruct (equal_run K max_iter tol d HK ltac:(lra) ltac:(lra) Hb Hw) as (k & y & Hk & Run & Py). exact (H0 tol max_iter k y Ht Hk Run Py).
  Qed.
End Routine.

Lemma ww_records pr : In pr [pr_water; pr_water] -> P_Params.physical_record (pr_model pr) /\ r_mu (pr_model pr) = None /\ r_q (pr_model pr) = None.
Proof.
  intros [<- | [<- | []]]; (split; [ | split; reflexivity]); unfold P_Params.physical_record; cbn; lra.
Qed.
Lemma ww_no_pole t v moles dq : no_pole ww t v moles dq.
Proof.
  assert (D : p_ndipole ww = 0%nat) by (apply (P_DftR.no_dipole _ _ _ ww_ok); intros pr I; apply (ww_records pr I)).
  assert (Q : p_nquadpole ww = 0%nat) by (apply (P_DftR.no_quadrupole _ _ _ ww_ok); intros pr I; apply (ww_records pr I)).
  split; [ | split]; intros C; exfalso; auto.
Qed.
(** water and a copy of water, for all derivatives *)
Example C08_weak_case n dt dv d0 d1 dq max_eta :
  let seeds := [(1, d0); (1, d1)] in
  exists F, near (dual n) (fun z => law_at ww n 350 (10 ^ 6) dt dv seeds z (F z)) /\
    forall eps, 0 < eps -> exists tol max_iter,
      derivatives_within ww n 350 (10 ^ 6) dt dv seeds F (@mkOptions RNum max_eta max_iter tol dq) (gaussK_lu (lK (dual n))) eps.
Proof.
  intros seeds. assert (PS : phys_state ww 350 (10 ^ 6) (map fst seeds)) by (apply ww_state; lra).
  destruct (C08_weak_association _ _ ww ww_ok ww_phys ww_assoc n 350 (10 ^ 6) dt dv seeds PS) with (lu := gaussK_lu (lK (dual n))) (max_eta := max_eta) (dq := dq) as (F & LF & H).
  - exact (ww_Rho (10 ^ 6) ltac:(lra)).
  - apply gaussK_lu_dual.
  - rewrite ww_nassoc. lia.
  - apply ww_no_pole.
  - intros i Hi. destruct (ww_bonds (10 ^ 6) i ltac:(lra) Hi) as [A B]. unfold free_bonds_a, free_bonds_b, seeds. cbn [map fst].
    pose proof (ww_Delta_bounds (10 ^ 6) ltac:(lra)) as Hb. split; [rewrite A | rewrite B]; lra.
  - exists F. split; auto. intros eps He. destruct (H eps He) as (tol0 & Ht0 & H0).
    assert (L : exists K, 8 * sqrt (2 * INR (p_nassoc ww)) * (4 / 5) ^ (2 ^ K) < tol0).
    { rewrite ww_nassoc. pose proof (sqrt_pos (2 * INR 2)). set (C := 8 * sqrt (2 * INR 2)) in *. assert (HC : 0 <= C) by (unfold C; lra).
      destruct (pow_lt_1_zero (4 / 5)) with (y := tol0 / (C + 1)) as (K & HK); [rewrite Rabs_pos_eq; lra | apply Rdiv_lt_0_compat; lra | ].
      exists K. specialize (HK (2 ^ K)%nat ltac:(pose proof (pow2_gt K); lia)). rewrite Rabs_pos_eq in HK by (apply pow_le; lra).
      assert (Pw : 0 < (4 / 5) ^ (2 ^ K)) by (apply pow_lt; lra). revert HK Pw. generalize ((4 / 5) ^ (2 ^ K)). intros w HK Pw.
      apply (Rmult_lt_compat_l (C + 1)) in HK; [ | lra]. replace ((C + 1) * (tol0 / (C + 1))) with tol0 in HK by (field; lra). nra. }
    destruct L as (K & HK). exists tol0, (S K). apply (H0 tol0 (S K) K); auto. lra.
Qed.

Print Assumptions C15_default_start.
Print Assumptions C08_cross_residual.
Print Assumptions C08_weak_association.
Print Assumptions C08_equal_sites.
