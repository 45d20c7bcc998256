(** C13 continued (what the acceptance test cannot exclude), C14 (existence, uniqueness, fixed
    points) and C38 (cross-association on density profiles). *)
From Coq Require Import ZArith QArith Reals Lra Lia String List Arith Bool.
From Interval Require Import Tactic.
From Verif Require Import Num RNum RSum Tables M_Params F_Params M_Eos M_Dft Spec F_Spec F_SpecAssoc F_Contrib
  F_MassAction F_MassAction2 F_Newton F_Gauss F_NewtonR F_Cross Samples P_Assoc.
Import ListNotations.
Local Open Scope R_scope.

(* --------------------------------------------------------------------------- C13 *)

Section AnyRoot.
  Variable lu : lu_solver RNum.
  Hypothesis Hlu : lu_exact lu.
  Variables (p : params RNum) (t : R) (rho r : list R) (n2 n3i xi : R).
  Notation n := (p_nassoc p).
  Notation str := (str p t r n2 n3i xi).
  Notation sa := (sa p).
  Notation sb := (sb p).
  Notation den := (den p rho).

  (** The acceptance test looks at the residual only: every isolated root of the mass-action
      equations given as start vector is accepted, whether or not its entries are fractions. *)
  Theorem C13_any_root_accepted max_iter tol (x : list R) : (0 < max_iter)%nat -> 0 < tol ->
    / 2 ^ 52 <= rsum rho (fun x => x) -> length x = (2 * n)%nat -> no_zero n x ->
    (forall i, (i < n)%nat -> fa x i * (1 + bonds_a n str sb den x i) = 1 /\ fb n x i * (1 + bonds_b n str sa den x i) = 1) ->
    (forall x', newton_update n str sa sb den x x' -> x' = x) ->
    @cross_association RNum lu p t rho r n2 n3i xi max_iter tol (Some x) = (Ok (site_energy n sa sb den x), Some x).
  Proof.
    intros Hm Ht Hd Lx Hz Hx Hu.
    assert (R0 : residual_norm n str sa sb den x = 0).
    { unfold residual_norm. rewrite (rsum_zero _ (fun i => (1 / fa x i - 1 - bonds_a n str sb den x i) ^ 2)).
      rewrite (rsum_zero _ (fun i => (1 / fb n x i - 1 - bonds_b n str sa den x i) ^ 2)).
      rewrite Rplus_0_l. apply sqrt_0.
      - intros i Hi. apply in_seq in Hi. destruct (Hx i) as [_ E]; [lia | ]. destruct (Hz i) as [_ Z]; [lia | ].
        replace (1 / fb n x i) with (1 + bonds_b n str sa den x i); [ring | ].
        apply Rmult_eq_reg_l with (fb n x i); auto. rewrite E. field. auto.
      - intros i Hi. apply in_seq in Hi. destruct (Hx i) as [E _]; [lia | ]. destruct (Hz i) as [Z _]; [lia | ].
        replace (1 / fa x i) with (1 + bonds_a n str sb den x i); [ring | ].
        apply Rmult_eq_reg_l with (fa x i); auto. rewrite E. field. auto. }
    assert (Ux : newton_update n str sa sb den x x).
    { split; auto. intros i Hi. destruct (Hx i Hi). split; lra. }
    destruct (@cross_association RNum lu p t rho r n2 n3i xi max_iter tol (Some x)) as [[a | e] x0'] eqn:E.
    - destruct (C13_accepted lu Hlu p t rho r n2 n3i xi max_iter tol (Some x) a x0' Hm Hd Lx E)
        as (k & y & Hk & Y0 & Yj & Yl & Yk & -> & ->). cbn [first_guess] in Y0.
      assert (K0 : k = 0%nat).
      { destruct k as [ | k]; auto. specialize (Yl 0%nat ltac:(lia)). rewrite Y0, R0 in Yl. lra. }
      subst k. destruct (Yj 0%nat ltac:(lia)) as [_ U]. rewrite Y0 in U. specialize (U Hz).
      apply Hu in U. rewrite U. reflexivity.
    - exfalso. destruct (C13_rejected lu Hlu p t rho r n2 n3i xi max_iter tol (Some x) e x0' Hm Hd Lx E)
        as (k & y & Hk & Y0 & Yj & Yl & Yk). cbn [first_guess] in Y0.
      assert (K0 : k = 0%nat).
      { destruct k as [ | k]; auto. specialize (Yl 0%nat ltac:(lia)). rewrite Y0, R0 in Yl. lra. }
      subst k. rewrite Y0 in Yk. destruct Yk as [(_ & _ & C) | (_ & C)]; [rewrite R0 in C; lra | ].
      apply (C Hz x). intros x''. split; [apply Hu | intros ->; auto].
  Qed.
End AnyRoot.

(** two isotopologues of water *)
Definition ww : params RNum := from_records_raw [pr_water; pr_water] (zeros 2).
Lemma ww_ok : from_records [pr_water; pr_water] (zeros 2) = Some ww.
Proof. reflexivity. Qed.
Lemma ww_phys : phys ww.
Proof. intros i Hi. cbn in Hi. destruct i as [ | [ | i]]; cbn; try lra; lia. Qed.
Lemma ww_assoc : assoc_phys ww.
Proof. intros i Hi. cbn in Hi. destruct i as [ | [ | i]]; cbn; try lra; lia. Qed.
Lemma ww_state v : 100 <= v -> phys_state ww 350 v [1; 1].
Proof.
  intros Hv. apply phys_state_intro; [exact ww_phys | lra | lra | reflexivity | | | ].
  - intros i Hi. cbn in Hi. destruct i as [ | [ | i]]; cbn; try lra; lia.
  - exists 0%nat. cbn. split; [lia | lra].
  - cbn. lra.
Qed.
Lemma ww_comp : p_assoc_comp ww = [0%nat; 1%nat].
Proof.
  change (p_assoc_comp ww) with (nonzero_comp (p_kappa_ab ww)). unfold nonzero_comp.
  cbn [ww from_records_raw p_kappa_ab pr_water map pr_model r_kappa_ab unwrap_or List.length seq filter ix nth].
  assert (H : @nltb RNum (@n0 RNum) (@nabs RNum 0.034867983) = true).
  { apply Rltb_true. unfold n0. cbn. rewrite Rabs_pos_eq by lra. lra. }
  rewrite H. reflexivity.
Qed.
Lemma ww_nassoc : p_nassoc ww = 2%nat.
Proof. change (p_nassoc ww) with (List.length (p_assoc_comp ww)). rewrite ww_comp. reflexivity. Qed.
Lemma ww_cmp i : (i < 2)%nat -> comp ww i = i.
Proof. intros Hi. unfold comp. rewrite ww_comp. destruct i as [ | [ | i]]; auto; lia. Qed.

(** strength, site numbers and densities seen by the association routine for [p] at a state *)
Lemma str_Delta p t v moles i j : wfp p -> phys p -> phys_state p t v moles -> (i < p_nassoc p)%nat -> (j < p_nassoc p)%nat ->
  str p t (seg_radius p t) (n2_ p t v moles) (n3i_ p t v moles) (@n1 RNum) i j
  = Delta (mix_of p) t (fun i => nth i moles 0 / v) (comp p i) (comp p j).
Proof.
  intros W Hph PS Hi Hj. rewrite <- (delta_ix p W Hph t v moles PS i j Hi Hj).
  symmetry. unfold delta_. apply delta_str; auto.
Qed.
Lemma den_rho p t v moles i : wfp p -> phys_state p t v moles -> (i < p_nassoc p)%nat ->
  den p (s_rho (@state_new RNum t v moles)) i = nth (comp p i) moles 0 / v.
Proof.
  intros W PS Hi. rewrite <- (rho_ix p W t v moles PS i Hi). symmetry. apply rho_den. auto.
Qed.

Lemma ww_Delta v i j : (i < 2)%nat -> (j < 2)%nat -> 
  Delta (mix_of ww) 350 (fun i => nth i [1; 1] 0 / v) i j = Delta (mix_of ww) 350 (fun i => nth i [1; 1] 0 / v) 0 0.
Proof. intros Hi Hj. destruct i as [ | [ | i]]; try lia; destruct j as [ | [ | j]]; try lia; reflexivity. Qed.
Lemma ww_Delta_bounds v : 1000 <= v <= 10 ^ 6 -> 1 < Delta (mix_of ww) 350 (fun i => nth i [1; 1] 0 / v) 0 0 < 10 ^ 4.
Proof.
  intros Hv. unfold Delta, Gij, Zeta, Kapij, Sij, Di. cbn.
  split; interval.
Qed.

Section WaterWater.
  Variable v : R.
  Hypothesis Hv : 1000 <= v <= 10 ^ 6.
  Let s := @state_new RNum 350 v [1; 1].
  Let D0 := Delta (mix_of ww) 350 (fun i => nth i [1; 1] 0 / v) 0 0.
  Let W : wfp ww := wfp_from_records _ _ _ ww_ok.
  Let PS : phys_state ww 350 v [1; 1] := ww_state v ltac:(lra).
  Notation strw := (str ww 350 (seg_radius ww 350) (n2_ ww 350 v [1; 1]) (n3i_ ww 350 v [1; 1]) (@n1 RNum)).
  Notation denw := (den ww (s_rho s)).

  Lemma ww_str i j : (i < 2)%nat -> (j < 2)%nat -> strw i j = D0.
  Proof.
    intros Hi Hj. rewrite str_Delta; [ | exact W | exact ww_phys | exact PS | rewrite ww_nassoc; auto | rewrite ww_nassoc; auto].
    rewrite !ww_cmp by auto. apply ww_Delta; auto.
  Qed.
  Lemma ww_den i : (i < 2)%nat -> denw i = 1 / v.
  Proof.
    intros Hi. unfold s. rewrite (den_rho _ _ _ _ _ W PS) by (rewrite ww_nassoc; auto). rewrite ww_cmp by auto.
    destruct i as [ | [ | i]]; try lia; reflexivity.
  Qed.
  Lemma ww_sa i : (i < 2)%nat -> sa ww i = 1.
  Proof. intros Hi. unfold sa. rewrite ww_cmp by auto. destruct i as [ | [ | i]]; try lia; reflexivity. Qed.
  Lemma ww_sb i : (i < 2)%nat -> sb ww i = 1.
  Proof. intros Hi. unfold sb. rewrite ww_cmp by auto. destruct i as [ | [ | i]]; try lia; reflexivity. Qed.
  Lemma ww_rsum : / 2 ^ 52 <= rsum (s_rho s) (fun x => x).
  Proof.
    cbn. assert (/ 10 ^ 6 <= 1 / v) by (unfold Rdiv; rewrite Rmult_1_l; apply Rinv_le_contravar; lra).
    unfold Rdiv in *. rewrite !Rmult_1_l in *. lra.
  Qed.
  Lemma ww_bonds_a x i : (i < 2)%nat -> bonds_a 2 strw (sb ww) denw x i = D0 / v * (fb 2 x 0 + fb 2 x 1).
  Proof. intros Hi. unfold bonds_a. cbn [rsum seq map fold_right]. rewrite !ww_str, !ww_den, !ww_sb by lia. field. lra. Qed.
  Lemma ww_bonds_b x i : (i < 2)%nat -> bonds_b 2 strw (sa ww) denw x i = D0 / v * (fa x 0 + fa x 1).
  Proof. intros Hi. unfold bonds_b. cbn [rsum seq map fold_right]. rewrite !ww_str, !ww_den, !ww_sa by lia. field. lra. Qed.

  Lemma negative_root : exists w, w < 0 /\ forall (lu : lu_solver RNum) max_iter tol, lu_exact lu -> (0 < max_iter)%nat -> 0 < tol ->
    @cross_association RNum lu ww 350 (s_rho s) (seg_radius ww 350) (assoc_n2 ww 350 (s_rho s))
      (@nrecip RNum (1 - packing ww 350 (s_rho s))) (@n1 RNum) max_iter tol (Some [w; w; w; w])
    = (Ok (site_energy 2 (sa ww) (sb ww) denw [w; w; w; w]), Some [w; w; w; w]).
  Proof.
    pose (d := 2 * (D0 / v)).
    destruct (ww_Delta_bounds v Hv) as [B _]. fold D0 in B.
    assert (Pd : 0 < d) by (unfold d; apply Rmult_lt_0_compat; [lra | apply Rdiv_lt_0_compat; lra]).
    pose (q := sqrt (1 + 4 * d)). assert (Hq : q * q = 1 + 4 * d) by (apply sqrt_sqrt; lra).
    assert (Pq : 0 < q) by (apply sqrt_lt_R0; lra).
    pose (w := (- 1 - q) / (2 * d)). assert (Ew : 2 * d * w = - 1 - q) by (unfold w; field; lra).
    assert (Nw : w < 0).
    { unfold w. apply Rmult_lt_reg_l with (2 * d); [lra | ]. rewrite Rmult_0_r. replace (2 * d * ((- 1 - q) / (2 * d))) with (- 1 - q) by (field; lra). lra. }
    assert (Rw : w * (1 + d * w) = 1).
    { apply Rmult_eq_reg_l with (4 * d); [ | lra]. replace (4 * d * (w * (1 + d * w))) with (2 * (2 * d * w) + (2 * d * w) * (2 * d * w)) by ring.
      rewrite Ew. nra. }
    exists w. split; auto. intros lu max_iter tol Hlu Hm Ht.
    assert (E3 : @nrecip RNum (1 - packing ww 350 (s_rho s)) = n3i_ ww 350 v [1; 1]).
    { unfold n3i_. f_equal. rn. fold s. ring. }
    rewrite E3. fold s. change (assoc_n2 ww 350 (s_rho s)) with (n2_ ww 350 v [1; 1]).
    pose proof (C13_any_root_accepted lu Hlu ww 350 (s_rho s) (seg_radius ww 350) (n2_ ww 350 v [1; 1]) (n3i_ ww 350 v [1; 1]) (@n1 RNum)
      max_iter tol [w; w; w; w] Hm Ht ww_rsum) as A.
    rewrite ww_nassoc in A. apply A; clear A.
    - reflexivity.
    - intros i Hi. destruct i as [ | [ | i]]; try lia; cbn; lra.
    - intros i Hi. rewrite ww_bonds_a, ww_bonds_b by auto.
      assert (F : fa [w; w; w; w] i = w /\ fb 2 [w; w; w; w] i = w) by (destruct i as [ | [ | i]]; try lia; split; reflexivity).
      destruct F as [-> ->]. cbn. replace (D0 / v * (w + w)) with (d * w) by (unfold d; ring). auto.
    - intros x' [L U]. destruct x' as [ | a0 [ | a1 [ | b0 [ | b1 [ | ]]]]]; try discriminate L. clear L.
      pose proof (U 0%nat ltac:(lia)) as U0. pose proof (U 1%nat ltac:(lia)) as U1. clear U.
      rewrite !ww_bonds_a, !ww_bonds_b in U0, U1 by lia. cbn [fa fb nth Nat.add] in U0, U1.
      replace (D0 / v) with (d / 2) in U0, U1 by (unfold d; field; lra).
      destruct U0 as [A0 B0]. destruct U1 as [A1 B1].
      (* sums *)
      set (P := 1 + d * w) in *. assert (HP : w * P = 1) by exact Rw.
      assert (S1 : a0 + a1 = b0 + b1) by (unfold P in *; nra).
      assert (S2 : (a0 + a1 - 2 * w) * (1 + 2 * d * w) = 0) by (unfold P in *; nra).
      apply Rmult_integral in S2. destruct S2 as [S2 | S2]; [ | exfalso; lra].
      assert (a0 = w) by nra. assert (a1 = w) by nra. assert (b0 = w) by nra. assert (b1 = w) by nra.
      congruence.
  Qed.
End WaterWater.

(** hence the routine can accept negative "fractions" *)
Theorem C13_negative_fractions_refuted :
  exists p t v moles (x : list R), phys p /\ assoc_phys p /\ phys_state p t v moles /\ (exists prs bin, from_records prs bin = Some p) /\
    let s := @state_new RNum t v moles in
    exists a, @cross_association RNum gauss_lu p t (s_rho s) (seg_radius p t) (assoc_n2 p t (s_rho s))
      (@nrecip RNum (1 - packing p t (s_rho s))) (@n1 RNum) 50 (/ 10 ^ 10) (Some x) = (Ok a, Some x) /\
    forall i, (i < length x)%nat -> nth i x 0 < 0.
Proof.
  assert (Hv : 1000 <= 1000 <= 10 ^ 6) by lra.
  destruct (negative_root 1000 Hv) as (w & Nw & H).
  exists ww, 350, 1000, [1; 1], [w; w; w; w]. split; [exact ww_phys | ]. split; [exact ww_assoc | ].
  split; [apply ww_state; lra | ]. split; [eexists; eexists; exact ww_ok | ]. cbv zeta.
  eexists. split; [apply H; [exact gauss_lu_exact | lia | lra] | ].
  intros i Hi. destruct i as [ | [ | [ | [ | i]]]]; cbn in *; try lra; lia.
Qed.

(** and with no iterations allowed the equation of state returns the energy of a vector whose
    residual is not below the tolerance *)
Theorem C13_zero_iterations_refuted :
  exists p t v moles a, phys p /\ assoc_phys p /\ phys_state p t v moles /\ (exists prs bin, from_records prs bin = Some p) /\
    a_cross_assoc gauss_lu 0 (/ 10 ^ 10) p (@state_new RNum t v moles) = Some a /\
    let X := mix_of p in
    let rho i := nth i moles 0 / v in
    a = v * site_energy (p_nassoc p) (fun i => Na X (comp p i)) (fun i => Nb X (comp p i)) (fun i => rho (comp p i)) (repeat 0.2 (2 * p_nassoc p)) /\
    1 < residual_norm (p_nassoc p) (fun i j => Delta X t rho (comp p i) (comp p j)) (fun i => Na X (comp p i)) (fun i => Nb X (comp p i))
      (fun i => rho (comp p i)) (repeat 0.2 (2 * p_nassoc p)).
Proof.
  assert (Hv : 1000 <= 10 ^ 6 <= 10 ^ 6) by lra.
  exists ww, 350, (10 ^ 6), [1; 1]. eexists. split; [exact ww_phys | ]. split; [exact ww_assoc | ].
  split; [apply ww_state; lra | ]. split; [eexists; eexists; exact ww_ok | ].
  split; [ | split].
  - unfold a_cross_assoc. rewrite C13_zero_iterations; [reflexivity | | reflexivity].
    apply Rltb_false. rewrite f_eps_R.
    replace 4503599627370496 with (2 ^ 52) by ring. rewrite nsum_R. exact (ww_rsum _ Hv).
  - assert (Ee : forall u w : R, u = w -> @nmul RNum u (10 ^ 6) = 10 ^ 6 * w) by (intros u w ->; rn; ring).
    apply Ee. eapply eq_trans; [apply energy_eq | ].
    change (@nlit RNum 0.2%Q) with 0.2.
    unfold site_energy. rewrite ww_nassoc. apply Sum_ext. intros i Hi.
    rewrite (ww_den _ Hv) by auto. unfold sa, sb. rewrite ww_cmp by auto. cbn [mix_of Na Nb].
    f_equal. destruct i as [ | [ | i]]; try lia; reflexivity.
  - cbv zeta. unfold residual_norm. rewrite ww_nassoc.
    set (D := fun i j => _). set (nbf := fun i => Nb _ _). set (naf := fun i => Na _ _). set (rh := fun i => nth _ _ 0 / _).
    assert (HB : forall i, (i < 2)%nat -> 1 < 1 / fa (repeat 0.2 (2 * 2)) i - 1 - bonds_a 2 D nbf rh (repeat 0.2 (2 * 2)) i).
    { intros i Hi. unfold bonds_a. cbn [rsum seq map fold_right].
      assert (Di : forall j, (j < 2)%nat -> 1 < D i j < 10 ^ 4).
      { intros j Hj. unfold D. rewrite !ww_cmp by auto. rewrite ww_Delta by auto. apply (ww_Delta_bounds _ Hv). }
      assert (Rh : forall j, (j < 2)%nat -> rh j = / 10 ^ 6).
      { intros j Hj. unfold rh. rewrite ww_cmp by auto. destruct j as [ | [ | j]]; try lia; cbn; lra. }
      assert (Nf : forall j, (j < 2)%nat -> nbf j = 1).
      { intros j Hj. unfold nbf. rewrite ww_cmp by auto. destruct j as [ | [ | j]]; try lia; reflexivity. }
      rewrite !Rh, !Nf by lia. pose proof (Di 0%nat ltac:(lia)). pose proof (Di 1%nat ltac:(lia)).
      replace (fa (repeat 0.2 (2 * 2)) i) with 0.2 by (destruct i as [ | [ | i]]; try lia; reflexivity).
      change (fb 2 (repeat 0.2 (2 * 2)) 0) with 0.2. change (fb 2 (repeat 0.2 (2 * 2)) 1) with 0.2.
      unfold rsum in *. cbn [map fold_right] in *. lra. }
    rewrite <- sqrt_1 at 1. apply sqrt_lt_1_alt. split; [lra | ].
    set (f := fun i => (1 / fa _ _ - 1 - _) ^ 2). set (g := fun i => (1 / fb _ _ _ - 1 - _) ^ 2).
    assert (G : 0 <= rsum (seq 0 2) g) by (apply rsum_nonneg; intros; apply pow2_ge_0).
    assert (F : 1 < rsum (seq 0 2) f); [ | lra].
    cbn [rsum seq map fold_right].
    pose proof (HB 0%nat ltac:(lia)). pose proof (HB 1%nat ltac:(lia)). unfold f. nra.
Qed.

(** With at least one iteration none of this happens on the way from a positive start vector as
    long as the iterates stay positive ([C13_outcome], [C13_accuracy]). *)

(* --------------------------------------------------------------------------- C14 *)

Section Law.
  Variables (n : nat) (delta : nat -> nat -> R) (na nb rho : nat -> R).
  Notation dl := (@mk2 (car RNum) n n delta).
  Notation l f := (@mk1 (car RNum) n f).

  Lemma list_law x : site_law n (fun i j => @ix2 RNum dl i j) (fun i => @ix RNum (l na) i) (fun i => @ix RNum (l nb) i)
     (fun i => @ix RNum (l rho) i) x <-> site_law n delta na nb rho x.
  Proof.
    assert (A : forall i, (i < n)%nat -> bonds_a n (fun i j => @ix2 RNum dl i j) (fun i => @ix RNum (l nb) i) (fun i => @ix RNum (l rho) i) x i
      = bonds_a n delta nb rho x i).
    { intros i Hi. apply Sum_ext. intros j Hj. rewrite ix2_mk2, !ix_mk1 by auto. auto. }
    assert (B : forall i, (i < n)%nat -> bonds_b n (fun i j => @ix2 RNum dl i j) (fun i => @ix RNum (l na) i) (fun i => @ix RNum (l rho) i) x i
      = bonds_b n delta na rho x i).
    { intros i Hi. apply Sum_ext. intros j Hj. rewrite ix2_mk2, !ix_mk1 by auto. auto. }
    unfold site_law. split; intros (L & P & H); (split; [auto | ]); (split; [auto | ]); intros i Hi; specialize (H i Hi).
    - rewrite A, B in H by auto. auto.
    - rewrite A, B by auto. auto.
  Qed.
  Hypothesis Hd : forall i j, (i < n)%nat -> (j < n)%nat -> 0 <= delta i j.
  Hypothesis Hs : forall i, (i < n)%nat -> 0 <= na i /\ 0 <= nb i /\ 0 <= rho i.
  Lemma list_coef k m : (k < n + n)%nat -> (m < n + n)%nat -> 0 <= Dm n dl (l na) (l nb) (l rho) k m.
  Proof.
    apply Dm_nonneg.
    - intros i j Hi Hj. change (0 <= @ix2 RNum dl i j). rewrite ix2_mk2 by auto. auto.
    - intros j Hj. change (0 <= @ix RNum (l na) j /\ 0 <= @ix RNum (l nb) j /\ 0 <= @ix RNum (l rho) j).
      rewrite !ix_mk1 by auto. auto.
  Qed.
End Law.

(** every set of non-negative association strengths, site numbers and densities has exactly one
    vector of positive fractions satisfying the law of mass action; they are at most one *)
Theorem C14_exists_unique (n : nat) (delta : nat -> nat -> R) (na nb rho : nat -> R) :
  (forall i j, (i < n)%nat -> (j < n)%nat -> 0 <= delta i j) ->
  (forall i, (i < n)%nat -> 0 <= na i /\ 0 <= nb i /\ 0 <= rho i) ->
  exists x, site_law n delta na nb rho x /\
    (forall i, (i < n)%nat -> 0 < fa x i <= 1 /\ 0 < fb n x i <= 1) /\
    forall y, site_law n delta na nb rho y -> y = x.
Proof.
  intros Hd Hs. pose proof (list_coef n delta na nb rho Hd Hs) as C.
  destruct (solves_exists _ _ C) as [z Hz].
  set (x := map z (seq 0 (n + n)) : list R).
  assert (Nx : forall k, (k < n + n)%nat -> nth k x 0 = z k).
  { intros k Hk. unfold x. rewrite (nth_indep _ 0 (z 0%nat)) by (rewrite map_length, seq_length; auto).
    rewrite map_nth, seq_nth by auto. auto. }
  assert (Ex : exact n (@mk2 (car RNum) n n delta) (@mk1 (car RNum) n na) (@mk1 (car RNum) n nb) (@mk1 (car RNum) n rho) x).
  { split; [unfold x; rewrite map_length, seq_length; auto | ]. intros k Hk. destruct (Hz k Hk) as [P E].
    rewrite Nx by auto. split; auto. eapply eq_trans; [ | exact E]. do 2 f_equal. apply Sum_ext. intros m Hm. rewrite Nx by auto. auto. }
  exists x. split; [apply list_law, exact_law; exact Ex | ]. split.
  - intros i Hi. pose proof (solves_le1 _ _ C _ Hz) as L1. unfold fa, fb. rewrite !Nx by lia.
    destruct (Hz i ltac:(lia)) as [P1 _]. destruct (Hz (n + i)%nat ltac:(lia)) as [P2 _].
    pose proof (L1 i ltac:(lia)). pose proof (L1 (n + i)%nat ltac:(lia)). lra.
  - intros y Hy. apply list_law, exact_law in Hy. destruct Hy as [Ly Hy]. destruct Ex as [Lx Ex].
    apply (nth_ext _ _ 0 0); [rewrite Ly; symmetry; exact Lx | ]. intros k Hk.
    apply (solves_unique _ _ C (fun k => nth k y 0) (fun k => nth k x 0) Hy Ex). rewrite <- Ly. exact Hk.
Qed.

(** the same for the published law of a whole mixture *)
Theorem C14_published_law prs bin p t v moles :
  from_records prs bin = Some p -> phys p -> assoc_phys p -> phys_state p t v moles ->
  let rho i := nth i moles 0 / v in
  exists xa xb, mass_action (mix_of p) t rho xa xb /\
    (forall i, (i < N (mix_of p))%nat -> 0 < xa i <= 1 /\ 0 < xb i <= 1) /\
    forall ya yb, mass_action (mix_of p) t rho ya yb -> (forall i, (i < N (mix_of p))%nat -> 0 < ya i /\ 0 < yb i) ->
      forall i, (i < N (mix_of p))%nat -> ya i = xa i /\ yb i = xb i.
Proof.
  intros Hp Hph Hap PS rho. pose proof (wfp_from_records _ _ _ Hp) as W.
  destruct (law_exists p Hph Hap t v moles PS) as (xa & xb & M & B).
  exists xa, xb. split; [exact M | ]. split; [exact B | ]. intros ya yb My Py.
  apply (spec_law_unique (mix_of p) t rho); auto.
  - intros i j Hi Hj. apply (Delta_nonneg p Hph Hap t v moles PS); auto.
  - intros i Hi. unfold rho. apply Rmult_le_pos; [apply (ps_nonneg _ _ _ _ PS); auto | ].
    left. apply Rinv_0_lt_compat, (ps_v _ _ _ _ PS).
  - intros i Hi. apply (Hap i Hi).
  - intros i Hi. destruct (B i Hi). lra.
Qed.

(** a vector of positive fractions is left unchanged by an iteration exactly if it satisfies the law *)
Theorem C14_fixed_points (lu : lu_solver RNum) (n : nat) (delta : list (list R)) (na nb rho : list R) tol (x : list R) : lu_exact lu ->
  (forall i j, (i < n)%nat -> (j < n)%nat -> 0 <= @ix2 RNum delta i j) ->
  (forall i, (i < n)%nat -> 0 <= @ix RNum na i /\ 0 <= @ix RNum nb i /\ 0 <= @ix RNum rho i) ->
  length x = (2 * n)%nat -> all_positive n x ->
  (exists b, @newton_step RNum lu n delta na nb rho tol x = Ok (x, b)) <->
  site_law n (@ix2 RNum delta) (@ix RNum na) (@ix RNum nb) (@ix RNum rho) x.
Proof.
  intros Hlu Hd Hs Lx Px.
  assert (C : forall k l, (k < n + n)%nat -> (l < n + n)%nat -> 0 <= Dm n delta na nb rho k l) by (apply Dm_nonneg; auto).
  assert (Px' : forall k, (k < n + n)%nat -> 0 < nth k x 0) by (apply (from_halves n (fun k => 0 < nth k x 0)); exact Px).
  split.
  - intros [b E]. apply exact_law. apply (fixed_point_exact lu n delta na nb rho tol Hlu x b); auto. lia.
  - intros L. apply (exact_fixed_point lu n delta na nb rho tol Hlu C). apply exact_law. exact L.
Qed.

(** one associating component: the law is solved by the closed form of the one-component routine *)
Theorem C14_one_component (d na nb rho : R) : / 2 ^ 26 < rho * d -> 0 < na -> 0 < nb ->
  let xa := @assoc_site_frac_ab RNum (rho * d) na nb in
  let xb := (xa - 1) * (na / nb) + 1 in
  forall x, site_law 1 (fun _ _ => d) (fun _ => na) (fun _ => nb) (fun _ => rho) x <-> x = [xa; xb].
Proof.
  intros Hd Ha Hb xa xb x.
  destruct (C11_solves_mass_action (rho * d) na nb Hd Ha Hb) as (A & B & E1 & E2 & U). fold xa xb in A, B, E1, E2, U.
  split.
  - intros (L & P & H). destruct x as [ | ya [ | yb [ | ]]]; try discriminate L.
    destruct (P 0%nat ltac:(lia)) as [Pa Pb]. destruct (H 0%nat ltac:(lia)) as [Ha0 Hb0].
    unfold bonds_a, bonds_b in Ha0, Hb0. cbn in Pa, Pb, Ha0, Hb0.
    destruct (U ya yb Pa Pb) as [-> ->]; [ | | reflexivity].
    + eapply eq_trans; [ | exact Ha0]. ring.
    + eapply eq_trans; [ | exact Hb0]. ring.
  - intros ->. split; [reflexivity | ]. split.
    + intros i Hi. destruct i; [ | lia]. cbn. split; [apply A | apply B].
    + intros i Hi. destruct i; [ | lia]. unfold bonds_a, bonds_b. cbn. split; [eapply eq_trans; [ | exact E1] | eapply eq_trans; [ | exact E2]]; ring.
Qed.

(** water at 350 K: the hypotheses of the C14 theorems hold *)
Example C14_case : (forall i j, (i < 2)%nat -> (j < 2)%nat -> 0 <= Delta (mix_of ww) 350 (fun i => nth i [1; 1] 0 / 1000) i j) /\
  (exists xa xb, mass_action (mix_of ww) 350 (fun i => nth i [1; 1] 0 / 1000) xa xb /\ xa 0%nat < 1).
Proof.
  assert (PS : phys_state ww 350 1000 [1; 1]) by (apply ww_state; lra).
  assert (Dn : forall i j, (i < 2)%nat -> (j < 2)%nat -> 0 <= Delta (mix_of ww) 350 (fun i => nth i [1; 1] 0 / 1000) i j).
  { intros i j Hi Hj. apply (Delta_nonneg ww ww_phys ww_assoc 350 1000 [1; 1] PS); auto. }
  split; auto.
  destruct (C14_published_law _ _ ww 350 1000 [1; 1] ww_ok ww_phys ww_assoc PS) as (xa & xb & M & B & _).
  exists xa, xb. split; auto. destruct (M 0%nat) as [E _]; [cbn; lia | ].
  destruct (B 0%nat) as [Ba Bb]; [cbn; lia | ]. destruct (B 1%nat) as [Bc Bd]; [cbn; lia | ].
  pose proof (ww_Delta 1000 0 1 ltac:(lia) ltac:(lia)) as D1.
  destruct (ww_Delta_bounds 1000 ltac:(lra)) as [D0 _].
  change (N (mix_of ww)) with 2%nat in E. unfold rsum in E. cbn [seq map fold_right] in E.
  change (nth 0 [1; 1] 0) with 1 in E. change (nth 1 [1; 1] 0) with 1 in E.
  change (Nb (mix_of ww) 0) with 1 in E. change (Nb (mix_of ww) 1) with 1 in E.
  rewrite D1 in E. set (D := Delta _ _ _ _ _) in *.
  assert (0 < D / 1000 * xb 0%nat) by (apply Rmult_lt_0_compat; lra).
  assert (0 < D / 1000 * xb 1%nat) by (apply Rmult_lt_0_compat; lra).
  nra.
Qed.

(* --------------------------------------------------------------------------- C38 *)

Section C38Any.
  Context {K : Num}.
  Variables (lu : lu_solver K) (p : params K) (t : car K) (max_iter : nat) (tol : car K).
  (** the solve at one grid point with weighted densities [wd] from the start vector [x] *)
  Notation solve wd x := (cross_association lu p t (da_rho0 p t wd) (seg_radius p t)
    (da_n2 p t wd) (da_n3i p wd) (da_xi p t wd) max_iter tol (Some x)).

  (** success on a profile of any length: every grid point's solve succeeded, each from the
      fractions left behind by the previous one *)
  Theorem C38_success profile x l :
    phi_assoc_cross lu p t max_iter tol x profile = Ok l <->
    length l = length profile /\
    exists xs : nat -> list (car K), xs O = x /\
      forall i, (i < length profile)%nat -> solve (nth i profile []) (xs i) = (Ok (nth i l n0), Some (xs (S i))).
  Proof.
    revert x l. induction profile as [ | wd profile IH]; intros x l; cbn [phi_assoc_cross length].
    - split.
      + intros H. injection H as <-. split; auto. exists (fun _ => x). split; auto. intros; lia.
      + intros [L _]. destruct l; [auto | discriminate].
    - split.
      + destruct (solve wd x) as [[a | e] x'] eqn:E; [ | discriminate].
        destruct (phi_assoc_cross lu p t max_iter tol (unwrap_or x' x) profile) as [l' | e] eqn:E2; [ | discriminate].
        intros H. injection H as <-. apply IH in E2. destruct E2 as (L & xs & X0 & Xi).
        split; [cbn; lia | ]. exists (shift x xs). split; [reflexivity | ].
        intros [ | i] Hi; cbn [nth shift].
        * rewrite X0. rewrite E. f_equal.
          assert (Q : forall a x0', solve wd x = (Ok a, x0') -> exists z, x0' = Some z).
          { intros b x0' Hs. unfold cross_association in Hs. destruct (nltb _ _); [injection Hs as _ <-; eauto | ].
            destruct (newton_loop _ _ _); [ | discriminate]. destruct (newton_deriv _ _ _); [ | discriminate].
            injection Hs as _ <-. eauto. }
          destruct (Q _ _ E) as [z ->]. reflexivity.
        * apply Xi. lia.
      + intros (L & xs & X0 & Xi). destruct l as [ | a l]; [discriminate | ].
        pose proof (Xi 0%nat ltac:(lia)) as H0. cbn [nth] in H0. rewrite X0 in H0. rewrite H0.
        cbn [unwrap_or]. rewrite (proj2 (IH (xs 1%nat) l)); [reflexivity | ].
        split; [cbn in L; lia | ]. exists (fun i => xs (S i)). split; auto.
        intros i Hi. apply (Xi (S i)). lia.
  Qed.

  (** an error is the error of the first grid point whose solve failed *)
  Theorem C38_failure profile x e :
    phi_assoc_cross lu p t max_iter tol x profile = Err e <->
    exists k (xs : nat -> list (car K)), (k < length profile)%nat /\ xs O = x /\
      (forall i, (i < k)%nat -> exists a, solve (nth i profile []) (xs i) = (Ok a, Some (xs (S i)))) /\
      fst (solve (nth k profile []) (xs k)) = Err e.
  Proof.
    revert x. induction profile as [ | wd profile IH]; intros x; cbn [phi_assoc_cross length].
    - split; [discriminate | ]. intros (k & _ & Hk & _). lia.
    - assert (Q : forall a x0', solve wd x = (Ok a, x0') -> exists z, x0' = Some z).
      { intros b x0' Hs. unfold cross_association in Hs. destruct (nltb _ _); [injection Hs as _ <-; eauto | ].
        destruct (newton_loop _ _ _); [ | discriminate]. destruct (newton_deriv _ _ _); [ | discriminate].
        injection Hs as _ <-. eauto. }
      destruct (solve wd x) as [[a | e'] x'] eqn:E.
      + destruct (Q _ _ eq_refl) as [z ->]. cbn [unwrap_or].
        specialize (IH z). destruct (phi_assoc_cross lu p t max_iter tol z profile) as [l' | e''].
        * split; [discriminate | ]. intros (k & xs & Hk & X0 & Xi & Xe).
          destruct k as [ | k]; [cbn [nth] in Xe; rewrite X0, E in Xe; discriminate | ].
          destruct (Xi 0%nat ltac:(lia)) as [b Hb]. cbn [nth] in Hb. rewrite X0, E in Hb. injection Hb as _ Hz.
          assert (C : @Ok (list (car K)) l' = Err e); [ | discriminate].
          apply IH. exists k, (fun i => xs (S i)). split; [lia | ]. split; auto. split; [ | exact Xe].
          intros i Hi. apply (Xi (S i)). lia.
        * assert (Ee : Err e'' = @Err (list (car K)) e <-> @Err (list (car K)) e'' = Err e) by tauto.
          split.
          -- intros H. apply IH in H. destruct H as (k & xs & Hk & X0 & Xi & Xe).
             exists (S k), (shift x xs). split; [lia | ]. split; [reflexivity | ]. split; [ | exact Xe].
             intros [ | i] Hi; cbn [nth shift]; [exists a; rewrite X0; exact E | apply Xi; lia].
          -- intros (k & xs & Hk & X0 & Xi & Xe). apply IH.
             destruct k as [ | k]; [cbn [nth] in Xe; rewrite X0, E in Xe; discriminate | ].
             destruct (Xi 0%nat ltac:(lia)) as [b Hb]. cbn [nth] in Hb. rewrite X0, E in Hb. injection Hb as _ Hz.
             exists k, (fun i => xs (S i)). split; [lia | ]. split; auto. split; [ | exact Xe].
             intros i Hi. apply (Xi (S i)). lia.
      + split.
        * intros H. exists 0%nat, (fun _ => x). split; [lia | ]. split; auto. split; [intros; lia | ]. cbn [nth]. rewrite E. injection H as ->. reflexivity.
        * intros (k & xs & Hk & X0 & Xi & Xe). destruct k as [ | k].
          -- cbn [nth] in Xe. rewrite X0, E in Xe. cbn [fst] in Xe. injection Xe as ->. reflexivity.
          -- destruct (Xi 0%nat ltac:(lia)) as [b Hb]. cbn [nth] in Hb. rewrite X0, E in Hb. discriminate.
  Qed.

  (** after an empty grid point every start fraction of the next one is one *)
  Theorem C38_empty_point profile x l i :
    phi_assoc_cross lu p t max_iter tol x profile = Ok l -> (i < length profile)%nat ->
    nltb (nsum (da_rho0 p t (nth i profile []))) f_eps = true ->
    nth i l n0 = n0 /\
    ((S i < length profile)%nat -> exists m, fst (solve (nth (S i) profile []) (repeat n1 m)) = Ok (nth (S i) l n0)).
  Proof.
    intros H Hi He. apply C38_success in H. destruct H as (L & xs & X0 & Xi).
    pose proof (Xi i Hi) as Hs. rewrite C13_vanishing_density in Hs by auto.
    injection Hs as <- E. split; auto. intros Hi'. exists (length (xs i)).
    pose proof (Xi (S i) Hi') as H2. rewrite <- E in H2.
    replace (map (fun _ => n1) (xs i)) with (repeat (@n1 K) (length (xs i))) in H2.
    2:{ clear. induction (xs i); cbn; congruence. }
    rewrite H2. reflexivity.
  Qed.
End C38Any.

(** weighted densities a profile can have: non-negative scalar densities, vector densities that do
    not exceed the scalar ones, packing fraction below one *)
Record phys_point (p : params RNum) (t : R) (wd : list R) : Prop := {
  pp_n0 : forall i, (i < length (p_m p))%nat -> 0 <= @da_n0i RNum p wd i;
  pp_n2v : forall i, (i < length (p_m p))%nat ->
    (Sum k < da_dim p wd, @da_n2vi RNum p wd k i * @da_n2vi RNum p wd k i) <= @da_n2i RNum p t wd i * @da_n2i RNum p t wd i;
  pp_xi : (Sum k < da_dim p wd, (Sum i < length (p_m p), @da_n2vi RNum p wd k i) * (Sum i < length (p_m p), @da_n2vi RNum p wd k i))
    <= @da_n2 RNum p t wd * @da_n2 RNum p t wd;
  pp_n3 : @da_n3 RNum p wd < 1 }.

Section C38Real.
  Variables (p : params RNum) (t : R) (wd : list R).
  Hypothesis W : wfp p.
  Hypothesis Hph : phys p.
  Hypothesis Hap : assoc_phys p.
  Hypothesis Ht : 0 < t.
  Hypothesis PP : phys_point p t wd.
  Notation n := (length (p_m p)).
  Notation NA := (p_nassoc p).

  Lemma one_minus_ratio (u w : R) : 0 <= u <= w * w -> 0 <= u / - (w * w) + 1.
  Proof.
    intros H. destruct (Req_dec (w * w) 0) as [E | E].
    - rewrite E. replace u with 0 by lra. unfold Rdiv. rewrite Rmult_0_l. lra.
    - assert (0 < w * w) by nra. unfold Rdiv. rewrite Rinv_opp.
      assert (u * / (w * w) <= 1); [ | lra].
      apply Rmult_le_reg_r with (w * w); auto. rewrite Rmult_assoc, Rinv_l by auto. lra.
  Qed.
  Lemma sq_sum_nonneg (f : nat -> R) m : 0 <= Sum k < m, f k * f k.
  Proof. apply rsum_nonneg. intros k _. nra. Qed.
  Lemma rho0_nonneg i : (i < n)%nat -> 0 <= @ix RNum (da_rho0 p t wd) i.
  Proof.
    intros Hi. unfold da_rho0. rewrite ix_mk1 by auto. destruct (nltb _ _); [apply (pp_n0 _ _ _ PP); auto | ].
    rewrite nsumi_R. rn. apply Rmult_le_pos; [ | apply (pp_n0 _ _ _ PP); auto].
    apply one_minus_ratio. split; [apply (sq_sum_nonneg (fun k => @da_n2vi RNum p wd k i)) | exact (pp_n2v _ _ _ PP i Hi)].
  Qed.
  Lemma xi_nonneg : 0 <= @da_xi RNum p t wd.
  Proof.
    unfold da_xi. destruct (nltb _ _); [unfold n1; rn; lra | ]. rewrite nsumi_R. rn.
    apply one_minus_ratio. split.
    - apply (sq_sum_nonneg (fun k => @nsumi RNum n (fun i => @da_n2vi RNum p wd k i))).
    - eapply Rle_trans; [ | exact (pp_xi _ _ _ PP)]. right. apply Sum_ext. intros k Hk. rewrite !nsumi_R. auto.
  Qed.
  Lemma n2_nonneg : 0 <= @da_n2 RNum p t wd.
  Proof.
    unfold da_n2. rewrite nsumi_R. apply rsum_nonneg. intros i Hi. apply in_seq in Hi. assert (Hi' : (i < n)%nat) by lia. clear Hi. rename Hi' into Hi. unfold da_n2i. rn.
    destruct (Hph i Hi) as (M & _ & _). pose proof PI_RGT_0.
    apply Rmult_le_pos; [apply (pp_n0 _ _ _ PP); auto | ]. apply Rmult_le_pos; [apply pow2_ge_0 | ].
    apply Rmult_le_pos; [lra | lra].
  Qed.
  Lemma n3i_pos : 0 < @da_n3i RNum p wd.
  Proof. unfold da_n3i. rn. apply Rinv_0_lt_compat. pose proof (pp_n3 _ _ _ PP). lra. Qed.

  Lemma point_str i j : (i < NA)%nat -> (j < NA)%nat ->
    0 <= str p t (seg_radius p t) (da_n2 p t wd) (da_n3i p wd) (da_xi p t wd) i j.
  Proof.
    intros Hi Hj. pose proof (comp_lt p W i Hi) as Ci. pose proof (comp_lt p W j Hj) as Cj.
    unfold str, association_strength. rn. rewrite !(seg_radius_spec p W) by auto.
    pose proof (Di_pos p Hph t Ht _ Ci) as Pi. pose proof (Di_pos p Hph t Ht _ Cj) as Pj.
    pose proof n3i_pos as P3. pose proof xi_nonneg as Px. pose proof n2_nonneg as P2.
    set (di := Di _ _ (comp p i)) in *. set (dj := Di _ _ (comp p j)) in *.
    set (n2 := da_n2 p t wd) in *. set (n3i := da_n3i p wd) in *. set (xi := da_xi p t wd) in *.
    set (k := di / 2 * (dj / 2) / (di / 2 + dj / 2) * (n2 * n3i * 2)).
    assert (Pk : 0 <= k).
    { apply Rmult_le_pos; [ | apply Rmult_le_pos; [apply Rmult_le_pos | ]; lra].
      left. apply Rdiv_lt_0_compat; [apply Rmult_lt_0_compat; lra | lra]. }
    destruct (Hph _ Ci) as (_ & Si & _). destruct (Hph _ Cj) as (_ & Sj & _).
    destruct (Hap _ Ci) as (Ki & Ei & _). destruct (Hap _ Cj) as (Kj & Ej & _).
    assert (Ks : forall l, (l < NA)%nat -> @ix RNum (p_kappa_ab p) (comp p l) <> 0).
    { intros l Hl. assert (I : In (comp p l) (p_assoc_comp p)) by (apply nth_In; rewrite <- (w_na _ W); auto).
      rewrite (w_ass _ W) in I. apply filter_In in I. apply nonzero_R. apply I. }
    rewrite (w_kap _ W), (w_eab _ W) by auto.
    apply Rmult_le_pos.
    - apply Rmult_le_pos; [apply Rmult_le_pos | ].
      + apply Rmult_le_pos; [lra | ].
        assert (0 <= k * xi * (k / 18 + 1 / 2)) by (apply Rmult_le_pos; [apply Rmult_le_pos; auto | lra]). lra.
      + apply pow_le. lra.
      + apply Rmult_le_pos; [apply sqrt_pos | ]. unfold Rpowf. destruct (Rlt_dec _ _); [ | lra]. left. apply exp_pos.
    - pose proof (exp_ineq1_le (/ t * ((@ix RNum (p_epsilon_k_ab p) (comp p i) + @ix RNum (p_epsilon_k_ab p) (comp p j)) / 2))) as E.
      assert (0 <= / t * ((@ix RNum (p_epsilon_k_ab p) (comp p i) + @ix RNum (p_epsilon_k_ab p) (comp p j)) / 2)).
      { apply Rmult_le_pos; [left; apply Rinv_0_lt_compat; auto | lra]. }
      lra.
  Qed.
  Lemma point_sites i : (i < NA)%nat -> 0 <= sa p i /\ 0 <= sb p i /\ 0 <= den p (da_rho0 p t wd) i.
  Proof.
    intros Hi. pose proof (comp_lt p W i Hi) as Ci. destruct (Hap _ Ci) as (_ & _ & A & B).
    split; [exact A | ]. split; [exact B | ]. apply rho0_nonneg; auto.
  Qed.

  Variables (lu : lu_solver RNum) (max_iter : nat) (tol : R).
  Hypothesis Hlu : lu_exact lu.
  Hypothesis Hm : (0 < max_iter)%nat.
  Notation strp := (str p t (seg_radius p t) (da_n2 p t wd) (da_n3i p wd) (da_xi p t wd)).
  Notation denp := (den p (da_rho0 p t wd)).
  Notation solve x := (@cross_association RNum lu p t (da_rho0 p t wd) (seg_radius p t)
    (da_n2 p t wd) (da_n3i p wd) (da_xi p t wd) max_iter tol (Some x)).

  (** whatever the history, a grid point's energy comes from a converged solve, and its fractions
      from a positive accepted iterate are those of the law of mass action up to the tolerance *)
  Theorem C38_point_converged x a x' : / 2 ^ 52 <= rsum (da_rho0 p t wd) (fun x => x) -> length x = (2 * NA)%nat ->
    solve x = (Ok a, Some x') ->
    length x' = (2 * NA)%nat /\ a = site_energy NA (sa p) (sb p) denp x' /\
    exists y, length y = (2 * NA)%nat /\ residual_norm NA strp (sa p) (sb p) denp y < tol /\
      (no_zero NA y -> newton_update NA strp (sa p) (sb p) denp y x').
  Proof.
    intros Hd Lx E.
    destruct (C13_accepted lu Hlu p t (da_rho0 p t wd) (seg_radius p t) (da_n2 p t wd) (da_n3i p wd) (da_xi p t wd)
      max_iter tol (Some x) a (Some x') Hm Hd Lx E) as (k & y & Hk & Y0 & Yj & Yl & Yk & Ea & Ex).
    cbn [option_map] in Ex. injection Ex as ->.
    destruct (Yj k (le_n k)) as [L U]. split; [exact L | ]. split; [exact Ea | ].
    exists (y k). split; [ | split; auto].
    destruct k as [ | k]; [rewrite Y0; exact Lx | exact (proj1 (Yj k (Nat.le_succ_diag_r k)))].
  Qed.

  (** two histories: the energies agree up to the tolerance as soon as both accepted iterates are
      positive *)
  Theorem C38_history x1 x2 a1 a2 x1' x2' : 0 < tol < 1 -> / 2 ^ 52 <= rsum (da_rho0 p t wd) (fun x => x) ->
    length x1 = (2 * NA)%nat -> length x2 = (2 * NA)%nat ->
    solve x1 = (Ok a1, Some x1') -> solve x2 = (Ok a2, Some x2') ->
    exists y1 y2, residual_norm NA strp (sa p) (sb p) denp y1 < tol /\ residual_norm NA strp (sa p) (sb p) denp y2 < tol /\
      (all_positive NA y1 -> all_positive NA y2 ->
       let q := (1 + tol) / (1 - tol) ^ 2 in
       Rabs (a1 - a2) <= 3 * (q - 1) * Sum i < NA, denp i * (sa p i + sb p i)).
  Proof.
    intros Hq Hd L1 L2 E1 E2.
    destruct (C38_point_converged x1 a1 x1' Hd L1 E1) as (_ & A1 & y1 & Ly1 & R1 & U1).
    destruct (C38_point_converged x2 a2 x2' Hd L2 E2) as (_ & A2 & y2 & Ly2 & R2 & U2).
    exists y1, y2. split; [exact R1 | ]. split; [exact R2 | ]. intros P1 P2 q.
    destruct (C14_exists_unique NA strp (sa p) (sb p) denp point_str point_sites) as (z & Hz & _).
    assert (Z1 : no_zero NA y1) by (intros i Hi; destruct (P1 i Hi); split; lra).
    assert (Z2 : no_zero NA y2) by (intros i Hi; destruct (P2 i Hi); split; lra).
    pose proof (C13_accuracy lu Hlu p t (da_rho0 p t wd) (seg_radius p t) (da_n2 p t wd) (da_n3i p wd) (da_xi p t wd)
      point_str point_sites tol y1 x1' z Hq Ly1 P1 R1 (U1 Z1) Hz) as [_ B1].
    pose proof (C13_accuracy lu Hlu p t (da_rho0 p t wd) (seg_radius p t) (da_n2 p t wd) (da_n3i p wd) (da_xi p t wd)
      point_str point_sites tol y2 x2' z Hq Ly2 P2 R2 (U2 Z2) Hz) as [_ B2].
    fold q in B1, B2. rewrite A1, A2.
    set (e1 := site_energy _ _ _ _ x1') in *. set (e2 := site_energy _ _ _ _ x2') in *. set (e := site_energy _ _ _ _ z) in *.
    set (S := Sum i < NA, _) in *.
    replace (e1 - e2) with ((e1 - e) + (e - e2)) by ring. eapply Rle_trans; [apply Rabs_triang | ].
    rewrite (Rabs_minus_sym e e2). replace (3 * (q - 1) * S) with (3 / 2 * (q - 1) * S + 3 / 2 * (q - 1) * S) by field. lra.
  Qed.
End C38Real.

(** a start vector that satisfies the law of mass action is accepted at once *)
Theorem C13_exact_start (lu : lu_solver RNum) p t rho r n2 n3i xi max_iter tol x : lu_exact lu ->
  (0 < max_iter)%nat -> 0 < tol -> / 2 ^ 52 <= rsum rho (fun x => x) ->
  (forall i j, (i < p_nassoc p)%nat -> (j < p_nassoc p)%nat -> 0 <= str p t r n2 n3i xi i j) ->
  (forall i, (i < p_nassoc p)%nat -> 0 <= sa p i /\ 0 <= sb p i /\ 0 <= den p rho i) ->
  site_law (p_nassoc p) (str p t r n2 n3i xi) (sa p) (sb p) (den p rho) x ->
  @cross_association RNum lu p t rho r n2 n3i xi max_iter tol (Some x)
  = (Ok (site_energy (p_nassoc p) (sa p) (sb p) (den p rho) x), Some x).
Proof.
  intros Hlu Hm Ht Hd Hs Hd2 (Lx & Px & Hx).
  apply C13_any_root_accepted; auto.
  - intros i Hi. destruct (Px i Hi). split; lra.
  - intros x' U. destruct (C13_update_defined p t rho r n2 n3i xi Hs Hd2 x Lx Px) as [z Hz].
    transitivity z; [apply Hz; exact U | symmetry; apply Hz]. split; auto. intros i Hi. destruct (Hx i Hi). split; lra.
Qed.

(** non-trivial case: a mixture of two waters in a homogeneous profile of two grid points *)
Definition ww_point : list R := [/ 1000; / 1000; 0.05].
Lemma ww_phys_point : phys_point ww 350 ww_point.
Proof.
  assert (Pd : forall i, (i < 2)%nat -> 0 < @ix RNum (seg_radius ww 350) i).
  { intros i Hi. rewrite (seg_radius_spec ww (wfp_from_records _ _ _ ww_ok)) by auto.
    pose proof (Di_pos ww ww_phys 350 ltac:(lra) i Hi). lra. }
  split.
  - intros i Hi. change (length (p_m ww)) with 2%nat in Hi. destruct i as [ | [ | i]]; try lia; cbn; lra.
  - intros i Hi. change (da_dim ww ww_point) with 0%nat. cbn [seq rsum].
    apply Rle_0_sqr.
  - change (da_dim ww ww_point) with 0%nat. cbn [seq rsum]. apply Rle_0_sqr.
  - cbn. lra.
Qed.
Lemma ww_rho0 : @da_rho0 RNum ww 350 ww_point = [/ 1000; / 1000].
Proof.
  unfold da_rho0. change (length (p_m ww)) with 2%nat.
  assert (H : forall i, (i < 2)%nat -> @ix RNum (@da_rho0 RNum ww 350 ww_point) i = / 1000).
  { intros i Hi. unfold da_rho0. rewrite ix_mk1 by auto. change (da_dim ww ww_point) with 0%nat.
    assert (E : @da_n0i RNum ww ww_point i = / 1000) by (destruct i as [ | [ | i]]; try lia; reflexivity).
    rewrite E. destruct (nltb _ _); auto. cbn [nsumi seq fold_left map]. rn.
    unfold Rdiv. rewrite Rmult_0_l. lra. }
  unfold da_rho0 in H. change (length (p_m ww)) with 2%nat in H.
  pose proof (H 0%nat ltac:(lia)) as H0. pose proof (H 1%nat ltac:(lia)) as H1. cbn [mk1 seq map ix nth] in H0, H1 |- *.
  f_equal; [exact H0 | f_equal; exact H1].
Qed.
Example C38_case : exists x a,
  @phi_assoc_cross RNum gauss_lu ww 350 50 (/ 10 ^ 10) x [ww_point; ww_point] = Ok [a; a] /\
  length x = (2 * p_nassoc ww)%nat /\ all_positive (p_nassoc ww) x.
Proof.
  pose proof (wfp_from_records _ _ _ ww_ok) as W.
  assert (S := point_str ww 350 ww_point W ww_phys ww_assoc ltac:(lra) ww_phys_point).
  assert (S2 := point_sites ww 350 ww_point W ww_assoc ww_phys_point).
  destruct (C14_exists_unique (p_nassoc ww) _ _ _ _ S S2) as (x & Hx & _).
  exists x. eexists. split; [ | split; [apply Hx | apply Hx]].
  assert (Hd : / 2 ^ 52 <= rsum (@da_rho0 RNum ww 350 ww_point) (fun x => x)) by (rewrite ww_rho0; cbn; lra).
  pose proof (C13_exact_start gauss_lu ww 350 (da_rho0 ww 350 ww_point) (seg_radius ww 350) (da_n2 ww 350 ww_point)
    (da_n3i ww ww_point) (da_xi ww 350 ww_point) 50 (/ 10 ^ 10) x gauss_lu_exact ltac:(lia) ltac:(lra) Hd S S2 Hx) as E.
  apply C38_success. split; [reflexivity | ]. exists (fun _ => x). split; [reflexivity | ].
  intros i Hi. destruct i as [ | [ | i]]; cbn [nth] in *; [exact E | exact E | cbn in Hi; lia].
Qed.

Print Assumptions C13_any_root_accepted.
Print Assumptions C13_negative_fractions_refuted.
Print Assumptions C13_zero_iterations_refuted.
Print Assumptions C13_exact_start.
Print Assumptions C14_exists_unique.
Print Assumptions C14_published_law.
Print Assumptions C14_fixed_points.
Print Assumptions C14_one_component.
Print Assumptions C38_success.
Print Assumptions C38_failure.
Print Assumptions C38_empty_point.
Print Assumptions C38_point_converged.
Print Assumptions C38_history.
