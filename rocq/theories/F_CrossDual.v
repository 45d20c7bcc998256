(** The cross-association routine with dual numbers, for any densities, contact values and start
    vector: the common core of the equation of state and of the functional. *)
From Coq Require Import ZArith QArith Reals Lra Lia String List Bool.
From Coquelicot Require Import Coquelicot.
From Verif Require Import Num RNum RSum Tables M_Params F_Params M_Eos Spec F_Spec F_SpecPolar F_SpecAssoc F_Contrib F_Newton F_Gauss
  F_MassAction F_MassAction2 F_NewtonR F_Cross F_Total Samples F_Transfer XNum F_Transfer2 F_Transfer3 DNum F_Level F_Linear
  F_Implicit P_Assoc P_Assoc2 P_Dual P_Dual2 F_DualNewton F_DualGauss P_Dual3 F_Cont F_Perturb F_DualRun P_Converge.
Import ListNotations.
Local Open Scope R_scope.
Set Bullet Behavior "Strict Subproofs".
Notation length := List.length.

(** multiplication by one and by zero leaves numbers with finite coefficients as expected *)
Lemma fin_mul0 n : forall a : dnum n, (forall s, length s = n -> exists r, coef n s a = Fin r) -> nmul a (@n0 (lK (dual n))) = @n0 (lK (dual n)).
Proof.
  induction n as [ | n IH]; intros a H.
  - destruct (H [] eq_refl) as (r & E). cbn [coef] in E. subst a. cbn. f_equal. unfold Rlit. cbn. lra.
  - destruct a as [a b].
    assert (Ha : forall s, length s = n -> exists r, coef n s a = Fin r) by (intros s Hs; apply (H (false :: s)); cbn [List.length]; lia).
    assert (Hb : forall s, length s = n -> exists r, coef n s b = Fin r) by (intros s Hs; apply (H (true :: s)); cbn [List.length]; lia).
    change ((nmul a (@n0 (lK (dual n))), nadd (nmul a (@n0 (lK (dual n)))) (nmul b (@n0 (lK (dual n))))) = (@n0 (lK (dual n)), @n0 (lK (dual n)))).
    rewrite !IH by auto. f_equal. clear.
    eapply (rel_fun (dual n)); [ | exact (tr_n0 (TRn n))]. eapply (rel_eq (TRn n)); [ | exact (tr_add _ _ (TRn n) _ _ _ _ (tr_n0 (TRn n)) (tr_n0 (TRn n)))].
    intros z. unfold n0. rn. ring.
Qed.
Lemma add0_l n : forall a : dnum n, nadd (@n0 (lK (dual n))) a = a.
Proof.
  induction n as [ | n IH]; intros a.
  - destruct a; cbn; try reflexivity. f_equal. unfold Rlit. cbn. lra.
  - destruct a as [a b]. change ((nadd (@n0 (lK (dual n))) a, nadd (@n0 (lK (dual n))) b) = (a, b)). rewrite !IH. reflexivity.
Qed.
Lemma fin_mul1 n : forall a : dnum n, (forall s, length s = n -> exists r, coef n s (nmul a (@n1 (lK (dual n)))) = Fin r) -> nmul a (@n1 (lK (dual n))) = a.
Proof.
  induction n as [ | n IH]; intros a H.
  - destruct (H [] eq_refl) as (r & E). cbn [coef] in E.
    assert (L : Rlit 1 = 1) by (unfold Rlit; cbn; lra).
    change (xmul a (Fin (Rlit 1)) = Fin r) in E. change (xmul a (Fin (Rlit 1)) = a). rewrite L in *.
    destruct a; cbn in *; try discriminate; [f_equal; ring | | ]; unfold sgn_inf in *; repeat destruct (Rlt_dec _ _); auto; lra.
  - destruct a as [a b].
    assert (Ha : nmul a (@n1 (lK (dual n))) = a) by (apply IH; intros s Hs; apply (H (false :: s)); cbn [List.length]; lia).
    change ((nmul a (@n1 (lK (dual n))), nadd (nmul a (@n0 (lK (dual n)))) (nmul b (@n1 (lK (dual n))))) = (a, b)).
    assert (Z : nmul a (@n0 (lK (dual n))) = @n0 (lK (dual n))).
    { apply fin_mul0. intros s Hs. rewrite <- Ha. apply (H (false :: s)). cbn [List.length]. lia. }
    rewrite Z, Ha, add0_l. f_equal. apply IH. intros s Hs. destruct (H (true :: s)) as (r & E); [cbn [List.length]; lia | ].
    change (coef n s (nadd (nmul a (@n0 (lK (dual n)))) (nmul b (@n1 (lK (dual n))))) = Fin r) in E. rewrite Z, add0_l in E. eauto.
Qed.

Section Core.
  Variable p : params RNum.
  Variable n : nat.
  Notation z0 := (lz (dual n)). Notation m := (p_nassoc p). Notation E := (emb (TRn n)).
  Notation q := (plift (emb (TRn n)) p).
  Variables (rho0 : pt n -> list R) (rho0d : list (dnum n)) (td n2d n3d xid : dnum n) (Dl : pt n -> list (list R)).
  Notation D2 := (ca_delta q td (seg_radius q td) n2d n3d xid).
  Notation r2 := (ca_sel q rho0d).
  Notation rz z := (@ca_sel RNum p (rho0 z)).
  Hypothesis Trho : lrel (TRn n) rho0 rho0d.
  Hypothesis Tdl : forall i j, (i < m)%nat -> (j < m)%nat -> rel (TRn n) (fun z => @ix2 RNum (Dl z) i j) (ix2 D2 i j).
  Hypothesis Pd : forall i j, (i < m)%nat -> (j < m)%nat -> 0 <= @ix2 RNum (Dl z0) i j.
  Hypothesis Pn : forall i, (i < m)%nat -> 0 <= @ix RNum (na_ p) i /\ 0 <= @ix RNum (nb_ p) i /\ 0 <= @ix RNum (rz z0) i.
  Notation str z := (fun i j => @ix2 RNum (Dl z) i j).
  Notation den z := (fun i => @ix RNum (rz z) i).
  Notation na := (fun i => @ix RNum (na_ p) i). Notation nb := (fun i => @ix RNum (nb_ p) i).
  Notation law z x := (site_law m (str z) na nb (den z) x).

  Lemma core_sel : forall l, ca_sel q (map E l) = map E (@ca_sel RNum p l).
  Proof.
    intros l. unfold ca_sel. change (p_nassoc q) with m. unfold mk1. rewrite map_map. apply map_ext. intros i.
    eapply (rel_fun (dual n)); [exact (tr_ix1 (TRn n) l _) | exact (tr_emb _ _ (TRn n) _)].
  Qed.
  Lemma core_eps : nltb (nsum rho0d) f_eps = Rltb (@nsum RNum (rho0 z0)) (/ 2 ^ 52).
  Proof.
    pose proof (tr_ltb _ _ (TRn n) _ _ _ _ (tr_nsum (TRn n) _ _ Trho) (tr_lit _ _ (TRn n) (1 # 4503599627370496))) as Tb.
    unfold f_eps. etransitivity; [exact Tb | ]. change (@nltb RNum) with Rltb. f_equal. cbn. unfold Rlit. cbn. lra.
  Qed.
  (** below the smallest density the routine returns zero and resets the start vector *)
  Lemma core_dilute lu max_iter tol x : @nsum RNum (rho0 z0) < / 2 ^ 52 ->
    cross_association lu q td rho0d (seg_radius q td) n2d n3d xid max_iter tol (Some (map E x)) = (Ok n0, Some (map E (map (fun _ => 1) x))).
  Proof.
    intros H. unfold cross_association. rewrite core_eps, (proj2 (Rltb_true _ _) H). f_equal. f_equal. rewrite !map_map. apply map_ext. intros _.
    eapply (rel_fun (dual n)); [exact (tr_n1 (TRn n)) | ]. eapply (rel_eq (TRn n)); [ | exact (tr_emb _ _ (TRn n) 1)]. intros z. cbn. unfold Rlit. cbn. lra.
  Qed.

  Theorem core (lu : lu_solver (lK (dual n))) : lu_dual n lu -> / 2 ^ 52 <= @nsum RNum (rho0 z0) ->
    exists F : pt n -> list R, near (dual n) (fun z => law z (F z)) /\
      forall eps, 0 < eps -> exists tol0, 0 < tol0 < 1 /\
      forall tol max_iter k y, 0 < tol <= tol0 -> (k < max_iter)%nat -> newton_run m (str z0) na nb (den z0) tol k y ->
        (forall j, (j <= k)%nat -> all_positive m (y j)) ->
        exists a, cross_association lu q td rho0d (seg_radius q td) n2d n3d xid max_iter (E tol) (Some (map E (y O))) = (Ok a, Some (map E (y (S k)))) /\
          forall s, length s = n -> exists r d, coef n s a = Fin r /\ partial n s (fun z => site_energy m na nb (den z) (F z)) d /\ Rabs (r - d) < eps.
  Proof.
    intros Hlu Hrho.
    assert (Hdl : forall i j, (i < m)%nat -> (j < m)%nat -> represents n (fun z => @ix2 RNum (Dl z) i j) (ix2 D2 i j)) by (intros; apply rel_represents; auto).
    assert (Hr : forall i, (i < m)%nat -> represents n (fun z => @ix RNum (rz z) i) (ix r2 i)).
    { intros i Hi. apply rel_represents. unfold ca_sel. change (p_nassoc q) with m. rewrite ix_mk1 by auto.
      eapply (rel_eq (TRn n)); [ | exact (tr_ix (TRn n) _ _ (comp p i) Trho)]. intros z. rewrite (ix_mk1 (K := RNum)) by auto. reflexivity. }
    assert (Lr : (forall z, length (rz z) = m) /\ length r2 = m).
    { split; [intros z | ]; unfold ca_sel; apply mk1_length. }
    assert (Sq : square m D2).
    { unfold ca_delta. change (p_nassoc q) with m. split; [apply mk1_length | ]. intros r Hr'. unfold mk2, mk1 in Hr'. apply in_map_iff in Hr'.
      destruct Hr' as (i & <- & _). rewrite map_length, seq_length. reflexivity. }
    destruct (C14_exists_unique m (str z0) na nb (den z0) Pd Pn) as (x & Hx & _ & _).
    destruct (C15_all_orders n m Dl (na_ p) (nb_ p) (fun z => rz z) D2 r2 Hdl Lr Hr Pd Pn lu (E 0) Hlu x Hx) as (F & F0 & LF & xn & Exn & Lxn & _ & Rxn).
    exists F. split; [exact LF | ]. intros eps He.
    pose proof (proj2 (exact_law m (Dl z0) (na_ p) (nb_ p) (rz z0) x) Hx) as [Lx Sx].
    assert (HDm : forall k l, (k < m + m)%nat -> (l < m + m)%nat -> 0 <= Dm m (Dl z0) (na_ p) (nb_ p) (rz z0) k l).
    { exact (c15_HD n m Dl (na_ p) (nb_ p) (fun z => rz z) Pd Pn). }
    pose proof (c15_Tr n m (fun z => rz z) r2 Lr Hr) as Tr.
    destruct (cont_energy n m Dl D2 (fun _ => na_ p) (fun _ => nb_ p) (fun z => rz z) (map E (na_ p)) (map E (nb_ p)) r2 Tdl
      (c15_Tc n (na_ p)) (c15_Tc n (nb_ p)) Tr lu (E 0) Hlu HDm (fun k => nth k x 0)) with (vol := fun _ : pt n => @n1 RNum) (vol2 := @n1 (lK (dual n))) (c := n) (eps := eps)
      as (d & Pos & Cl).
    { intros k Hk. exact (proj2 (Sx k Hk)). }
    { intros k Hk. exact (proj1 (Sx k Hk)). }
    { exact (tr_n1 (TRn n)). }
    { exact He. }
    destruct (tol_small d Pos) as (tol0 & Ht0 & Hsm). exists tol0. split; auto.
    intros tol max_iter k y Ht Hk Run Py.
    assert (Td0 : forall i j, (i < m)%nat -> (j < m)%nat -> rel (TRn n) (fun _ => @ix2 RNum (Dl z0) i j) (ix2 (map (map nre) D2) i j)).
    { intros i j Hi Hj. destruct Sq as [S1 S2].
      assert (Ei : ix2 (map (map nre) D2) i j = nre (ix2 D2 i j)).
      { unfold ix2.
        assert (E1 : nth i (map (map nre) D2) [] = map nre (nth i D2 [])).
        { etransitivity; [apply (nth_indep _ [] (map nre [])); rewrite map_length, S1; exact Hi | apply (map_nth (map nre))]. }
        rewrite E1. unfold ix.
        etransitivity; [apply (nth_indep _ _ (nre n0)); rewrite map_length, (S2 (nth i D2 [])); [exact Hj | apply nth_In; rewrite S1; exact Hi] | ].
        apply (map_nth nre). }
      rewrite Ei. exact (rel_nre n _ _ (Tdl i j Hi Hj)). }
    pose proof (lrel_nre n _ _ Tr) as Tr0.
    pose proof (run_loop n m (Dl z0) (na_ p) (nb_ p) (rz z0) (map (map nre) D2) (map nre r2) Td0 Tr0 HDm lu tol Hlu k max_iter y Hk Run Py) as Lp.
    destruct (Cl (y (S k))) as (xw & x0 & Ew & E0 & Co).
    { destruct Run as (U1 & _ & _). destruct (U1 k ltac:(lia)) as [_ Uk]. destruct Uk as [L1 _].
      - intros i Hi. destruct (Py k ltac:(lia) i Hi). split; lra.
      - lia. }
    { intros l Hl. eapply Rle_lt_trans; [ | apply (Hsm tol Ht)]. destruct Run as (U1 & _ & U3). destruct (U1 k ltac:(lia)) as [Lk Uk].
      apply (update_close m (Dl z0) (na_ p) (nb_ p) (rz z0) HDm tol (y k)); auto.
      - lra.
      - apply Uk. intros i Hi. destruct (Py k ltac:(lia) i Hi). split; lra. }
    assert (Ex0 : mk1 (m + m) (fun k => nth k x 0) = x).
    { apply (nth_ext _ _ 0 0); [rewrite mk1_length; auto | ]. intros i Hi. rewrite mk1_length in Hi. exact (nth_mk1 (m + m) (fun k => nth k x 0) i 0 Hi). }
    rewrite Ex0 in E0.
    assert (x0 = xn) by congruence. subst x0.
    assert (Tolf : forall c x2, newton_deriv (newton_step lu m D2 (map E (na_ p)) (map E (nb_ p)) r2 (E tol)) c x2
      = newton_deriv (newton_step lu m D2 (map E (na_ p)) (map E (nb_ p)) r2 (E 0)) c x2).
    { induction c as [ | c IH]; intros x2; auto. cbn [newton_deriv]. unfold newton_step. destruct (lu _ _); [apply IH | reflexivity]. }
    assert (One : nmul (ca_energy m (map E (na_ p)) (map E (nb_ p)) r2 xw) (@n1 (lK (dual n))) = ca_energy m (map E (na_ p)) (map E (nb_ p)) r2 xw).
    { apply fin_mul1. intros s Hs. destruct (Co s Hs) as (r & r0 & C1 & _). eauto. }
    assert (One0 : nmul (ca_energy m (map E (na_ p)) (map E (nb_ p)) r2 xn) (@n1 (lK (dual n))) = ca_energy m (map E (na_ p)) (map E (nb_ p)) r2 xn).
    { apply fin_mul1. intros s Hs. destruct (Co s Hs) as (r & r0 & _ & C1 & _). eauto. }
    exists (ca_energy m (map E (na_ p)) (map E (nb_ p)) r2 xw). split.
    - unfold cross_association. rewrite core_eps, (proj2 (Rltb_false _ _) Hrho).
      change (p_nassoc q) with m. change (p_na q) with (map E (p_na p)). change (p_nb q) with (map E (p_nb p)). rewrite !core_sel.
      change (ca_sel p (p_na p)) with (na_ p). change (ca_sel p (p_nb p)) with (nb_ p).
      rewrite Lp, nderiv_dual, Tolf, Ew. reflexivity.
    - intros s Hs. destruct (Co s Hs) as (r & r0 & C1 & C2 & C3). rewrite One in C1. rewrite One0 in C2. exists r, r0. split; auto. split; auto.
      destruct (Rxn s Hs) as (d' & Ed' & Pd'). assert (Fin d' = Fin r0) by congruence. injection H as ->. exact Pd'.
  Qed.
End Core.
