(** The real iteration of the cross-association, carried out with dual numbers without
    infinitesimal part, is Newton's method over the reals. *)
From Coq Require Import ZArith QArith Reals Lra Lia String List Bool.
From Coquelicot Require Import Coquelicot.
From Verif Require Import Num RNum RSum Tables M_Params F_Params M_Eos Spec F_Newton F_Gauss
  F_MassAction F_MassAction2 F_NewtonR F_Cross F_Transfer XNum F_Transfer2 F_Transfer3 DNum F_Level F_Linear
  F_Implicit P_Assoc P_Dual P_Dual2 F_DualNewton P_Dual3 F_Cont F_Perturb.
Import ListNotations.
Local Open Scope R_scope.
Set Bullet Behavior "Strict Subproofs".
Notation length := List.length.

(* ------------------------------------------------------ Newton's method over the reals *)
Section RealRun.
  Variables (m : nat) (delta : list (list R)) (na nb rho : list R).
  Notation N := (m + m)%nat. Notation D := (Dm m delta na nb rho).
  Notation str := (fun i j => @ix2 RNum delta i j). Notation f l := (fun i => @ix RNum l i).
  Hypothesis HD : forall k l, (k < N)%nat -> (l < N)%nat -> 0 <= D k l.
  Notation update := (newton_update m str (f na) (f nb) (f rho)).
  Notation resnorm := (residual_norm m str (f na) (f nb) (f rho)).

  Lemma update_jac y y' : update y y' -> forall k, (k < N)%nat ->
    (Sum l < N, jac N D (fun k => nth k y 0) k l * (nth l y 0 - nth l y' 0)) = nth k y 0 * (1 + Sum l < N, D k l * nth l y 0) - 1.
  Proof.
    intros [Ly U] k Hk. rewrite jac_row by auto.
    assert (Es : forall x, (Sum l < N, D k l * nth l x 0) = sites m delta na nb rho (fun l => nth l x 0) k) by reflexivity.
    assert (Ed : (Sum l < N, D k l * (nth l y 0 - nth l y' 0)) = (Sum l < N, D k l * nth l y 0) - (Sum l < N, D k l * nth l y' 0)).
    { rewrite <- rsum_minus. apply Sum_ext. intros; ring. }
    rewrite Ed, !Es. clear Ed Es. pattern k. revert k Hk. apply from_halves. intros i Hi. destruct (U i Hi) as [A B].
    rewrite !sites_a, !sites_b by auto. unfold fa, fb in *. split; lra.
  Qed.
  Lemma update_unique y y' y'' : (forall k, (k < N)%nat -> 0 < nth k y 0) -> update y y' -> update y y'' -> y' = y''.
  Proof.
    intros Py A B. pose proof (update_jac _ _ A) as JA. pose proof (update_jac _ _ B) as JB. destruct A as [LA _], B as [LB _].
    apply (nth_ext _ _ 0 0); [congruence | ]. intros k Hk. rewrite LA in Hk.
    assert (Z : forall l, (l < N)%nat -> nth l y' 0 - nth l y'' 0 = 0).
    { apply (jac_msing m D (fun k => nth k y 0) HD Py). intros l Hl.
      rewrite (Sum_ext N _ (fun i => jac N D (fun k => nth k y 0) l i * (nth i y 0 - nth i y'' 0) - jac N D (fun k => nth k y 0) l i * (nth i y 0 - nth i y' 0))) by (intros; ring).
      rewrite rsum_minus, JA, JB by auto. ring. }
    specialize (Z k ltac:(lia)). lra.
  Qed.
  (** an accepted iterate is close to the exact fractions *)
  Lemma update_close (tol : R) y y' x : length y = (2 * m)%nat -> all_positive m y -> 0 < tol < 1 -> resnorm y < tol -> update y y' ->
    site_law m str (f na) (f nb) (f rho) x ->
    forall k, (k < N)%nat -> Rabs (nth k y' 0 - nth k x 0) <= (1 + tol) / (1 - tol) ^ 2 - 1.
  Proof.
    intros Ly Py Ht Hr U Hx k Hk. pose proof (proj2 (exact_law m delta na nb rho x) Hx) as Ex.
    assert (Py' : forall k, (k < N)%nat -> 0 < nth k y 0) by (apply (from_halves m (fun k => 0 < nth k y 0)); exact Py).
    destruct (step_positive gauss_lu m delta na nb rho tol gauss_lu_exact HD y ltac:(lia) Py') as (x' & Es & L').
    assert (Et : Rltb (resid_norm m delta na nb rho y) tol = true).
    { apply Rltb_true. rewrite resid_norm_spec. exact Hr. }
    rewrite Et in Es.
    assert (Eq : x' = y').
    { apply (update_unique y); auto. refine (proj2 (update_spec m delta na nb rho gauss_lu tol y x' true gauss_lu_exact Ly Es) _).
      intros i Hi. destruct (Py i Hi). split; lra. }
    subst x'.
    destruct (accepted_accurate gauss_lu m delta na nb rho tol gauss_lu_exact HD y y' x ltac:(lia) Py' Ht Es Ex) as [_ A].
    destruct (A k Hk) as (A1 & A2 & A3). destruct Ex as [Lx Sx]. pose proof (solves_le1 N D HD _ Sx k Hk) as X1. cbv beta in X1.
    destruct (Sx k Hk) as [Px _].
    assert (Ht2 : 0 < (1 - tol) ^ 2) by (apply pow_lt; lra). assert (Ht3 : (1 - tol) ^ 2 <= 1 - tol) by (cbn [pow]; nra).
    assert (Q1 : (1 + tol) / (1 - tol) <= (1 + tol) / (1 - tol) ^ 2).
    { unfold Rdiv. apply Rmult_le_compat_l; [lra | ]. apply Rinv_le_contravar; auto. }
    assert (Q2 : / (1 - tol) ^ 2 <= (1 + tol) / (1 - tol) ^ 2).
    { unfold Rdiv. assert (0 < / (1 - tol) ^ 2) by (apply Rinv_0_lt_compat; auto). nra. }
    set (q := (1 + tol) / (1 - tol) ^ 2) in *.
    assert (q1 : 1 <= q).
    { unfold q. apply Rmult_le_reg_r with ((1 - tol) ^ 2); auto. unfold Rdiv. rewrite Rmult_assoc, Rinv_l by lra. lra. }
    apply Rabs_le_between.
    assert (B1 : nth k y' 0 <= q * nth k x 0) by (eapply Rle_trans; [exact A2 | apply Rmult_le_compat_r; lra]).
    assert (B2 : nth k x 0 <= q * nth k y' 0) by (eapply Rle_trans; [exact A3 | apply Rmult_le_compat_r; [left; exact A1 | exact Q2]]).
    destruct (Rle_dec (nth k y' 0) (nth k x 0)); split; nra.
  Qed.
End RealRun.

Lemma tol_small d : 0 < d -> exists tol0, 0 < tol0 < 1 /\ forall tol, 0 < tol <= tol0 -> (1 + tol) / (1 - tol) ^ 2 - 1 < d.
Proof.
  intros Hd. exists (Rmin (1 / 2) (d / 16)). pose proof (Rmin_l (1 / 2) (d / 16)). pose proof (Rmin_r (1 / 2) (d / 16)).
  assert (0 < Rmin (1 / 2) (d / 16)) by (apply Rmin_pos; lra). split; [lra | ]. intros tol Ht.
  assert (P : 0 < (1 - tol) ^ 2) by (apply pow_lt; lra).
  apply Rmult_lt_reg_r with ((1 - tol) ^ 2); auto. rewrite Rmult_minus_distr_r. unfold Rdiv. rewrite Rmult_assoc, Rinv_l by lra.
  assert (Q : / 4 <= (1 - tol) ^ 2) by (cbn [pow]; nra). assert (16 * tol <= d) by lra.
  apply Rlt_le_trans with (16 * tol * / 4); [cbn [pow]; nra | ]. apply Rmult_le_compat; lra.
Qed.

(* ------------------------------------------------------------ the same with dual numbers *)
Section DualRun.
  Variables (n m : nat).
  Notation z0 := (lz (dual n)). Notation N := (m + m)%nat. Notation E := (emb (TRn n)).
  Variables (delta : list (list R)) (na nb rho : list R) (delta2 : list (list (dnum n))) (rho2 : list (dnum n)).
  Hypothesis Td : forall i j, (i < m)%nat -> (j < m)%nat -> rel (TRn n) (fun _ => @ix2 RNum delta i j) (ix2 delta2 i j).
  Hypothesis Tr : lrel (TRn n) (fun _ => rho) rho2.
  Notation D := (Dm m delta na nb rho).
  Notation str := (fun i j => @ix2 RNum delta i j). Notation f l := (fun i => @ix RNum l i).
  Hypothesis HD : forall k l, (k < N)%nat -> (l < N)%nat -> 0 <= D k l.
  Variables (lu : lu_solver (lK (dual n))) (tol : R).
  Hypothesis Hlu : lu_dual n lu.
  Notation step := (newton_step lu m delta2 (map E na) (map E nb) rho2 (E tol)).
  Notation update := (newton_update m str (f na) (f nb) (f rho)).
  Notation resnorm := (residual_norm m str (f na) (f nb) (f rho)).

  Lemma run_step y y' : length y = (2 * m)%nat -> all_positive m y -> update y y' ->
    step (map E y) = Ok (map E y', Rltb (resnorm y) tol).
  Proof.
    intros Ly Py U.
    assert (Py' : forall k, (k < N)%nat -> 0 < nth k y 0) by (apply (from_halves m (fun k => 0 < nth k y 0)); exact Py).
    destruct (dual_step n m (fun _ => delta) delta2 (fun _ => na) (fun _ => nb) (fun _ => rho) (map E na) (map E nb) rho2
      Td (c15_Tc n na) (c15_Tc n nb) Tr lu (E tol) Hlu HD (fun k _ => nth k y 0) (map E y)) as (x2' & b & X' & Es & L' & R' & S').
    { rewrite map_length. lia. }
    { intros k Hk. exact (tr_ix (TRn n) _ _ k (c15_Tc n y)). }
    { exact Py'. }
    rewrite Es.
    assert (Ex : x2' = map E y').
    { apply (nth_ext _ _ n0 n0); [rewrite map_length; rewrite L'; rewrite (proj1 U); lia | ]. intros k Hk. rewrite L' in Hk.
      change (ix x2' k = ix (map E y') k). eapply (rel_fun (dual n)); [ | exact (tr_ix (TRn n) _ _ k (c15_Tc n y'))].
      eapply (rel_near (dual n)); [ | exact (R' k Hk)]. eapply near_imp; [ | exact S']. intros z A. cbv beta in *.
      assert (Zr : forall l, (l < N)%nat -> X' l z - nth l y' 0 = 0).
      { apply (jac_msing m D (fun k => nth k y 0)); auto.
        intros l Hl. pose proof (update_jac m delta na nb rho y y' U l Hl) as B. pose proof (A l Hl) as A'. 
        change (Dz n m (fun _ : pt n => delta) (fun _ : pt n => na) (fun _ : pt n => nb) (fun _ : pt n => rho)) with (fun k l (_ : pt n) => D k l) in A'. cbv beta in A'.
        rewrite (Sum_ext N _ (fun i => jac N D (fun k => nth k y 0) l i * (nth i y 0 - nth i y' 0) - jac N D (fun k => nth k y 0) l i * (nth i y 0 - X' i z))) by (intros; ring).
        rewrite rsum_minus. change (fun k l => D k l) with D in A'. rewrite B.
        match type of A' with ?a = _ => change (nth l y 0 * (1 + (Sum l0 < N, D l l0 * nth l0 y 0)) - 1 - a = 0) end. rewrite A'. ring. }
      specialize (Zr k Hk). change (@ix RNum y' k) with (nth k y' 0). lra. }
    subst x2'. f_equal. f_equal.
    unfold newton_step in Es. match type of Es with match ?q with _ => _ end = _ => destruct q as [dx | ] end; [ | discriminate].
    apply Ok_inj in Es. apply (f_equal snd) in Es. cbn [snd] in Es. rewrite <- Es. clear Es.
    assert (Lx : length y = N) by lia.
    assert (Nz : nz m y).
    { intros i Hi. rewrite (ix_firstn (K := RNum)), (ix_skipn (K := RNum)) by auto.
      pose proof (Py' i ltac:(lia)). pose proof (Py' (m + i)%nat ltac:(lia)). unfold ix. cbn in *. lra. }
    pose proof (tr_grad (TRn n) m (fun _ => delta) delta2 (fun _ => na) (fun _ => nb) (fun _ => rho) (fun _ => y)
      (map E na) (map E nb) rho2 (map E y) Td (c15_Tc n na) (c15_Tc n nb) Tr (c15_Tc n y) Nz) as Tg.
    apply lrel_nre in Tg. cbv beta in Tg. set (g := @ca_grad RNum m delta na nb rho y) in *.
    set (g2 := ca_grad m delta2 (map E na) (map E nb) rho2 (map E y)) in *. unfold norm.
    assert (Rs : rel (TRn n) (fun _ => Sum k < N, resid m delta na nb rho y k * resid m delta na nb rho y k) (nsum (map (fun x => nmul x x) (map nre g2)))).
    { assert (T2 : lrel (TRn n) (fun _ => map (fun x => x * x) g) (map (fun x => nmul x x) (map nre g2))).
      { apply (lrel_map (TRn n) (fun _ x => x * x) (fun x => nmul x x) (fun _ => g)); auto. intros h a Hf. exact (tr_mul _ _ (TRn n) _ _ _ _ Hf Hf). }
      pose proof (tr_nsum (TRn n) _ _ T2) as T3. cbv beta in T3.
      assert (Z : @nsum RNum (map (fun x => x * x) g) = Sum k < N, resid m delta na nb rho y k * resid m delta na nb rho y k); [ | rewrite Z in T3; exact T3].
      rewrite nsum_R, rsum_map. change (rsum g (fun i : R => i * i) = Sum k < N, resid m delta na nb rho y k * resid m delta na nb rho y k).
      rewrite (rsum_nth _ 0). unfold g at 1. rewrite (ca_grad_length (K := RNum)).
      apply Sum_ext. intros k Hk.
      assert (G : nth k g 0 = resid m delta na nb rho y k) by exact (grad_R m delta na nb rho y k Lx Hk).
      cbv beta. change (nth k g 0 * nth k g 0 = resid m delta na nb rho y k * resid m delta na nb rho y k). rewrite G. ring. }
    rewrite nltb_coef, sqrt_coef, (rel_coef n _ _ Rs), (rel_coef n _ _ (tr_emb _ _ (TRn n) tol)). rewrite <- resid_norm_spec. unfold resid_norm. cbn.
    assert (P : 0 <= Sum k < N, resid m delta na nb rho y k * resid m delta na nb rho y k) by (apply rsum_nonneg; intros; nra).
    destruct (Rlt_dec _ 0) as [Hlt | _]; [lra | ]. reflexivity.
  Qed.

  Theorem run_loop k : forall max_iter y, (k < max_iter)%nat -> newton_run m str (f na) (f nb) (f rho) tol k y ->
    (forall j, (j <= k)%nat -> all_positive m (y j)) -> newton_loop step max_iter (map E (y O)) = Ok (map E (y (S k))).
  Proof.
    induction k as [ | k IH]; intros max_iter y Hm (R1 & R2 & R3) Py; (destruct max_iter as [ | max_iter]; [lia | ]); cbn [newton_loop].
    - destruct (R1 O ltac:(lia)) as [Ly U]. rewrite (run_step (y O) (y 1%nat)); auto.
      + rewrite (proj2 (Rltb_true _ _) R3). reflexivity.
      + apply U. intros i Hi. destruct (Py O ltac:(lia) i Hi). split; lra.
    - destruct (R1 O ltac:(lia)) as [Ly U]. rewrite (run_step (y O) (y 1%nat)); auto; [ | apply Py; lia | ].
      + rewrite (proj2 (Rltb_false _ _)) by (apply R2; lia). destruct max_iter as [ | max_iter]; [lia | ].
        apply (IH (S max_iter) (fun j => y (S j)) ltac:(lia)).
        * split; [ | split]; [intros j Hj; apply (R1 (S j)); lia | intros j Hj; apply (R2 (S j)); lia | exact R3].
        * intros j Hj. apply Py. lia.
      + apply U. intros i Hi. destruct (Py O ltac:(lia) i Hi). split; lra.
  Qed.
End DualRun.
