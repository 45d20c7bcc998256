(** C07, continued: ranges of states in which the polar terms have no pole, and poles outside. *)
From Coq Require Import ZArith QArith Reals Lra Lia String List Bool.
From Interval Require Import Tactic.
From Verif Require Import Num RNum RSum Tables M_Params F_Params M_Eos Spec F_Spec F_SpecPolar F_SpecAssoc
  F_Contrib F_Cross F_Total Samples F_Transfer XNum F_Transfer2 F_Transfer3 F_XParams P_Params P_Limit P_Finite.
Import ListNotations.
Local Open Scope R_scope.
Set Bullet Behavior "Strict Subproofs".

(* ------------------------------------------------- sign of the correlation integrals *)

Section Signs.
  Variables (m e h : R).
  Hypothesis Hm : 1 <= m <= 2.
  Hypothesis He : 0 <= e <= 1.
  Let y := / m.
  Lemma y_range : / 2 <= y <= 1.
  Proof. unfold y. split; [apply Rinv_le_contravar; lra | rewrite <- Rinv_1; apply Rinv_le_contravar; lra]. Qed.
  Lemma q1_y : q1 m = 1 - y.
  Proof. unfold q1, y. field. lra. Qed.
  Lemma q12_y : q12 m = (1 - y) * (1 - 2 * y).
  Proof. unfold q12, y. field. lra. Qed.
  Ltac bound := pose proof y_range; unfold cm; rewrite ?q1_y, ?q12_y; clearbody y; clear Hm He;
    unfold rsum; cbn [seq fold_right map length AD BD CD AQ BQ CQ ADQ BDQ CDQ];
    unfold lit2, AD, BD, CD, AQ, BQ, CQ, ADQ, BDQ, CDQ; cbn [nth]; lits;
    interval with (i_bisect y, i_bisect h, i_depth 25).
  (** positivity of an expression that is affine in e, from its values at 0 and 1 *)
  Lemma pair_affine (a b : list (list Q)) :
    0 < (Sum l < length a, cm a l m * h ^ l) ->
    0 < (Sum l < length a, (cm a l m + cm b l m) * h ^ l) ->
    0 < (Sum l < length a, (cm a l m + cm b l m * e) * h ^ l).
  Proof.
    intros A B. rewrite (Sum_ext _ _ (fun l => cm a l m * h ^ l + cm b l m * h ^ l * e)) by (intros; ring).
    rewrite rsum_plus, rsum_scal_r. apply affine_pos; auto.
    rewrite <- rsum_plus. erewrite Sum_ext; [exact B | ]. intros; cbn beta. ring.
  Qed.
  Lemma J2_dd_pos : 0 <= h <= 74 / 100 -> 0 < (Sum l < length AD, (cm AD l m + cm BD l m * e) * h ^ l).
  Proof. intros Hh. apply pair_affine; bound. Qed.
  Lemma J2_qq_pos : 0 <= h <= 74 / 100 -> 0 < (Sum l < length AQ, (cm AQ l m + cm BQ l m * e) * h ^ l).
  Proof. intros Hh. apply pair_affine; bound. Qed.
  Lemma J2_dq_pos : 0 <= h <= 74 / 100 -> 0 < (Sum l < length ADQ, (cm ADQ l m + cm BDQ l m * e) * h ^ l).
  Proof. intros Hh. apply pair_affine; bound. Qed.
  Lemma J3_dd_neg : 0 <= h <= 74 / 100 -> (Sum l < length CD, cm CD l m * h ^ l) <= 0.
  Proof. intros Hh. bound. Qed.
  Lemma J3_qq_nn : 22 / 100 <= h <= 74 / 100 -> 0 <= (Sum l < length CQ, cm CQ l m * h ^ l).
  Proof. intros Hh. bound. Qed.
  Lemma J3_dq_nn : 44 / 100 <= h <= 74 / 100 -> 0 <= (Sum l < length CDQ, (lit2 CDQ l 0 + q1 m * lit2 CDQ l 1) * h ^ l).
  Proof. intros Hh. bound. Qed.
End Signs.

Lemma pair_nn n (w J : nat -> nat -> R) :
  (forall i j, (i < n)%nat -> (j < n)%nat -> 0 <= w i j /\ (w i j <> 0 -> 0 < J i j)) ->
  0 <= Sum i < n, Sum j < n, w i j * J i j.
Proof.
  intros H. apply rsum_nonneg. intros i Hi. apply rsum_nonneg. intros j Hj. apply seq_in in Hi, Hj.
  destruct (H i j Hi Hj) as [A B]. destruct (Req_dec (w i j) 0) as [-> | E]; [lra | ].
  specialize (B E). apply Rmult_le_pos; lra.
Qed.
Lemma triple_nn n (w J : nat -> nat -> nat -> R) :
  (forall i j k, (i < n)%nat -> (j < n)%nat -> (k < n)%nat -> 0 <= w i j k /\ (w i j k <> 0 -> 0 <= J i j k)) ->
  0 <= Sum i < n, Sum j < n, Sum k < n, w i j k * J i j k.
Proof.
  intros H. apply rsum_nonneg. intros i Hi. apply rsum_nonneg. intros j Hj. apply rsum_nonneg. intros k Hk. apply seq_in in Hi, Hj, Hk.
  destruct (H i j k Hi Hj Hk) as [A B]. destruct (Req_dec (w i j k) 0) as [-> | E]; [lra | ].
  specialize (B E). apply Rmult_le_pos; lra.
Qed.
Lemma mul_nn3 a b c : 0 <= a -> 0 <= b -> 0 <= c -> 0 <= a * b * c.
Proof. intros. apply Rmult_le_pos; auto. apply Rmult_le_pos; auto. Qed.
Lemma opposite_sign (a b : R) : a <= 0 -> 0 <= b -> a <> b \/ a = 0.
Proof. intros. destruct (Req_dec a 0); [right; auto | left; lra]. Qed.
Lemma Rcbrt_range x : 1 <= x <= 8 -> 1 <= Rcbrt x <= 2.
Proof.
  intros H. assert (A := Rcbrt_pos x ltac:(lra)). assert (B := Rcbrt_cube x ltac:(lra)).
  generalize dependent (Rcbrt x). intros c A B. split; nra.
Qed.

Section Warm2.
  Variables (prs : list (pure_record RNum)) (bin : list (list R)) (p : params RNum).
  Hypothesis Hp : from_records prs bin = Some p.
  Hypothesis Hph : phys p.
  Variables (t v : R) (moles : list R).
  Hypothesis PS : phys_state p t v moles.
  Let W : wfp p := wfp_from_records prs bin p Hp.
  Let X := mix_of p.
  Let n := List.length (p_m p).
  Let rho := fun i => nth i moles 0 / v.
  Let s := @state_new RNum t v moles.
  Let eta := Eta X t rho.
  Notation q := (xparams p).
  Notation xs := (xstate t v moles).

  (** segment number at least one, temperature at least epsilon/k *)
  Definition warm_at (i : nat) : Prop := 1 <= @ix RNum (p_m p) i /\ @ix RNum (p_epsilon_k p) i <= t.

  Let Ht : 0 < t := ps_t _ _ _ _ PS.
  Let Hrho : forall i, (i < n)%nat -> 0 <= rho i := rho_nonneg p t v moles PS.
  Lemma mp_range i : warm_at i -> 1 <= mp X i <= 2.
  Proof.
    intros [H _]. unfold mp. change (M X i) with (@ix RNum (p_m p) i). split; [apply Rmin_glb; lra | apply Rmin_r].
  Qed.
  Lemma range2 i j : (i < n)%nat -> (j < n)%nat -> warm_at i -> warm_at j ->
    1 <= m2 X i j <= 2 /\ 0 <= Eij0 X i j / t <= 1.
  Proof.
    intros Hi Hj Wi Wj. pose proof (mp_range i Wi). pose proof (mp_range j Wj).
    destruct (Hph i Hi) as (_ & _ & Ci). destruct (Hph j Hj) as (_ & _ & Cj). destruct Wi as [_ Ei], Wj as [_ Ej].
    unfold m2. split.
    - split.
      + rewrite <- sqrt_1. apply sqrt_le_1_alt. nra.
      + rewrite <- (sqrt_pow2 2) by lra. apply sqrt_le_1_alt. nra.
    - unfold Eij0. change (Ep X i) with (@ix RNum (p_epsilon_k p) i). change (Ep X j) with (@ix RNum (p_epsilon_k p) j).
      split; [apply Rmult_le_pos; [apply sqrt_pos | left; apply Rinv_0_lt_compat; auto] | ].
      apply Rmult_le_reg_r with t; auto. unfold Rdiv. rewrite Rmult_assoc, Rinv_l, Rmult_1_l, Rmult_1_r by lra.
      rewrite <- (sqrt_pow2 t) at 1 by lra. apply sqrt_le_1_alt. nra.
  Qed.
  Lemma range3 i j k : warm_at i -> warm_at j -> warm_at k -> 1 <= m3 X i j k <= 2.
  Proof.
    intros Wi Wj Wk. pose proof (mp_range i Wi). pose proof (mp_range j Wj). pose proof (mp_range k Wk).
    unfold m3. apply Rcbrt_range. assert (1 <= mp X i * mp X j <= 4) by nra. nra.
  Qed.

  (** weights of the pair and triplet sums *)
  Ltac inv_pos := left; apply Rinv_0_lt_compat; try apply pow_lt; auto.
  Let Sp i j : (i < n)%nat -> (j < n)%nat -> 0 < Sij X i j := Sij_p p Hph i j.
  Let Wn k i : (i < n)%nat -> 0 <= Wi X t k i := Wi_nn p Hph t Ht k i.
  Let Mn i : (i < n)%nat -> 0 <= Mu2 X i := mu2_nn prs bin p Hp Hph i.
  Let Qn i : (i < n)%nat -> 0 <= Qu2 X i := qu2_nn prs bin p Hp Hph i.

  Lemma w2_nn i j ki kj (d : R) : (i < n)%nat -> (j < n)%nat -> 0 < d ->
    0 <= rho i * rho j * Wi X t ki i * Wi X t kj j / d.
  Proof.
    intros Hi Hj Hd. unfold Rdiv. apply Rmult_le_pos; [ | left; apply Rinv_0_lt_compat; auto].
    apply Rmult_le_pos; [ | apply Wn; auto]. apply Rmult_le_pos; [ | apply Wn; auto].
    apply Rmult_le_pos; auto.
  Qed.
  Lemma w3_nn i j k l (d : R) : (i < n)%nat -> (j < n)%nat -> (k < n)%nat -> 0 < d ->
    0 <= rho i * rho j * rho k * Wi X t l i * Wi X t l j * Wi X t l k / d.
  Proof.
    intros Hi Hj Hk Hd. unfold Rdiv. apply Rmult_le_pos; [ | left; apply Rinv_0_lt_compat; auto].
    apply Rmult_le_pos; [ | apply Wn; auto]. apply Rmult_le_pos; [ | apply Wn; auto].
    apply Rmult_le_pos; [ | apply Wn; auto]. apply Rmult_le_pos; auto. apply Rmult_le_pos; auto.
  Qed.
  Lemma S3_pos i j k e : (i < n)%nat -> (j < n)%nat -> (k < n)%nat -> 0 < (Sij X i j * Sij X i k * Sij X j k) ^ e.
  Proof.
    intros Hi Hj Hk. apply pow_lt. apply Rmult_lt_0_compat; [ | apply Sp; auto]. apply Rmult_lt_0_compat; apply Sp; auto.
  Qed.
  Lemma eta_nn : 0 <= eta.
  Proof.
    unfold eta, Eta, Zeta. apply Rmult_le_pos; [pose proof PI_RGT_0; lra | ].
    apply rsum_nonneg. intros i Hi. apply seq_in in Hi. change (N X) with n in Hi.
    apply Rmult_le_pos; [apply Rmult_le_pos | ]; auto.
    - left. apply Hph. auto.
    - apply pow_le. left. apply (Di_pos p Hph t Ht i Hi).
  Qed.

  Section Dipole.
    Hypothesis warm : forall i, (i < n)%nat -> Mu2 X i <> 0 -> warm_at i.
    Hypothesis dense : eta <= 74 / 100.
    Lemma dd_sep : dd2 X t rho <> dd3 X t rho \/ dd2 X t rho = 0.
    Proof.
      pose proof eta_nn as E0. apply opposite_sign.
      - unfold dd2. match goal with |- - PI * ?x <= 0 => assert (0 <= x) end; [ | pose proof PI_RGT_0; nra].
        change (N (mix_of p)) with n.
        apply (pair_nn n (fun i j => rho i * rho j * Wi X t 3 i * Wi X t 3 j / Sij X i j ^ 3 * Mu2 X i * Mu2 X j) (fun i j => J2 X t rho AD BD i j)).
        intros i j Hi Hj. split.
        + apply mul_nn3; auto. apply w2_nn; auto. apply pow_lt; auto.
        + intros Nz.
          destruct (Req_dec (Mu2 X i) 0) as [E | Ni]; [exfalso; apply Nz; rewrite E; ring | ].
          destruct (Req_dec (Mu2 X j) 0) as [E | Nj]; [exfalso; apply Nz; rewrite E; ring | ].
          destruct (range2 i j Hi Hj (warm i Hi Ni) (warm j Hj Nj)).
          unfold J2. apply J2_dd_pos; auto.
      - unfold dd3. match goal with |- 0 <= - ?a * ?x => assert (0 <= - x) end; [ | pose proof PI_RGT_0; assert (0 <= 4 * PI ^ 2 / 3) by nra; nra].
        change (N (mix_of p)) with n. rewrite <- rsum_opp. erewrite Sum_ext; [ | intros i Hi; rewrite <- rsum_opp; apply Sum_ext; intros j Hj; rewrite <- rsum_opp; apply Sum_ext; intros k Hk; rewrite Ropp_mult_distr_r; reflexivity].
        apply (triple_nn n (fun i j k => rho i * rho j * rho k * Wi X t 3 i * Wi X t 3 j * Wi X t 3 k / (Sij X i j * Sij X i k * Sij X j k)
          * Mu2 X i * Mu2 X j * Mu2 X k) (fun i j k => - J3 X t rho CD i j k)).
        intros i j k Hi Hj Hk. split.
        + apply Rmult_le_pos; auto. apply mul_nn3; auto. apply w3_nn; auto. rewrite <- pow_1. apply S3_pos; auto.
        + intros Nz.
          destruct (Req_dec (Mu2 X i) 0) as [E | Ni]; [exfalso; apply Nz; rewrite E; ring | ].
          destruct (Req_dec (Mu2 X j) 0) as [E | Nj]; [exfalso; apply Nz; rewrite E; ring | ].
          destruct (Req_dec (Mu2 X k) 0) as [E | Nk]; [exfalso; apply Nz; rewrite E; ring | ].
          pose proof (range3 i j k (warm i Hi Ni) (warm j Hj Nj) (warm k Hk Nk)).
          unfold J3. apply Ropp_0_ge_le_contravar, Rle_ge. apply J3_dd_neg; auto.
    Qed.
    Theorem C07_dipole_warm : a_dipole q xs = Fin (a_dipole p s).
    Proof. exact (C07_dipole prs bin p Hp Hph t v moles PS dd_sep). Qed.
  End Dipole.

  Section Quadrupole.
    Hypothesis warm : forall i, (i < n)%nat -> Qu2 X i <> 0 -> warm_at i.
    Hypothesis dense : 22 / 100 <= eta <= 74 / 100.
    Lemma qq_sep : qq2_code X t rho <> qq3 X t rho \/ qq2_code X t rho = 0.
    Proof.
      apply opposite_sign.
      - unfold qq2_code. match goal with |- - PI * ?y * ?x <= 0 => assert (0 <= x) end; [ | pose proof PI_RGT_0; nra].
        change (N (mix_of p)) with n.
        apply (pair_nn n (fun i j => rho i * rho j * Wi X t 5 i * Wi X t 5 j / Sg X (Nat.min i j) ^ 7 * Qu2 X i * Qu2 X j) (fun i j => J2 X t rho AQ BQ i j)).
        intros i j Hi Hj. split.
        + apply mul_nn3; auto. apply w2_nn; auto. apply pow_lt. apply (Sg_pos p Hph). unfold n in *; lia.
        + intros Nz.
          destruct (Req_dec (Qu2 X i) 0) as [E | Ni]; [exfalso; apply Nz; rewrite E; ring | ].
          destruct (Req_dec (Qu2 X j) 0) as [E | Nj]; [exfalso; apply Nz; rewrite E; ring | ].
          destruct (range2 i j Hi Hj (warm i Hi Ni) (warm j Hj Nj)).
          unfold J2. apply J2_qq_pos; auto. fold eta. lra.
      - unfold qq3. match goal with |- 0 <= ?a * ?x => assert (0 <= x) end; [ | pose proof PI_RGT_0; apply Rmult_le_pos; auto; nra].
        change (N (mix_of p)) with n.
        apply (triple_nn n (fun i j k => rho i * rho j * rho k * Wi X t 5 i * Wi X t 5 j * Wi X t 5 k / (Sij X i j * Sij X i k * Sij X j k) ^ 3
          * Qu2 X i * Qu2 X j * Qu2 X k) (fun i j k => J3 X t rho CQ i j k)).
        intros i j k Hi Hj Hk. split.
        + apply Rmult_le_pos; auto. apply mul_nn3; auto. apply w3_nn; auto. apply S3_pos; auto.
        + intros Nz.
          destruct (Req_dec (Qu2 X i) 0) as [E | Ni]; [exfalso; apply Nz; rewrite E; ring | ].
          destruct (Req_dec (Qu2 X j) 0) as [E | Nj]; [exfalso; apply Nz; rewrite E; ring | ].
          destruct (Req_dec (Qu2 X k) 0) as [E | Nk]; [exfalso; apply Nz; rewrite E; ring | ].
          pose proof (range3 i j k (warm i Hi Ni) (warm j Hj Nj) (warm k Hk Nk)).
          unfold J3. apply J3_qq_nn; auto.
    Qed.
    Theorem C07_quadrupole_warm : a_quadrupole q xs = Fin (a_quadrupole p s).
    Proof. exact (C07_quadrupole prs bin p Hp Hph t v moles PS qq_sep). Qed.
  End Quadrupole.

  Section DipoleQuadrupole.
    Hypothesis warm : forall i, (i < n)%nat -> Mu2 X i <> 0 \/ Qu2 X i <> 0 -> warm_at i.
    Hypothesis dense : 44 / 100 <= eta <= 74 / 100.
    Lemma dq_sep var : dq2_code p t v moles var <> dq3 X t rho \/ dq2_code p t v moles var = 0.
    Proof.
      apply opposite_sign.
      - unfold dq2_code, dq2. match goal with |- - _ * PI * ?x <= 0 => assert (0 <= x) end; [ | pose proof PI_RGT_0; nra].
        change (N (mix_of p)) with n.
        apply (pair_nn n (fun i j => rho i * rho j * Wi X t (fst (dq_exps var)) i * Wi X t (snd (dq_exps var)) j / Sij X i j ^ 5 * Mu2 X i * Qu2 X j) (fun i j => J2 X t rho ADQ BDQ i j)).
        intros i j Hi Hj. split.
        + apply mul_nn3; auto. apply w2_nn; auto. apply pow_lt; auto.
        + intros Nz.
          destruct (Req_dec (Mu2 X i) 0) as [E | Ni]; [exfalso; apply Nz; rewrite E; ring | ].
          destruct (Req_dec (Qu2 X j) 0) as [E | Nj]; [exfalso; apply Nz; rewrite E; ring | ].
          destruct (range2 i j Hi Hj (warm i Hi (or_introl Ni)) (warm j Hj (or_intror Nj))).
          unfold J2. apply J2_dq_pos; auto. fold eta. lra.
      - unfold dq3. match goal with |- 0 <= ?a * ?x => assert (0 <= x) end; [ | apply Rmult_le_pos; auto; apply pow2_ge_0].
        change (N (mix_of p)) with n.
        assert (Al : 0 <= Rlit ALPHA) by (unfold ALPHA; cbn [Rlit Qnum Qden]; lits; lra).
        apply (triple_nn n (fun i j k => rho i * rho j * rho k * Wi X t 4 i * Wi X t 4 j * Wi X t 4 k / (Sij X i j * Sij X i k * Sij X j k) ^ 2
          * (Mu2 X i * Qu2 X j * Mu2 X k + Rlit ALPHA * Mu2 X i * Qu2 X j * Qu2 X k)) (fun i j k => J3dq X t rho i j k)).
        intros i j k Hi Hj Hk. split.
        + apply Rmult_le_pos; [apply w3_nn; auto; apply S3_pos; auto | ].
          apply Rplus_le_le_0_compat; [apply mul_nn3; auto | ]. apply mul_nn3; auto. apply Rmult_le_pos; auto.
        + intros Nz.
          destruct (Req_dec (Mu2 X i) 0) as [E | Ni]; [exfalso; apply Nz; rewrite E; ring | ].
          destruct (Req_dec (Qu2 X j) 0) as [E | Nj]; [exfalso; apply Nz; rewrite E; ring | ].
          assert (Nk : Mu2 X k <> 0 \/ Qu2 X k <> 0).
          { destruct (Req_dec (Mu2 X k) 0) as [E | ]; auto. destruct (Req_dec (Qu2 X k) 0) as [E' | ]; auto.
            exfalso; apply Nz; rewrite E, E'; ring. }
          pose proof (range3 i j k (warm i Hi (or_introl Ni)) (warm j Hj (or_intror Nj)) (warm k Hk Nk)).
          unfold J3dq. apply J3_dq_nn; auto.
    Qed.
    Theorem C07_dipole_quadrupole_warm var : a_dq q var xs = Fin (a_dq p var s).
    Proof. exact (C07_dipole_quadrupole prs bin p Hp Hph t v moles PS var (dq_sep var)). Qed.
  End DipoleQuadrupole.

  Lemma qq_none : (forall i, (i < n)%nat -> Qu2 X i = 0) -> qq2_code X t rho = 0.
  Proof.
    intros H. unfold qq2_code. change (N X) with n.
    match goal with |- _ * ?x = 0 => assert (x = 0) as -> end; [ | ring].
    apply rsum_zero. intros i Hi. apply rsum_zero. intros j Hj. apply seq_in in Hi. rewrite (H i Hi). ring.
  Qed.
  Lemma dq_none var : (forall i j, (i < n)%nat -> (j < n)%nat -> Mu2 X i = 0 \/ Qu2 X j = 0) -> dq2_code p t v moles var = 0.
  Proof.
    intros H. unfold dq2_code, dq2. change (N (mix_of p)) with n.
    match goal with |- _ * ?x = 0 => assert (x = 0) as -> end; [ | ring].
    apply rsum_zero. intros i Hi. apply rsum_zero. intros j Hj. apply seq_in in Hi, Hj. change (mix_of p) with X.
    destruct (H i j Hi Hj) as [-> | ->]; ring.
  Qed.

  (** The residual Helmholtz energy of a physical state is finite if every polar component has at
      least one segment and the temperature is not below its dispersion energy, the packing
      fraction is at most 0.74 and, with quadrupoles (dipoles and quadrupoles), at least 0.22
      (0.44).  No condition on the size of the moments. *)
  Theorem C07_residual_warm lu lu2 o :
    (forall i, (i < n)%nat -> Mu2 X i <> 0 \/ Qu2 X i <> 0 -> warm_at i) ->
    eta <= 74 / 100 ->
    ((exists i, (i < n)%nat /\ Qu2 X i <> 0) -> 22 / 100 <= eta) ->
    ((exists i j, (i < n)%nat /\ (j < n)%nat /\ Mu2 X i <> 0 /\ Qu2 X j <> 0) -> 44 / 100 <= eta) ->
    (p_nassoc p <= 1)%nat ->
    (forall a, p_assoc_comp p = [a] -> assoc_phys p /\ 0 < Na X a /\ (0 < Nb X a -> Na X a + Nb X a <= 2 ^ 26)) ->
    exists r, residual lu (with_options p o) s = Some r /\
              residual lu2 (with_options q (xoptions o)) xs = Some (Fin r).
  Proof.
    intros Hw He Hq Hd Hn Ha. apply (C07_residual prs bin p Hp Hph t v moles PS); auto.
    - apply dd_sep; auto.
    - destruct (existsb (fun i => negb (Reqb (Qu2 X i) 0)) (seq 0 n)) eqn:E.
      + apply existsb_exists in E. destruct E as (i & Hi & Ei). apply negb_true_iff, Reqb_false in Ei. apply seq_in in Hi.
        apply qq_sep; auto. split; auto. apply Hq. exists i; auto.
      + right. apply qq_none. intros i Hi. destruct (Req_dec (Qu2 X i) 0) as [ | Ne]; auto. exfalso.
        assert (existsb (fun i => negb (Reqb (Qu2 X i) 0)) (seq 0 n) = true) as E'; [ | congruence].
        apply existsb_exists. exists i. split; [apply in_seq; lia | ]. apply negb_true_iff, Reqb_false; auto.
    - destruct (Rle_lt_dec (44 / 100) eta) as [L | L]; [apply dq_sep; auto | ].
      right. apply dq_none. intros i j Hi Hj.
      destruct (Req_dec (Mu2 X i) 0) as [ | Ni]; auto. destruct (Req_dec (Qu2 X j) 0) as [ | Nj]; auto.
      exfalso. assert (44 / 100 <= eta) by (apply Hd; exists i, j; auto). lra.
  Qed.
End Warm2.

(* ------------------------------------------------------------------------- cases *)

(** dimethyl ether + carbon dioxide + water, a liquid at 350 K: dipoles, quadrupoles and
    association together *)
Lemma sample_liquid : phys_state sample 350 260 [1; 2; 3].
Proof.
  apply phys_state_intro; try lra; auto using sample_phys.
  - intros i Hi. cbn in Hi. destruct i as [ | [ | [ | i]]]; cbn; try lra; lia.
  - exists 0%nat. cbn. split; [lia | lra].
  - cbn. lra.
Qed.
Lemma sample_eta : 44 / 100 <= Eta (mix_of sample) 350 (fun i => nth i [1; 2; 3] 0 / 260) <= 74 / 100.
Proof.
  unfold Eta, Zeta, Di. change (N (mix_of sample)) with 3%nat. unfold rsum. cbn [seq fold_right map].
  change (M (mix_of sample) 0) with (2.2634). change (M (mix_of sample) 1) with (1.5131). change (M (mix_of sample) 2) with (1.065587).
  change (Sg (mix_of sample) 0) with (3.2723). change (Sg (mix_of sample) 1) with (3.1869). change (Sg (mix_of sample) 2) with (3.000683).
  change (Ep (mix_of sample) 0) with (210.29). change (Ep (mix_of sample) 1) with (163.333). change (Ep (mix_of sample) 2) with (366.5121).
  cbn [nth]. split; interval.
Qed.
Example C07_case lu lu2 : exists r,
  residual lu (with_options sample default_options) (@state_new RNum 350 260 [1; 2; 3]) = Some r /\
  residual lu2 (with_options (xparams sample) (xoptions default_options)) (xstate 350 260 [1; 2; 3]) = Some (Fin r).
Proof.
  apply (C07_residual_warm _ _ _ sample_ok sample_phys _ _ _ sample_liquid).
  - intros i Hi Hpol. cbn in Hi. destruct i as [ | [ | [ | i]]]; try lia.
    + split; cbn; lra.
    + split; cbn; lra.
    + exfalso. destruct Hpol as [H | H]; apply H.
      * change (@mu2_of RNum 0 1.065587 3.000683 366.5121 = 0). unfold mu2_of. rn. unfold Rdiv. ring.
      * change (@q2_of RNum 0 1.065587 3.000683 366.5121 = 0). unfold q2_of. rn. unfold Rdiv. ring.
  - apply sample_eta.
  - intros _. pose proof sample_eta. lra.
  - intros _. apply sample_eta.
  - rewrite (w_na _ (wfp_from_records _ _ _ sample_ok)). destruct C17_case as (_ & _ & ->). cbn. lia.
  - intros a Ha. destruct C17_case as (_ & _ & E). rewrite E in Ha.
    assert (a = 2%nat) as -> by congruence. split; [ | split].
    + intros i Hi. cbn in Hi. destruct i as [ | [ | [ | i]]]; try lia; cbn; repeat split; lra.
    + cbn. lra.
    + cbn. lra.
Qed.

(** A quadrupolar fluid with one segment (sigma 3, epsilon/k 300 K) at 300 K and 1/1000 molecules
    per cubic Angstrom, with the quadrupole moment for which both orders coincide. *)
Definition pole_rec (qv : R) : pure_record RNum :=
  @mkPure RNum (named "quadrupole") 40 (@mkRec RNum 1 3 300 None (Some qv) None None None None None None None) None.
Definition pole (qv : R) : params RNum := from_records_raw [pole_rec qv] (zeros 1).
Lemma pole_ok qv : from_records [pole_rec qv] (zeros 1) = Some (pole qv).
Proof. reflexivity. Qed.
Lemma pole_phys qv : phys (pole qv).
Proof. intros i Hi. cbn in Hi. destruct i as [ | i]; cbn; try lra; lia. Qed.
Lemma pole_state qv : phys_state (pole qv) 300 1000 [1].
Proof.
  apply phys_state_intro; try lra; auto using pole_phys.
  - intros i Hi. cbn in Hi. destruct i as [ | i]; cbn; try lra; lia.
  - exists 0%nat. cbn. split; [lia | lra].
  - cbn. lra.
Qed.
Definition pole_eta : R := PI / 6 * (/ 1000 * 1 * (3 * (1 - 12 / 100 * exp (- 3))) ^ 3).
Definition pole_j2 : R := Sum l < 5, (lit2 AQ l 0 + lit2 BQ l 0) * pole_eta ^ l.
Definition pole_j3 : R := Sum l < 4, lit2 CQ l 0 * pole_eta ^ l.
Lemma pole_signs : 0 < pole_j2 /\ pole_j3 < 0.
Proof.
  unfold pole_j2, pole_j3. assert (E : 1 / 100 <= pole_eta <= 2 / 100) by (unfold pole_eta; split; interval).
  generalize dependent pole_eta. intros h E. unfold rsum. cbn [seq fold_right map].
  unfold lit2, AQ, BQ, CQ. cbn [nth]. lits. split; interval.
Qed.
Definition pole_q2 : R := - pole_j2 / (PI * (27 / 1000) * pole_j3).
Lemma pole_q2_pos : 0 < pole_q2.
Proof.
  destruct pole_signs. unfold pole_q2. pose proof PI_RGT_0.
  replace (- pole_j2 / (PI * (27 / 1000) * pole_j3)) with (pole_j2 / (PI * (27 / 1000) * - pole_j3)) by (field; lra).
  apply Rdiv_lt_0_compat; auto. apply Rmult_lt_0_compat; lra.
Qed.
Definition pole_q : R := sqrt (pole_q2 * (1 * (3 ^ 5 * 300)) / ((@e_m19 RNum) * (@kb_conv RNum))).
Lemma pole_moment : Qu2 (mix_of (pole pole_q)) 0 = pole_q2.
Proof.
  change (Qu2 (mix_of (pole pole_q)) 0) with (@q2_of RNum pole_q 1 3 300). unfold q2_of. rn.
  unfold pole_q. assert (0 < (@e_m19 RNum)) by (unfold e_m19; rn; lits; lra).
  assert (0 < (@kb_conv RNum)) by (unfold kb_conv; rn; lits; lra).
  pose proof pole_q2_pos. rewrite sqrt_sqrt; [ | left; apply Rdiv_lt_0_compat; apply Rmult_lt_0_compat; lra].
  field. lra.
Qed.
Lemma pole_equal : qq2_code (mix_of (pole pole_q)) 300 (fun i => nth i [1] 0 / 1000)
  = qq3 (mix_of (pole pole_q)) 300 (fun i => nth i [1] 0 / 1000)
  /\ qq2_code (mix_of (pole pole_q)) 300 (fun i => nth i [1] 0 / 1000) <> 0.
Proof.
  set (X := mix_of (pole pole_q)). set (rho := fun i => nth i [1] 0 / 1000).
  assert (EM : M X 0 = 1) by reflexivity. assert (ES : Sg X 0 = 3) by reflexivity. assert (EE : Ep X 0 = 300) by reflexivity.
  assert (EQ : Qu2 X 0 = pole_q2) by exact pole_moment. assert (EN : N X = 1%nat) by reflexivity.
  assert (ER : rho 0%nat = / 1000) by (unfold rho; cbn; lra).
  assert (Emp : mp X 0 = 1) by (unfold mp; rewrite EM; unfold Rmin; destruct (Rle_dec 1 2); lra).
  assert (Em2 : m2 X 0 0 = 1) by (unfold m2; rewrite Emp, Rmult_1_l; apply sqrt_1).
  assert (Em3 : m3 X 0 0 0 = 1) by (unfold m3; rewrite Emp; apply Rcbrt_of_cube; lra).
  assert (E0 : Eij0 X 0 0 = 300) by (unfold Eij0; rewrite EE; apply sqrt_square; lra).
  assert (Es : Sij X 0 0 = 3) by (unfold Sij; rewrite ES; lra).
  assert (Ew : Wi X 300 5 0 = 243) by (unfold Wi; rewrite EE, ES; lra).
  assert (Eeta : Eta X 300 rho = pole_eta).
  { unfold Eta, Zeta, Di. rewrite EN. unfold rsum. cbn [seq fold_right map]. rewrite ES, EE, EM, ER. unfold pole_eta.
    replace (- 3 * 300 / 300) with (- 3) by field. ring. }
  assert (EJ2 : J2 X 300 rho AQ BQ 0 0 = pole_j2).
  { unfold J2, pole_j2, cm. rewrite Em2, E0, Eeta. change (length AQ) with 5%nat. apply Sum_ext. intros l _.
    unfold q1, q12. replace ((1 - 1) / 1) with 0 by field. replace (300 / 300) with 1 by field. f_equal. ring. }
  assert (EJ3 : J3 X 300 rho CQ 0 0 0 = pole_j3).
  { unfold J3, pole_j3, cm. rewrite Em3, Eeta. change (length CQ) with 4%nat. apply Sum_ext. intros l _.
    unfold q1, q12. replace ((1 - 1) / 1) with 0 by field. f_equal. ring. }
  destruct pole_signs as [P2 P3]. pose proof pole_q2_pos. pose proof PI_RGT_0.
  unfold qq2_code, qq3. rewrite EN. unfold rsum. cbn [seq fold_right map Nat.min].
  rewrite EJ2, EJ3, Ew, Es, ES, EQ, ER.
  assert (EP : pole_j2 = - (pole_q2 * (PI * (27 / 1000) * pole_j3))) by (unfold pole_q2; field; lra).
  split.
  - rewrite EP. field.
  - clear EP. rewrite !Rplus_0_r. revert P2 H H0. generalize pole_j2, pole_q2. intros j Q A B C.
    apply Rlt_not_eq. assert (0 < PI * (j * (Q * Q))) by (apply Rmult_lt_0_compat; [lra | ]; apply Rmult_lt_0_compat; auto; apply Rmult_lt_0_compat; auto).
    nra.
Qed.

(** The guard against NaN in the polar terms does not remove the pole: for one component the
    quadrupole contribution of a physical state is infinite. *)
Theorem C07_quadrupole_refuted :
  exists prs bin p t v moles, Forall phys_record prs /\ from_records prs bin = Some p /\ phys p /\
    phys_state p t v moles /\ a_quadrupole (xparams p) (xstate t v moles) = PInf.
Proof.
  exists [pole_rec pole_q], (zeros 1), (pole pole_q), 300, 1000, [1].
  assert (PS := pole_state pole_q). assert (W := wfp_from_records _ _ _ (pole_ok pole_q)). assert (Hph := pole_phys pole_q).
  split; [ | split; [apply pole_ok | split; [auto | split; [auto | ]]]].
  { constructor; [ | constructor]. unfold phys_record. cbn. repeat split; lra. }
  unfold a_quadrupole. cbv zeta.
  assert (Tt : rel TX (fun _ => 300) (Fin 300)) by reflexivity. assert (Tv : rel TX (fun _ => 1000) (Fin 1000)) by reflexivity.
  pose proof (lrel_const [1]) as Tm.
  pose proof (tr_packing TX (pole pole_q) _ _ _ _ _ _ Tt Tv Tm PS) as Te.
  pose proof (tr_quad_phi2 TX (pole pole_q) W Hph _ _ _ _ _ _ Tt Tv Tm PS _ _ Te) as T2.
  pose proof (tr_quad_phi3 TX (pole pole_q) W Hph _ _ _ _ _ _ Tt Tv Tm PS _ _ Te) as T3.
  assert (Hr : forall i, (i < length (p_m (pole pole_q)))%nat -> @ix RNum (s_rho (@state_new RNum 300 1000 [1])) i = nth i [1] 0 / 1000).
  { intros. apply (s_rho_ix (pole pole_q) 300 1000 [1]); auto. }
  cbv beta in T2, T3. rewrite (packing_spec (pole pole_q) W 300 1000 [1] eq_refl) in T2, T3.
  rewrite (quad_phi2_spec (pole pole_q) W Hph 300 _ _ Hr) in T2. rewrite (quad_phi3_spec (pole pole_q) W Hph 300 _ _ Hr) in T3.
  destruct pole_equal as [Eq Ne].
  etransitivity.
  { apply (f_equal2 (fun a b => @pade XNum a b (Fin 1000)) T2 T3). }
  cbv beta. rewrite pade_x, Eq. rewrite Eq in Ne.
  destruct (Req_EM_T _ 0) as [_ | C]; [ | exfalso; apply C; ring].
  destruct (Req_EM_T _ 0) as [C | _]; [contradiction | ]. destruct (Req_EM_T 1000 0); [lra | ].
  apply sgn_inf_pos. lra.
Qed.

(* ------------------------------------------------------ association without A sites *)

Lemma frac_ab_nan d nb : / 67108864 < d -> 0 < nb -> @assoc_site_frac_ab XNum (Fin d) (Fin 0) (Fin nb) = NaN.
Proof.
  intros Hd Hb. unfold assoc_site_frac_ab.
  assert (El : @nltb XNum (@sqrt_eps XNum) (Fin d) = true).
  { change (@nltb XNum (@sqrt_eps XNum) (Fin d)) with (Rltb (@sqrt_eps RNum) d). rewrite sqrt_eps_R. apply Rltb_true; auto. }
  rewrite El.
  cbn [nsqrt nadd npowi nmul nsub nlit ndiv XNum xadd xmul xsub xopp]. rewrite xpowi_fin. cbn [xadd].
  assert (E1 : (d * (0 + - nb) + Rlit 1) ^ 2 + d * nb * Rlit 4 = (1 + d * nb) ^ 2) by (cbn [Rlit Qnum Qden]; lits; ring).
  rewrite E1. assert (0 < d * nb) by (apply Rmult_lt_0_compat; lra).
  rewrite xsqrt_fin by apply pow2_ge_0. rewrite sqrt_pow2 by lra. cbn [xadd].
  replace (d * 0 * Rlit 2) with 0 by ring.
  unfold xdiv. destruct (Req_EM_T 0 0); [ | lra].
  cbn [xsub xadd xopp]. match goal with |- sgn_inf ?x = _ => replace x with 0 by (cbn [Rlit Qnum Qden]; lits; ring) end.
  apply sgn_inf_0.
Qed.
(** With B sites but no A sites (na = 0, nb > 0: a pure acceptor) the association contribution
    is NaN whenever the association strength exceeds the switch to the low-density expansion. *)
Theorem C07_association_nan prs bin p t v moles a : from_records prs bin = Some p -> phys p -> phys_state p t v moles ->
  p_assoc_comp p = [a] -> Na (mix_of p) a = 0 -> 0 < Nb (mix_of p) a ->
  let rho := fun i => nth i moles 0 / v in
  / 2 ^ 26 < Delta (mix_of p) t rho a a * rho a ->
  a_assoc (xparams p) (xstate t v moles) = NaN.
Proof.
  intros Hp Hph PS Ha Hna Hnb rho Hd. assert (W := wfp_from_records _ _ _ Hp).
  assert (Tt : rel TX (fun _ => t) (Fin t)) by reflexivity. assert (Tv : rel TX (fun _ => v) (Fin v)) by reflexivity.
  pose proof (lrel_const moles) as Tm.
  pose proof (tr_drho TX p W Hph _ _ _ _ _ _ Tt Tv Tm PS a Ha) as T. unfold drho in T. cbv beta zeta in T.
  pose proof (assoc_deltarho p W Hph t v moles PS a Ha) as E. fold rho in E.
  unfold a_assoc. change (p_assoc_comp (xparams p)) with (p_assoc_comp p). rewrite Ha. change (ixn [a] 0) with a. cbv zeta.
  assert (Ena : ix (p_na (xparams p)) a = Fin 0).
  { transitivity (Fin (@ix RNum (p_na p) a)); [exact (ix_x (p_na p) a) | ]. f_equal. exact Hna. }
  assert (Enb : ix (p_nb (xparams p)) a = Fin (Nb (mix_of p) a)) by exact (ix_x (p_nb p) a).
  rewrite Ena, Enb.
  assert (El : @nltb XNum (@n0 XNum) (Fin (Nb (mix_of p) a)) = true).
  { change (Rltb (@n0 RNum) (Nb (mix_of p) a) = true). apply Rltb_true. rewrite n0_R. auto. }
  rewrite El.
  match type of T with rel _ _ ?x => match goal with |- context [@assoc_site_frac_ab XNum ?y _ _] => change y with x end;
    replace x with (Fin (Delta (mix_of p) t rho a a * rho a)) end.
  2: { symmetry. etransitivity; [exact T | ]. cbv beta. f_equal. exact E. }
  rewrite frac_ab_nan; auto; [ | replace 67108864 with (2 ^ 26) by lra; auto].
  unfold f_assoc. cbn. match goal with |- xmul ?x _ = _ => destruct x end; reflexivity.
Qed.
Definition pr_acceptor : pure_record RNum :=
  @mkPure RNum (named "acceptor") (18.0152) (@mkRec RNum (1.065587) (3.000683) (366.5121)
    None None (Some 0.034867983) (Some 2500.6706) (Some 0) (Some 1) None None None) None.
Definition acceptor : params RNum := from_records_raw [pr_acceptor] (zeros 1).
Lemma acceptor_ok : from_records [pr_acceptor] (zeros 1) = Some acceptor.
Proof. reflexivity. Qed.
Theorem C07_association_refuted :
  exists prs bin p t v moles, Forall phys_record prs /\ from_records prs bin = Some p /\ phys p /\ assoc_phys p /\
    phys_state p t v moles /\ a_assoc (xparams p) (xstate t v moles) = NaN.
Proof.
  exists [pr_acceptor], (zeros 1), acceptor, 350, 100, [1].
  assert (Hph : phys acceptor) by (intros i Hi; cbn in Hi; destruct i as [ | i]; cbn; try lra; lia).
  assert (PS : phys_state acceptor 350 100 [1]).
  { apply phys_state_intro; try lra; auto.
    - intros i Hi. cbn in Hi. destruct i as [ | i]; cbn; try lra; lia.
    - exists 0%nat. cbn. split; [lia | lra].
    - cbn. lra. }
  split; [ | split; [apply acceptor_ok | split; [auto | split; [ | split; auto]]]].
  { constructor; [ | constructor]. unfold phys_record. cbn. repeat split; lra. }
  { intros i Hi. cbn in Hi. destruct i as [ | i]; [cbn; repeat split; lra | lia]. }
  assert (Ea : p_assoc_comp acceptor = [0%nat]).
  { unfold acceptor, from_records_raw, nonzero_comp. cbn. unfold Rltb.
    destruct (Rlt_dec _ _) as [_ | C]; [reflexivity | ]. exfalso. apply C. rewrite Rabs_right; lra. }
  apply (C07_association_nan _ _ _ _ _ _ _ acceptor_ok Hph PS Ea); [reflexivity | cbn; lra | ].
  set (X := mix_of acceptor).
  assert (EM : M X 0 = 1.065587) by reflexivity. assert (ES : Sg X 0 = 3.000683) by reflexivity.
  assert (EE : Ep X 0 = 366.5121) by reflexivity. assert (EK : Kab X 0 = 0.034867983) by reflexivity.
  assert (EB : Eab X 0 = 2500.6706) by reflexivity. assert (EN : N X = 1%nat) by reflexivity.
  unfold Delta, Gij, Kapij, Zeta, Di, Sij. rewrite EN. unfold rsum. cbn [seq fold_right map nth].
  rewrite EM, ES, EE, EK, EB. interval.
Qed.

Print Assumptions C07_parameters.
Print Assumptions C07_residual_warm.
Print Assumptions C07_cross_association.
Print Assumptions C07_quadrupole_refuted.
Print Assumptions C07_association_refuted.
