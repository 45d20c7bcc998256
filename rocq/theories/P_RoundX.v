(** C52: rounding in the iteration for the bonded fractions of several associating components. *)
From Coq Require Import ZArith QArith Reals Lra Lia List Bool Arith.
From Flocq Require Import Core Relative.
From Verif Require Import Num RNum RSum Tables M_Params M_Eos Spec F_Params P_Basic F_MassAction F_MassAction2 F_Newton F_Gauss F_NewtonR F_Cross BNum F_Round F_Round2 F_Round3 P_RoundA P_RoundP P_RoundQ P_Converge P_Assoc2.
Import ListNotations.
Local Open Scope R_scope.
Set Bullet Behavior "Strict Subproofs".
Notation length := List.length.

(* ------------------------------------------------------------------ the equations alone *)

(** A step from a point [X] whose computed residual [G] is small, with the linear system solved
    up to rounding. *)
Section Step.
  Variables (N : nat) (D : nat -> nat -> R) (X : nat -> R).
  Hypothesis HD : forall k l, (k < N)%nat -> (l < N)%nat -> 0 <= D k l.
  Variables (A Bh G : nat -> R) (Hh : nat -> nat -> R) (dx : nat -> R) (s e c tau : R).
  Hypothesis Hs : 0 < s.
  Hypothesis HX : forall k, (k < N)%nat -> s <= X k.
  Hypothesis He : 0 < e.
  Hypothesis Hc : 0 <= c.
  Hypothesis Ht : 0 < tau <= 1 / 5.
  Hypothesis Hes : (c + e) * (/ s + 1 / 2) <= 1 / 10.
  Let B k := 1 + row N D X k.
  Hypothesis HA : forall k, (k < N)%nat -> Rabs (A k - / X k) <= e * / X k.
  Hypothesis HB : forall k, (k < N)%nat -> Rabs (Bh k - B k) <= e * B k.
  Hypothesis HG : forall k, (k < N)%nat -> Rabs (G k - (A k - Bh k)) <= / 100 * Rabs (A k - Bh k).
  Hypothesis Hg : forall k, (k < N)%nat -> Rabs (G k) <= tau.
  Let tau' := 1.6 * tau + 2.8 * e / s.

  Lemma X_pos k : (k < N)%nat -> 0 < X k. Proof. intros Hk. specialize (HX k Hk). lra. Qed.
  Lemma B_1 k : (k < N)%nat -> 1 <= B k.
  Proof. intros Hk. unfold B. pose proof (row_nonneg N D HD X k Hk) as H. assert (0 <= row N D X k); [ | lra]. apply H. intros l Hl. left. apply X_pos; auto. Qed.
  Lemma is_pos : 0 < / s. Proof. apply Rinv_0_lt_compat; auto. Qed.
  Lemma e_small : e <= 1 / 5 /\ c <= 1 / 5 /\ e * / s <= 1 / 10 /\ 0 <= e * / s.
  Proof. pose proof is_pos. assert (0 <= c * / s) by (apply Rmult_le_pos; lra). assert (0 <= e * / s) by (apply Rmult_le_pos; lra). repeat split; lra. Qed.

  Lemma resid_small k : (k < N)%nat -> Rabs (/ X k - B k) <= tau'.
  Proof.
    intros Hk. destruct e_small as (E1 & _ & E2 & E3). pose proof is_pos. pose proof (B_1 k Hk) as B1.
    assert (Ix : 0 < / X k <= / s) by (split; [apply Rinv_0_lt_compat, X_pos; auto | apply Rinv_le_contravar; auto]).
    assert (Ei : e * / X k <= e * / s) by (apply Rmult_le_compat_l; lra).
    assert (Ei0 : 0 <= e * / X k) by (apply Rmult_le_pos; lra).
    pose proof (HA k Hk) as a1. pose proof (HB k Hk) as b1. pose proof (HG k Hk) as g1. pose proof (Hg k Hk) as g2.
    assert (D1 : Rabs (A k - Bh k) <= 1.02 * tau).
    { assert (Rabs (A k - Bh k) <= Rabs (G k) + Rabs (G k - (A k - Bh k))); [ | lra].
      replace (A k - Bh k) with (G k + - (G k - (A k - Bh k))) at 1 by ring. eapply Rle_trans; [apply Rabs_triang | ]. rewrite Rabs_Ropp. lra. }
    apply Rabs_le_inv in a1, b1, D1.
    assert (e * B k <= 1 / 5 * B k) by (apply Rmult_le_compat_r; lra).
    assert (Bu : B k <= 5 / 4 * (/ X k + e * / X k + 1.02 * tau)) by lra.
    assert (Eb : e * B k <= 5 / 4 * (e * / X k + e * (e * / X k) + e * (1.02 * tau))).
    { apply Rle_trans with (e * (5 / 4 * (/ X k + e * / X k + 1.02 * tau))); [apply Rmult_le_compat_l; lra | right; ring]. }
    assert (e * (e * / X k) <= 1 / 5 * (e * / X k)) by (apply Rmult_le_compat_r; lra).
    assert (e * (1.02 * tau) <= 1 / 5 * (1.02 * tau)) by (apply Rmult_le_compat_r; lra).
    unfold tau', Rdiv. apply Rabs_le. split; lra.
  Qed.
  Lemma tau_range : 0 < tau' <= 3 / 5.
  Proof. destruct e_small as (E1 & _ & E2 & E3). unfold tau', Rdiv in *. split; lra. Qed.
  Lemma B_max k : (k < N)%nat -> B k <= / s + tau'.
  Proof.
    intros Hk. pose proof (resid_small k Hk) as H. apply Rabs_le_inv in H. assert (/ X k <= / s) by (apply Rinv_le_contravar; auto). lra.
  Qed.

  (** the matrix, without its sign *)
  Let h k l := (if Nat.eqb k l then B k * / X k else 0) + D k l.
  Hypothesis HH : forall k l, (k < N)%nat -> (l < N)%nat -> Rabs (Hh k l - h k l) <= e * h k l.
  Hypothesis Hlu : forall k, (k < N)%nat ->
    Rabs (- (Sum l < N, Hh k l * dx l) - G k) <= c * ((Sum l < N, Rabs (Hh k l) * Rabs (dx l)) + Rabs (G k)).

  Lemma h_row (z : nat -> R) k : (k < N)%nat -> Sum l < N, h k l * z l = B k * / X k * z k + row N D z k.
  Proof.
    intros Hk. unfold h, row. rewrite (Sum_ext N _ (fun l => (if Nat.eqb k l then B k * / X k else 0) * z l + D k l * z l)) by (intros; ring).
    rewrite rsum_plus. f_equal. rewrite (Sum_single N k); auto.
    - rewrite Nat.eqb_refl. ring.
    - intros l Hl Hn. destruct (Nat.eqb_spec k l) as [-> | _]; [congruence | ring].
  Qed.

  Lemma h_nonneg k l : (k < N)%nat -> (l < N)%nat -> 0 <= h k l.
  Proof.
    intros Hk Hl. unfold h. pose proof (HD k l Hk Hl). pose proof (B_1 k Hk). pose proof (X_pos k Hk) as P. apply Rinv_0_lt_compat in P.
    assert (0 <= B k * / X k) by (apply Rmult_le_pos; lra). destruct (Nat.eqb k l); lra.
  Qed.
  Lemma correction_small k0 : (k0 < N)%nat -> Rabs (dx k0) <= 1.7 * tau * X k0.
  Proof.
    intros Hk0. destruct (exists_max N (fun k => Rabs (dx k) / X k)) as (m & Hm & Mx); [lia | ].
    set (Y := Rabs (dx m) / X m) in *.
    assert (Y0 : 0 <= Y) by (apply Rmult_le_pos; [apply Rabs_pos | left; apply Rinv_0_lt_compat, X_pos; auto]).
    assert (Ml : forall l, (l < N)%nat -> Rabs (dx l) <= Y * X l).
    { intros l Hl. specialize (Mx l Hl). cbv beta in Mx. pose proof (X_pos l Hl) as P. apply Rmult_le_reg_r with (/ X l); [apply Rinv_0_lt_compat; auto | ].
      rewrite Rmult_assoc, Rinv_r by lra. unfold Rdiv in Mx. lra. }
    destruct e_small as (E1 & C1 & E2 & E3). pose proof tau_range as T'. pose proof is_pos as S0.
    assert (CE : c + e <= 1 / 5).
    { assert (0 <= (c + e) * / s) by (apply Rmult_le_pos; lra). lra. }
    assert (Hb : forall k, (k < N)%nat -> Rabs (Sum l < N, h k l * dx l) <= 1.2 * tau + 0.288 * Y).
    { intros k Hk. pose proof (Hlu k Hk) as Rl. pose proof (Hg k Hk) as Gk. set (Z := Sum l < N, h k l * Rabs (dx l)).
      assert (Z1 : Z <= 2 * Y * B k).
      { unfold Z. rewrite (h_row (fun l => Rabs (dx l)) k Hk).
        assert (row N D (fun l => Rabs (dx l)) k <= Y * row N D X k) by (rewrite <- row_scal; apply (row_le N D HD); auto).
        assert (B k * / X k * Rabs (dx k) <= B k * Y).
        { pose proof (X_pos k Hk) as P. replace (B k * / X k * Rabs (dx k)) with (B k * (/ X k * Rabs (dx k))) by ring. apply Rmult_le_compat_l; [pose proof (B_1 k Hk); lra | ].
          apply Rmult_le_reg_l with (X k); auto. rewrite <- Rmult_assoc, Rinv_r by lra. specialize (Ml k Hk). lra. }
        unfold B in *. lra. }
      assert (Z0 : 0 <= Z) by (apply rsum_nonneg; intros l Hl; apply seq_in in Hl; apply Rmult_le_pos; [apply h_nonneg; auto | apply Rabs_pos]).
      assert (H1 : Sum l < N, Rabs (Hh k l) * Rabs (dx l) <= (1 + e) * Z).
      { unfold Z. rewrite <- rsum_scal. apply rsum_le. intros l Hl. apply seq_in in Hl. rewrite <- Rmult_assoc. apply Rmult_le_compat_r; [apply Rabs_pos | ].
        pose proof (HH k l Hk Hl) as Q. pose proof (h_nonneg k l Hk Hl). apply Rabs_le_inv in Q. apply Rabs_le. split; [ | lra].
        assert (e * h k l <= 1 / 5 * h k l) by (apply Rmult_le_compat_r; lra). lra. }
      assert (H2 : Rabs ((Sum l < N, Hh k l * dx l) - Sum l < N, h k l * dx l) <= e * Z).
      { rewrite <- rsum_minus. eapply Rle_trans; [apply rsum_abs | ]. unfold Z. rewrite <- rsum_scal. apply rsum_le. intros l Hl. apply seq_in in Hl.
        replace (Hh k l * dx l - h k l * dx l) with ((Hh k l - h k l) * dx l) by ring. rewrite Rabs_mult, <- Rmult_assoc. apply Rmult_le_compat_r; [apply Rabs_pos | auto]. }
      assert (H3 : c * ((Sum l < N, Rabs (Hh k l) * Rabs (dx l)) + Rabs (G k)) <= c * ((1 + e) * Z + tau)) by (apply Rmult_le_compat_l; lra).
      assert (Hf : Rabs (Sum l < N, h k l * dx l) <= tau + c * ((1 + e) * Z + tau) + e * Z).
      { set (P := Sum l < N, Hh k l * dx l) in *. set (Q := Sum l < N, h k l * dx l) in *.
        apply Rabs_le_inv in Rl, H2, Gk. apply Rabs_le. split; lra. }
      assert (Hce : (c * (1 + e) + e) * Z <= 1.2 * (c + e) * (2 * Y * (/ s + 3 / 5))).
      { apply Rmult_le_compat; [ | auto | | ].
        - assert (0 <= c * (1 + e)) by (apply Rmult_le_pos; lra). lra.
        - assert (c * (1 + e) <= c * 1.2) by (apply Rmult_le_compat_l; lra). lra.
        - eapply Rle_trans; [exact Z1 | ]. apply Rmult_le_compat_l; [lra | ]. pose proof (B_max k Hk). lra. }
      assert (Hy : 1.2 * (c + e) * (2 * Y * (/ s + 3 / 5)) <= 0.288 * Y).
      { replace (1.2 * (c + e) * (2 * Y * (/ s + 3 / 5))) with (2.4 * ((c + e) * (/ s + 1 / 2) + 1 / 10 * (c + e)) * Y) by lra. apply Rmult_le_compat_r; lra. }
      assert (c * tau <= 1 / 5 * tau) by (apply Rmult_le_compat_r; lra).
      replace (tau + c * ((1 + e) * Z + tau) + e * Z) with (tau + c * tau + (c * (1 + e) + e) * Z) in Hf by ring. lra. }
    assert (LB : forall k, (k < N)%nat -> Rabs (dx k) <= (1.2 * tau + 0.288 * Y) * X k).
    { apply (linear_bound N D HD X dx (fun k => Sum l < N, h k l * dx l)); [lra | exact X_pos | | exact Hb].
      intros k Hk. rewrite (h_row dx k Hk). unfold B. pose proof (X_pos k Hk). field. lra. }
    assert (Ym : Y <= 1.2 * tau + 0.288 * Y).
    { pose proof (LB m Hm) as Q. pose proof (X_pos m Hm) as P. unfold Y at 1. apply Rmult_le_reg_r with (X m); auto. unfold Rdiv. rewrite Rmult_assoc, Rinv_l by lra. lra. }
    eapply Rle_trans; [apply Ml; auto | ]. apply Rmult_le_compat_r; [left; apply X_pos; auto | lra].
  Qed.

  (** the corrected point and the exact solution [y] *)
  Variables (X' y : nat -> R).
  Hypothesis HX' : forall k, (k < N)%nat -> Rabs (X' k - (X k - dx k)) <= e / 10 * Rabs (X k - dx k).
  Hypothesis Hy : solves N D y.
  (** Quadratic convergence of the step: only rounding is left of a small residual. *)
  Hypothesis HG2 : forall k, (k < N)%nat -> Rabs (G k - (A k - Bh k)) <= e * Rabs (A k - Bh k).
  Lemma X_le k : (k < N)%nat -> X k <= 2.5 /\ X k * B k <= 2.5.
  Proof.
    intros Hk. pose proof (resid_small k Hk) as H. pose proof (B_1 k Hk) as B1. pose proof (X_pos k Hk) as Px. pose proof tau_range as T'. apply Rabs_le_inv in H.
    assert (I : 0.4 <= / X k) by lra. assert (X1 : X k <= 2.5). { rewrite <- (Rinv_inv (X k)). replace 2.5 with (/ 0.4) by lra. apply Rinv_le_contravar; lra. }
    split; auto. assert (X k * B k <= X k * (/ X k + 3 / 5)) by (apply Rmult_le_compat_l; lra). rewrite Rmult_plus_distr_l, Rinv_r in H0 by lra. lra.
  Qed.
  Lemma ce_small k : (k < N)%nat -> c + e <= 0.112.
  Proof.
    intros Hk. destruct (X_le k Hk) as [X1 _]. pose proof (HX k Hk). assert (0.4 <= / s) by (replace 0.4 with (/ 2.5) by lra; apply Rinv_le_contravar; lra).
    assert ((c + e) * 0.9 <= (c + e) * (/ s + 1 / 2)) by (apply Rmult_le_compat_l; lra). lra.
  Qed.
  (** error of the linearised equations at the computed step *)
  Lemma linear_error k : (k < N)%nat -> X k * Rabs (/ X k - B k + Sum l < N, h k l * dx l) <= 12.7 * c * tau + 5.8 * e.
  Proof.
    intros Hk. destruct (X_le k Hk) as [X1 XB]. pose proof (ce_small k Hk) as CE. pose proof (X_pos k Hk) as Px. pose proof (B_1 k Hk) as B1.
    destruct e_small as (E1 & C1 & _ & _). pose proof (Hlu k Hk) as Rl. pose proof (Hg k Hk) as Gk. set (Z := Sum l < N, h k l * Rabs (dx l)).
    assert (Z1 : X k * Z <= 8.5 * tau).
    { apply Rle_trans with (X k * (3.4 * tau * B k)).
      - apply Rmult_le_compat_l; [lra | ]. unfold Z. rewrite (h_row (fun l => Rabs (dx l)) k Hk).
        assert (row N D (fun l => Rabs (dx l)) k <= 1.7 * tau * row N D X k) by (rewrite <- row_scal; apply (row_le N D HD); auto; exact correction_small).
        assert (B k * / X k * Rabs (dx k) <= B k * (1.7 * tau)).
        { replace (B k * / X k * Rabs (dx k)) with (B k * (/ X k * Rabs (dx k))) by ring. apply Rmult_le_compat_l; [lra | ].
          apply Rmult_le_reg_l with (X k); auto. rewrite <- Rmult_assoc, Rinv_r by lra. pose proof (correction_small k Hk). lra. }
        unfold B in *. lra.
      - replace (X k * (3.4 * tau * B k)) with (3.4 * tau * (X k * B k)) by ring. apply Rle_trans with (3.4 * tau * 2.5); [apply Rmult_le_compat_l; lra | lra]. }
    assert (Z0 : 0 <= Z) by (apply rsum_nonneg; intros l Hl; apply seq_in in Hl; apply Rmult_le_pos; [apply h_nonneg; auto | apply Rabs_pos]).
    assert (H1 : Sum l < N, Rabs (Hh k l) * Rabs (dx l) <= (1 + e) * Z).
    { unfold Z. rewrite <- rsum_scal. apply rsum_le. intros l Hl. apply seq_in in Hl. rewrite <- Rmult_assoc. apply Rmult_le_compat_r; [apply Rabs_pos | ].
      pose proof (HH k l Hk Hl) as Q. pose proof (h_nonneg k l Hk Hl). apply Rabs_le_inv in Q. apply Rabs_le. split; [ | lra].
      assert (e * h k l <= 1 / 5 * h k l) by (apply Rmult_le_compat_r; lra). lra. }
    assert (H2 : Rabs ((Sum l < N, Hh k l * dx l) - Sum l < N, h k l * dx l) <= e * Z).
    { rewrite <- rsum_minus. eapply Rle_trans; [apply rsum_abs | ]. unfold Z. rewrite <- rsum_scal. apply rsum_le. intros l Hl. apply seq_in in Hl.
      replace (Hh k l * dx l - h k l * dx l) with ((Hh k l - h k l) * dx l) by ring. rewrite Rabs_mult, <- Rmult_assoc. apply Rmult_le_compat_r; [apply Rabs_pos | auto]. }
    assert (H3 : c * ((Sum l < N, Rabs (Hh k l) * Rabs (dx l)) + Rabs (G k)) <= c * ((1 + e) * Z + tau)) by (apply Rmult_le_compat_l; lra).
    pose proof (HA k Hk) as a1. pose proof (HB k Hk) as b1. pose proof (HG k Hk) as g1. pose proof (HG2 k Hk) as g2.
    assert (D1 : Rabs (A k - Bh k) <= 1.02 * tau).
    { assert (Rabs (A k - Bh k) <= Rabs (G k) + Rabs (G k - (A k - Bh k))); [ | lra].
      replace (A k - Bh k) with (G k + - (G k - (A k - Bh k))) at 1 by ring. eapply Rle_trans; [apply Rabs_triang | ]. rewrite Rabs_Ropp. lra. }
    assert (D2 : e * Rabs (A k - Bh k) <= e * (1.02 * tau)) by (apply Rmult_le_compat_l; lra).
    assert (M : Rabs (/ X k - B k + Sum l < N, h k l * dx l) <= e * Z + c * ((1 + e) * Z + tau) + (e * (1.02 * tau) + e * / X k + e * B k)).
    { set (P := Sum l < N, Hh k l * dx l) in *. set (Q := Sum l < N, h k l * dx l) in *. apply Rabs_le_inv in Rl, H2, a1, b1, g2. apply Rabs_le. split; lra. }
    apply Rle_trans with (X k * (e * Z + c * ((1 + e) * Z + tau) + (e * (1.02 * tau) + e * / X k + e * B k))); [apply Rmult_le_compat_l; lra | ].
    replace (X k * (e * Z + c * ((1 + e) * Z + tau) + (e * (1.02 * tau) + e * / X k + e * B k)))
      with (e * (X k * Z) + c * (1 + e) * (X k * Z) + c * tau * X k + e * (1.02 * tau) * X k + e * (X k * / X k) + e * (X k * B k)) by ring. rewrite Rinv_r by lra.
    assert (XZ : 0 <= X k * Z) by (apply Rmult_le_pos; lra).
    assert (T1 : e * (X k * Z) <= e * 1.7) by (apply Rmult_le_compat_l; lra).
    assert (T2 : c * (1 + e) * (X k * Z) <= c * 1.2 * (8.5 * tau)) by (apply Rmult_le_compat; auto; [apply Rmult_le_pos; lra | apply Rmult_le_compat_l; lra]).
    assert (T3 : c * tau * X k <= c * tau * 2.5) by (apply Rmult_le_compat_l; [apply Rmult_le_pos; lra | auto]).
    assert (T4 : e * (1.02 * tau) * X k <= e * 0.204 * 2.5) by (apply Rmult_le_compat; try lra; [apply Rmult_le_pos; lra | apply Rmult_le_compat_l; lra]).
    assert (T5 : e * (X k * B k) <= e * 2.5) by (apply Rmult_le_compat_l; lra). lra.
  Qed.
  Lemma new_residual k : (k < N)%nat ->
    Rabs ((X k - dx k) * (1 + row N D (fun l => X l - dx l) k) - 1) <= 7.3 * tau ^ 2 + 12.7 * c * tau + 5.8 * e.
  Proof.
    intros Hk. destruct (X_le k Hk) as [_ XB]. pose proof (X_pos k Hk) as Px. pose proof (B_1 k Hk) as B1. pose proof (linear_error k Hk) as LE.
    rewrite (h_row dx k Hk) in LE. assert (Er : row N D (fun l => X l - dx l) k = row N D X k - row N D dx k).
    { unfold row. rewrite <- rsum_minus. apply Sum_ext. intros; ring. }
    rewrite Er. replace ((X k - dx k) * (1 + (row N D X k - row N D dx k)) - 1) with (- (X k * (/ X k - B k + (B k * / X k * dx k + row N D dx k))) + dx k * row N D dx k) by (unfold B; field; lra).
    eapply Rle_trans; [apply Rabs_triang | ]. rewrite Rabs_Ropp, Rabs_mult, (Rabs_pos_eq (X k)) by lra.
    assert (Q : Rabs (dx k * row N D dx k) <= 7.3 * tau ^ 2); [ | lra].
    rewrite Rabs_mult. assert (R1 : Rabs (row N D dx k) <= 1.7 * tau * B k).
    { unfold row. eapply Rle_trans; [apply rsum_abs | ]. apply Rle_trans with (row N D (fun l => 1.7 * tau * X l) k).
      - unfold row. apply rsum_le. intros l Hl. apply seq_in in Hl. rewrite Rabs_mult, (Rabs_pos_eq (D k l)) by auto. apply Rmult_le_compat_l; auto. apply correction_small; auto.
      - rewrite row_scal. apply Rmult_le_compat_l; [lra | ]. unfold B. lra. }
    apply Rle_trans with (1.7 * tau * X k * (1.7 * tau * B k)); [apply Rmult_le_compat; try apply Rabs_pos; auto; apply correction_small; auto | ].
    replace (1.7 * tau * X k * (1.7 * tau * B k)) with (2.89 * tau ^ 2 * (X k * B k)) by lra. assert (0 <= tau ^ 2) by apply pow2_ge_0. apply Rle_trans with (2.89 * tau ^ 2 * 2.5); [apply Rmult_le_compat_l; lra | lra].
  Qed.
  Let theta2 := (11.3 * tau ^ 2 + 19.6 * c * tau + 9.6 * e) / s.
  Theorem step_rounded2 : theta2 < 1 -> forall k, (k < N)%nat -> 0 < X' k /\ X' k <= / (1 - theta2) * y k /\ y k <= / (1 - theta2) * X' k.
  Proof.
    intros Th. destruct e_small as (E1 & C1 & _ & _). pose proof is_pos as S0. set (b := e / 10) in *.
    assert (T2 : 0 <= tau ^ 2 <= 0.04) by (split; [apply pow2_ge_0 | replace 0.04 with ((1 / 5) ^ 2) by lra; apply pow_incr; lra]).
    assert (CT : 0 <= c * tau <= 1 / 5 * c) by (split; [apply Rmult_le_pos; lra | rewrite (Rmult_comm c); apply Rmult_le_compat_r; lra]).
    assert (W : forall k, (k < N)%nat -> 0.66 * X k <= X k - dx k).
    { intros k Hk. pose proof (correction_small k Hk) as Cs. pose proof (X_pos k Hk). apply Rabs_le_inv in Cs. assert (1.7 * tau * X k <= 0.34 * X k) by (apply Rmult_le_compat_r; lra). lra. }
    assert (R : forall k, (k < N)%nat -> (1 - b) * (X k - dx k) <= X' k <= (1 + b) * (X k - dx k)).
    { intros k Hk. pose proof (HX' k Hk) as R. pose proof (W k Hk). pose proof (X_pos k Hk). rewrite (Rabs_pos_eq (X k - dx k)) in R by lra. apply Rabs_le_inv in R. lra. }
    assert (Lo : forall k, (k < N)%nat -> 0.65 * s <= X' k /\ 0 < X' k).
    { intros k Hk. pose proof (ce_small k Hk). destruct (R k Hk) as [R1 _]. pose proof (W k Hk). pose proof (HX k Hk). pose proof (X_pos k Hk).
      assert ((1 - 0.0112) * (0.66 * X k) <= (1 - b) * (X k - dx k)) by (apply Rmult_le_compat; unfold b; lra). lra. }
    assert (T0 : 0 <= theta2) by (unfold theta2; apply Rmult_le_pos; lra).
    assert (Rs : forall k, (k < N)%nat -> Rabs (/ X' k - (1 + row N D X' k)) <= theta2).
    { intros k Hk. pose proof (ce_small k Hk) as CE. destruct (R k Hk) as [R1 R2]. destruct (Lo k Hk) as [L1 L2]. pose proof (new_residual k Hk) as NR.
      pose proof (W k Hk) as Wk. pose proof (X_pos k Hk) as Px. set (w := X k - dx k) in *. set (g := 1 + row N D (fun l => X l - dx l) k) in *. set (g' := 1 + row N D X' k).
      assert (Hb : 0 <= b <= 0.0112) by (unfold b; lra).
      assert (G1 : (1 - b) * g <= g' <= (1 + b) * g).
      { assert (G2 : (1 - b) * row N D (fun l => X l - dx l) k <= row N D X' k <= (1 + b) * row N D (fun l => X l - dx l) k).
        { rewrite <- !row_scal. split; apply (row_le N D HD); auto; intros l Hl; apply R; auto. }
        unfold g, g'. lra. }
      assert (G0 : 1 <= g). { unfold g. assert (0 <= row N D (fun l => X l - dx l) k); [ | lra]. apply row_nonneg; auto. intros l Hl. pose proof (W l Hl). pose proof (X_pos l Hl). lra. }
      clearbody w g g'. set (rho0 := 7.3 * tau ^ 2 + 12.7 * c * tau + 5.8 * e) in *. assert (Rh : rho0 <= 0.95) by (unfold rho0; lra). apply Rabs_le_inv in NR.
      assert (P1 : (1 - b) * w * ((1 - b) * g) <= X' k * g') by (apply Rmult_le_compat; try lra; apply Rmult_le_pos; lra).
      assert (P2 : X' k * g' <= (1 + b) * w * ((1 + b) * g)). { apply Rmult_le_compat; try lra. assert (0 <= (1 - b) * g) by (apply Rmult_le_pos; lra). lra. }
      replace ((1 - b) * w * ((1 - b) * g)) with (w * g - (2 * b - b * b) * (w * g)) in P1 by ring. replace ((1 + b) * w * ((1 + b) * g)) with (w * g + (2 * b + b * b) * (w * g)) in P2 by ring.
      assert (Pw : 0 < w * g) by (apply Rmult_lt_0_compat; lra). assert (B2 : 0 <= b * b <= 0.0112 * b) by (split; [apply Rmult_le_pos; lra | apply Rmult_le_compat_r; lra]).
      assert (P3 : (2 * b + b * b) * (w * g) <= (2.0112 * b) * 1.95) by (apply Rmult_le_compat; lra).
      assert (P4 : (2 * b - b * b) * (w * g) <= (2.0112 * b) * 1.95) by (apply Rmult_le_compat; lra).
      assert (Q : Rabs (1 - X' k * g') <= rho0 + 0.4 * e) by (apply Rabs_le; unfold b in *; split; lra).
      replace (/ X' k - g') with ((1 - X' k * g') * / X' k) by (field; lra). rewrite Rabs_mult, (Rabs_pos_eq (/ X' k)) by (left; apply Rinv_0_lt_compat; auto).
      assert (I : / X' k <= 1.54 * / s). { apply Rle_trans with (/ (0.65 * s)); [apply Rinv_le_contravar; lra | ]. rewrite Rinv_mult by lra. apply Rmult_le_compat_r; lra. }
      apply Rle_trans with ((rho0 + 0.4 * e) * (1.54 * / s)); [apply Rmult_le_compat; auto; [apply Rabs_pos | left; apply Rinv_0_lt_compat; auto] | ].
      unfold theta2, Rdiv. replace ((rho0 + 0.4 * e) * (1.54 * / s)) with (1.54 * (rho0 + 0.4 * e) * / s) by ring. apply Rmult_le_compat_r; [lra | ]. unfold rho0. lra. }
    intros k Hk. split; [apply Lo; auto | ]. apply (residual_accuracy N D HD X' y theta2); auto. intros l Hl. apply Lo; auto.
  Qed.
End Step.

(* ----------------------------------------------------------------------------- the code *)

Lemma n0b L : @n0 (BNum L) = 0. Proof. unfold n0. apply (litZ L 0). cbn; lia. Qed.
Lemma n1b L : @n1 (BNum L) = 1. Proof. unfold n1. apply (litZ L 1). cbn; lia. Qed.
Lemma ix_b L (l : list R) i : @ix (BNum L) l i = nth i l 0. Proof. unfold ix. rewrite n0b. reflexivity. Qed.
Lemma ix2_b L (l : list (list R)) i j : @ix2 (BNum L) l i j = nth j (nth i l nil) 0. Proof. unfold ix2. rewrite n0b. reflexivity. Qed.
Lemma ix_r (l : list R) i : @ix RNum l i = nth i l 0. Proof. reflexivity. Qed.
Lemma ix2_r (l : list (list R)) i j : @ix2 RNum l i j = nth j (nth i l nil) 0. Proof. reflexivity. Qed.
Lemma nth_skipn (l : list R) m i : nth i (skipn m l) 0 = nth (m + i) l 0.
Proof. revert l. induction m as [ | m IH]; intros [ | a l]; cbn; auto. destruct i; auto. Qed.
Lemma nth_firstn (l : list R) m i : (i < m)%nat -> nth i (firstn m l) 0 = nth i l 0.
Proof. revert m i. induction l as [ | a l IH]; intros [ | m] [ | i] H; try lia; auto. cbn. apply IH. lia. Qed.

(** units of roundoff of one evaluation of the mass-action equations, as relative error *)
Definition eqn_error (n : nat) : R := 2 * INR (n + 5) * u.
Lemma rp_eqn n k x y : INR (n + 5) * u <= / 2 -> (k <= n + 5)%nat -> 0 <= y -> rp k x y -> Rabs (x - y) <= eqn_error n * y.
Proof.
  intros Hn Hk Hy H. apply (rp_weaken k (n + 5)) in H; auto. apply rp_acc in H; auto. destruct H as (d & Hd & ->).
  replace (y * (1 + d) - y) with (d * y) by ring. rewrite Rabs_mult, (Rabs_pos_eq y) by auto. apply Rmult_le_compat_r; auto. eapply Rle_trans; [exact Hd | ].
  unfold eqn_error. pose proof u_pos. assert (0 <= INR (n + 5) * u) by (apply Rmult_le_pos; [apply pos_INR | lra]). set (z := INR (n + 5) * u) in *. 
  replace (2 * INR (n + 5) * u) with (2 * z) by (unfold z; ring). replace (z * (1 + 2 * z)) with (z + 2 * (z * z)) by ring. assert (z * z <= / 2 * z) by (apply Rmult_le_compat_r; lra). lra.
Qed.

Section Code.
  Variables (L : libm) (n : nat) (delta : list (list R)) (na nb rho : list R).
  Hypothesis Cd : forall i j, (i < n)%nat -> (j < n)%nat -> 0 <= nth j (nth i delta nil) 0.
  Hypothesis Cn : forall j, (j < n)%nat -> 0 <= nth j na 0 /\ 0 <= nth j nb 0 /\ 0 <= nth j rho 0.
  Let D := Dm n delta na nb rho.
  Variable x : list R.
  Hypothesis Lx : length x = (n + n)%nat.
  Hypothesis Px : forall k, (k < n + n)%nat -> 0 < nth k x 0.
  Let V k := nth k x 0.

  Lemma dnx_rp nn xx i : (i < n)%nat -> (forall j, (j < n)%nat -> 0 <= nth j nn 0 /\ 0 <= nth j xx 0) ->
    rp (n + 4) (@ca_dnx (BNum L) n delta rho nn xx i) (@ca_dnx RNum n delta rho nn xx i).
  Proof.
    intros Hi H. unfold ca_dnx. rewrite nsumi_R. rewrite (litZ L 1) by (cbn; lia). replace (@nlit RNum (1 # 1)) with 1 by (rn; lra). cbn [nadd BNum RNum].
    replace (n + 4)%nat with (S (3 + n)) by lia. apply rp_rnd. apply rp_add; [ | lra | | apply rp_weaken with 0%nat; [lia | apply rp_refl]].
    - apply rsum_nonneg. intros j Hj. apply seq_in in Hj. rewrite !ix_r, ix2_r. destruct (H j Hj). destruct (Cn j Hj) as (_ & _ & C). pose proof (Cd i j Hi Hj). cbn [nmul RNum]. repeat apply Rmult_le_pos; auto.
    - apply nsumi_rp. intros j Hj. rewrite !ix_b, ix2_b. rewrite !ix_r, ix2_r. destruct (H j Hj) as [A B]. destruct (Cn j Hj) as (_ & _ & C). pose proof (Cd i j Hi Hj). cbn [nmul RNum BNum]. split.
      + apply (rp_rnd 2), (rp_mul 1 1); apply (rp_rnd 0), rp_refl.
      + repeat apply Rmult_le_pos; auto.
  Qed.
  Lemma row_b (k : nat) : (k < n + n)%nat -> 0 <= 1 + row (n + n) D V k.
  Proof.
    intros Hk. assert (0 <= row (n + n) D V k); [ | lra]. apply row_nonneg; auto.
    - apply Dm_nonneg; [intros i j Hi Hj; rewrite ix2_r; auto | auto].
    - intros l Hl. left. apply Px; auto.
  Qed.
  Lemma exact_a k : (k < n)%nat -> @ca_dnx RNum n delta rho nb (skipn n x) k = 1 + row (n + n) D V k.
  Proof. intros Hk. etransitivity; [exact (ca_dnx_a RNum_ring n delta na nb rho x k Hk) | ]. rewrite ca_row_R. reflexivity. Qed.
  Lemma exact_b k : (n <= k)%nat -> @ca_dnx RNum n delta rho na (firstn n x) (k - n) = 1 + row (n + n) D V k.
  Proof. intros Hk. etransitivity; [exact (ca_dnx_b RNum_ring n delta na nb rho x k Hk) | ]. rewrite ca_row_R. reflexivity. Qed.

  Definition Bhat k : R := if Nat.ltb k n then @ca_dnx (BNum L) n delta rho nb (skipn n x) k else @ca_dnx (BNum L) n delta rho na (firstn n x) (k - n).
  Lemma grad_k k : (k < n + n)%nat -> nth k (@ca_grad (BNum L) n delta na nb rho x) 0 = rnd (rnd (/ V k) - Bhat k) /\ rp (n + 4) (Bhat k) (1 + row (n + n) D V k).
  Proof.
    intros Hk. unfold ca_grad, Bhat. destruct (Nat.ltb_spec k n) as [H | H].
    - split.
      + rewrite app_nth1 by (rewrite mk1_length; auto). rewrite <- (ix_b L). rewrite ix_mk1 by auto. rewrite ix_b, nth_firstn by auto. reflexivity.
      + rewrite <- exact_a by auto. apply dnx_rp; auto. intros j Hj. destruct (Cn j Hj) as (_ & B & _). split; auto. rewrite nth_skipn. left. apply Px. lia.
    - split.
      + rewrite app_nth2, mk1_length by (rewrite mk1_length; auto). rewrite <- (ix_b L). rewrite ix_mk1 by lia. rewrite ix_b, nth_skipn. replace (n + (k - n))%nat with k by lia. reflexivity.
      + rewrite <- exact_b by auto. apply dnx_rp; [lia | ]. intros j Hj. destruct (Cn j Hj) as (A & _). split; auto. rewrite nth_firstn by auto. left. apply Px. lia.
  Qed.

  Let h k l := (if Nat.eqb k l then (1 + row (n + n) D V k) * / V k else 0) + D k l.
  Lemma hess_k k l : (k < n + n)%nat -> (l < n + n)%nat -> exists Hh, nth l (nth k (@ca_hess (BNum L) n delta na nb rho x) nil) 0 = - Hh /\ rp (n + 5) Hh (h k l).
  Proof.
    intros Hk Hl. unfold ca_hess, h, D, Dm, ca_D. rewrite !ix_r, !ix2_r. replace (@n0 RNum) with 0 by (rn; lra). fold D.
    destruct (Nat.lt_ge_cases k n) as [H | H].
    - rewrite app_nth1, nth_mk1 by (rewrite ?mk1_length; auto). rewrite (proj2 (Nat.ltb_lt k n)) by auto.
      destruct (Nat.lt_ge_cases l n) as [H' | H'].
      + rewrite app_nth1, nth_mk1 by (rewrite ?mk1_length; auto). rewrite (proj2 (Nat.ltb_lt l n)) by auto.
        destruct (Nat.eqb k l).
        * exists (rnd (@ca_dnx (BNum L) n delta rho nb (skipn n x) k / V k)). split.
          -- rewrite ix_b, nth_firstn by auto. cbn [nopp ndiv BNum]. rewrite <- rnd_opp. apply (f_equal rnd). unfold Rdiv, V. symmetry. apply Ropp_mult_distr_l.
          -- rewrite Rplus_0_r. replace (n + 5)%nat with (S (n + 4 + 0)) by lia. unfold Rdiv. apply rp_rnd, rp_mul; [ | apply rp_refl]. rewrite <- exact_a by auto. apply dnx_rp; auto.
             intros j Hj. destruct (Cn j Hj) as (_ & B & _). split; auto. rewrite nth_skipn. left. apply Px. lia.
        * exists 0. rewrite n0b. split; [symmetry; apply Ropp_0 | ]. rewrite Rplus_0_r. apply rp_weaken with 0%nat; [lia | apply rp_refl].
      + rewrite app_nth2, mk1_length, nth_mk1 by (rewrite ?mk1_length; auto; lia). rewrite (proj2 (Nat.ltb_ge l n)) by auto.
        destruct (Nat.eqb_spec k l); [lia | ]. rewrite !ix_b, ix2_b.
        exists (rnd (rnd (nth (l - n) (nth k delta nil) 0 * nth (l - n) rho 0) * nth (l - n) nb 0)). split.
        * cbn [nopp nmul BNum]. rewrite <- rnd_opp. apply (f_equal rnd). symmetry. apply Ropp_mult_distr_r.
        * rewrite Rplus_0_l. apply rp_weaken with 2%nat; [lia | ]. apply (rp_rnd 1), (rp_mul 1 0); [apply (rp_rnd 0), rp_refl | apply rp_refl].
    - rewrite app_nth2, mk1_length, nth_mk1 by (rewrite ?mk1_length; auto; lia). rewrite (proj2 (Nat.ltb_ge k n)) by auto.
      destruct (Nat.lt_ge_cases l n) as [H' | H'].
      + rewrite app_nth1, nth_mk1 by (rewrite ?mk1_length; auto). rewrite (proj2 (Nat.ltb_lt l n)) by auto.
        destruct (Nat.eqb_spec k l); [lia | ]. rewrite !ix_b, ix2_b.
        exists (rnd (rnd (nth l (nth (k - n) delta nil) 0 * nth l rho 0) * nth l na 0)). split.
        * cbn [nopp nmul BNum]. rewrite <- rnd_opp. apply (f_equal rnd). symmetry. apply Ropp_mult_distr_r.
        * rewrite Rplus_0_l. apply rp_weaken with 2%nat; [lia | ]. apply (rp_rnd 1), (rp_mul 1 0); [apply (rp_rnd 0), rp_refl | apply rp_refl].
      + rewrite app_nth2, mk1_length, nth_mk1 by (rewrite ?mk1_length; auto; lia). rewrite (proj2 (Nat.ltb_ge l n)) by auto.
        assert (E : Nat.eqb (k - n) (l - n) = Nat.eqb k l) by (destruct (Nat.eqb_spec (k - n) (l - n)), (Nat.eqb_spec k l); auto; lia). rewrite E.
        destruct (Nat.eqb k l).
        * exists (rnd (@ca_dnx (BNum L) n delta rho na (firstn n x) (k - n) / V k)). split.
          -- rewrite ix_b, nth_skipn. replace (n + (k - n))%nat with k by lia. cbn [nopp ndiv BNum]. rewrite <- rnd_opp. apply (f_equal rnd). unfold Rdiv, V. symmetry. apply Ropp_mult_distr_l.
          -- rewrite Rplus_0_r. replace (n + 5)%nat with (S (n + 4 + 0)) by lia. unfold Rdiv. apply rp_rnd, rp_mul; [ | apply rp_refl]. rewrite <- exact_b by auto. apply dnx_rp; [lia | ].
             intros j Hj. destruct (Cn j Hj) as (A & _). split; auto. rewrite nth_firstn by auto. left. apply Px. lia.
        * exists 0. rewrite n0b. split; [symmetry; apply Ropp_0 | ]. rewrite Rplus_0_r. apply rp_weaken with 0%nat; [lia | apply rp_refl].
  Qed.
End Code.

(** A linear solver in f64 with row-wise small backward error: the residual of every row is at most
    [c] times the sum of the magnitudes of its terms. *)
Definition lu_stable (c : R) (lu : list (list R) -> list R -> option (list R)) : Prop :=
  forall N (h : list (list R)) (g dx : list R), square N h -> length g = N -> lu h g = Some dx ->
  length dx = N /\ forall k, (k < N)%nat ->
    Rabs ((Sum l < N, nth l (nth k h nil) 0 * nth l dx 0) - nth k g 0)
    <= c * ((Sum l < N, Rabs (nth l (nth k h nil) 0) * Rabs (nth l dx 0)) + Rabs (nth k g 0)).

Lemma norm_b L (g : list R) k : INR (length g) <= 10 ^ 7 -> (k < length g)%nat -> Rabs (nth k g 0) <= 1.01 * @norm (BNum L) (map (@nre (BNum L)) g).
Proof.
  intros Lg Hk. replace (map (@nre (BNum L)) g) with g by (symmetry; apply map_id). unfold norm. rewrite nsum_bsum. cbn [nmul nsqrt BNum].
  assert (S0 : 0 <= rsum g (fun x => x * x)) by (apply rsum_nonneg; intros; apply Rle_0_sqr).
  assert (H : rp (1 + length g) (bsum (map (fun x => rnd (x * x)) g) 0) (0 + rsum g (fun x => x * x))).
  { apply (bsum_rp (fun x => rnd (x * x)) (fun x => x * x) 1); [ | lia | lra | apply rp_weaken with 0%nat; [lia | apply rp_refl]]. intros x _. split; [apply (rp_rnd 0), rp_refl | apply Rle_0_sqr]. }
  rewrite Rplus_0_l in H. apply rp_sqrt in H; auto. apply rp_rnd in H. destruct H as (q & [Q1 _] & E). 
  set (w := rnd _) in *. 
  assert (A : Rabs (nth k g 0) <= sqrt (rsum g (fun x => x * x))).
  { rewrite <- sqrt_Rsqr_abs. apply sqrt_le_1_alt. apply (rsum_le_one g (fun x => x * x)); [intros; apply Rle_0_sqr | apply nth_In; auto]. }
  pose proof (o_pow_lower (S (1 + length g))) as O. assert (I : INR (S (1 + length g)) * u <= / 200).
  { apply Rle_trans with ((10 ^ 7 + 2) * / 10 ^ 15); [ | lra]. apply Rmult_le_compat; [apply pos_INR | left; apply u_pos | | apply u_small].
    rewrite !S_INR. simpl (1 + _)%nat. rewrite ?S_INR. lra. }
  assert (0 <= sqrt (rsum g (fun x => x * x))) by apply sqrt_pos. rewrite E. eapply Rle_trans; [exact A | ].
  assert (1 <= 1.01 * q) by lra. replace (1.01 * (sqrt (rsum g (fun x => x * x)) * q)) with (sqrt (rsum g (fun x => x * x)) * (1.01 * q)) by ring.
  rewrite <- (Rmult_1_r (sqrt (rsum g (fun x => x * x)))) at 1. apply Rmult_le_compat_l; lra.
Qed.

Section StepCode.
  Variables (L : libm) (n : nat) (delta : list (list R)) (na nb rho : list R).
  Hypothesis Cd : forall i j, (i < n)%nat -> (j < n)%nat -> 0 <= nth j (nth i delta nil) 0.
  Hypothesis Cn : forall j, (j < n)%nat -> 0 <= nth j na 0 /\ 0 <= nth j nb 0 /\ 0 <= nth j rho 0.
  Variables (lu : list (list R) -> list R -> option (list R)) (c tol s : R).
  Hypothesis Hlu : lu_stable c lu.
  Hypothesis Hc : 0 <= c.
  Hypothesis Ht : 0 < tol <= 0.19.
  Hypothesis Hs : 0 < s.
  Hypothesis Hn : INR n <= 10 ^ 6.
  Let e := eqn_error n.
  Hypothesis Hes : (c + e) * (/ s + 1 / 2) <= 1 / 10.
  Let theta := (11.6 * tol ^ 2 + 20 * c * tol + 9.6 * e) / s.
  Hypothesis Th : theta < 1.

  Lemma Hn5 : INR (n + 5) * u <= / 2.
  Proof. rewrite plus_INR. pose proof u_small. pose proof u_pos. apply Rle_trans with ((10 ^ 6 + 5) * / 10 ^ 15); [ | lra]. apply Rmult_le_compat; try lra; [pose proof (pos_INR n) | ]; simpl; lra. Qed.
  Lemma e_u : 10 * u <= e.
  Proof. unfold e, eqn_error. rewrite plus_INR. pose proof u_pos. pose proof (pos_INR n). assert (0 <= INR n * u) by (apply Rmult_le_pos; lra). simpl (INR 5). lra. Qed.

  Theorem step_f64 x x' y : length x = (n + n)%nat -> (forall k, (k < n + n)%nat -> s <= nth k x 0) ->
    @newton_step (BNum L) lu n delta na nb rho tol x = Ok (x', true) -> exact n delta na nb rho y ->
    length x' = (n + n)%nat /\
    forall k, (k < n + n)%nat -> 0 < nth k x' 0 /\ nth k x' 0 <= / (1 - theta) * nth k y 0 /\ nth k y 0 <= / (1 - theta) * nth k x' 0.
  Proof.
    intros Lx Hx Hst [Ly Sy]. unfold newton_step in Hst.
    pose proof (ca_hess_square (K := BNum L) n delta na nb rho x) as Sq. pose proof (ca_grad_length (K := BNum L) n delta na nb rho x) as Lg.
    pose proof (fun dx => Hlu (n + n)%nat _ _ dx Sq Lg) as HL.
    assert (Px : forall k, (k < n + n)%nat -> 0 < nth k x 0) by (intros k Hk; specialize (Hx k Hk); lra).
    pose proof (grad_k L n delta na nb rho Cd Cn x Lx Px) as HG. pose proof (hess_k L n delta na nb rho Cd Cn x Lx Px) as HH.
    set (g := @ca_grad (BNum L) n delta na nb rho x) in *. set (hs := @ca_hess (BNum L) n delta na nb rho x) in *.
    destruct (lu hs g) as [dx | ]; [ | discriminate]. specialize (HL dx eq_refl). destruct HL as [Ld HL].
    injection Hst as Ex Et. cbn [nltb BNum] in Et. apply Rltb_true in Et. 
    assert (Lx' : length x' = (n + n)%nat) by (rewrite <- Ex, map_length, combine_length; lia).
    pose proof e_u as Eu. pose proof u_pos as U0. pose proof u_small as U1. pose proof Hn5 as N5. assert (He : 0 < e) by lra.
    set (D := Dm n delta na nb rho) in *.
    assert (HD : forall k l, (k < n + n)%nat -> (l < n + n)%nat -> 0 <= D k l) by (apply Dm_nonneg; [intros i j Hi Hj; rewrite ix2_r; auto | auto]).
    assert (Row : forall k, (k < n + n)%nat -> 0 <= 1 + row (n + n) D (fun k => nth k x 0) k) by (intros k Hk; exact (row_b n delta na nb rho Cd Cn x Px k Hk)).
    assert (Hh : forall k l, (k < n + n)%nat -> (l < n + n)%nat ->
      Rabs (- nth l (nth k hs nil) 0 - ((if Nat.eqb k l then (1 + row (n + n) D (fun k => nth k x 0) k) * / nth k x 0 else 0) + D k l))
      <= e * ((if Nat.eqb k l then (1 + row (n + n) D (fun k => nth k x 0) k) * / nth k x 0 else 0) + D k l)).
    { intros k l Hk Hl. destruct (HH k l Hk Hl) as (H0 & E0 & R0). rewrite E0, Ropp_involutive. apply (rp_eqn n (n + 5)); auto.
      pose proof (HD k l Hk Hl). destruct (Nat.eqb k l); [ | lra]. assert (0 <= (1 + row (n + n) D (fun k => nth k x 0) k) * / nth k x 0); [ | lra].
      apply Rmult_le_pos; auto. left. apply Rinv_0_lt_compat. auto. }
    assert (Rn : forall z b, u <= b -> Rabs (rnd z - z) <= b * Rabs z).
    { intros z b Hb. destruct (rnd_err z) as (d & Hd & ->). replace (z * (1 + d) - z) with (d * z) by ring. rewrite Rabs_mult. apply Rmult_le_compat_r; [apply Rabs_pos | lra]. }
    assert (Nx : forall k, (k < n + n)%nat -> nth k x' 0 = rnd (nth k x 0 - nth k dx 0)).
    { intros k Hk. rewrite <- Ex. pose proof (map_nth (fun p : R * R => rnd (fst p - snd p)) (combine x dx) (0, 0) k) as M.
      rewrite combine_nth in M by lia. cbn [fst snd] in M. rewrite <- M. apply nth_indep. rewrite map_length, combine_length. lia. }
    assert (Nm : forall k, (k < n + n)%nat -> Rabs (nth k g 0) <= 1.01 * tol).
    { intros k Hk. assert (Rabs (nth k g 0) <= 1.01 * @norm (BNum L) (map (@nre (BNum L)) g)).
      { change (length (g : list R) = (n + n)%nat) in Lg. apply norm_b; change (car (BNum L)) with R; rewrite Lg; auto. rewrite plus_INR. lra. }
      eapply Rle_trans; [exact H | ]. apply Rmult_le_compat_l; [lra | left; exact Et]. }
    assert (T0 : (11.3 * (1.01 * tol) ^ 2 + 19.6 * c * (1.01 * tol) + 9.6 * e) / s <= theta).
    { unfold theta, Rdiv. apply Rmult_le_compat_r; [left; apply Rinv_0_lt_compat; auto | ]. assert (0 <= tol ^ 2) by apply pow2_ge_0. assert (0 <= c * tol) by (apply Rmult_le_pos; lra). lra. }
    assert (T2 : forall k, (k < n + n)%nat -> 0 < nth k x' 0 /\ nth k x' 0 <= / (1 - (11.3 * (1.01 * tol) ^ 2 + 19.6 * c * (1.01 * tol) + 9.6 * e) / s) * nth k y 0
      /\ nth k y 0 <= / (1 - (11.3 * (1.01 * tol) ^ 2 + 19.6 * c * (1.01 * tol) + 9.6 * e) / s) * nth k x' 0).
    { apply (step_rounded2 (n + n) D (fun k => nth k x 0) HD (fun k => rnd (/ nth k x 0)) (Bhat L n delta na nb rho x) (fun k => nth k g 0)
      (fun k l => - nth l (nth k hs nil) 0) (fun k => nth k dx 0) s e c (1.01 * tol) Hs Hx He Hc ltac:(lra) Hes) with (X' := fun k => nth k x' 0) (y := fun k => nth k y 0); auto; try lra.
    - intros k Hk. assert (0 < / nth k x 0) by (apply Rinv_0_lt_compat; auto). rewrite <- (Rabs_pos_eq (/ nth k x 0)) at 3 by lra. apply Rn. lra.
    - intros k Hk. destruct (HG k Hk) as [_ R0]. apply (rp_eqn n (n + 4)); auto; lia.
    - intros k Hk. destruct (HG k Hk) as [-> _]. apply Rn. lra.
    - intros k Hk. rewrite (Sum_ext (n + n) _ (fun l => - 1 * (nth l (nth k hs nil) 0 * nth l dx 0))) by (intros; ring). rewrite rsum_scal.
      rewrite (Sum_ext (n + n) (fun l => Rabs (- nth l (nth k hs nil) 0) * Rabs (nth l dx 0)) (fun l => Rabs (nth l (nth k hs nil) 0) * Rabs (nth l dx 0))) by (intros; rewrite Rabs_Ropp; auto).
      replace (-1) with (- (1)) by lra. rewrite <- Ropp_mult_distr_l, Ropp_involutive, Rmult_1_l. exact (HL k Hk).
    - intros k Hk. rewrite Nx by auto. apply Rn. lra.
    - intros k Hk. destruct (HG k Hk) as [-> _]. apply Rn. lra. }
    split; [exact Lx' | ]. intros k Hk. destruct (T2 k Hk) as (A1 & A2 & A3). split; [exact A1 | ].
    destruct (Sy k Hk) as [Py _]. assert (I : / (1 - (11.3 * (1.01 * tol) ^ 2 + 19.6 * c * (1.01 * tol) + 9.6 * e) / s) <= / (1 - theta)) by (apply Rinv_le_contravar; lra).
    split; [eapply Rle_trans; [exact A2 | ] | eapply Rle_trans; [exact A3 | ]]; apply Rmult_le_compat_r; auto; lra.
  Qed.
End StepCode.

(** magnitude of the terms of the energy of one site *)
Definition site_magnitude (x : R) : R := Rabs (ln x) + x / 2 + 1 / 2.

Section Energy.
  Variables (L : libm) (n : nat) (na nb rho : list R).
  Hypothesis HL : libm_ok L.
  Hypothesis Cn : forall j, (j < n)%nat -> 0 <= nth j na 0 /\ 0 <= nth j nb 0 /\ 0 <= nth j rho 0.
  Hypothesis Hn : INR n <= 10 ^ 6.

  Lemma half_b : @nlit (BNum L) 0.5 = 1 / 2.
  Proof. cbn [nlit BNum]. replace (Rlit 0.5) with (IZR 1 * bpow radix2 (-1)) by (unfold Rlit; cbn; lra). rewrite rnd_id; [cbn; lra | ]. exact (f64_Z 1 (-1) ltac:(lia)). Qed.
  Lemma f_assoc_er x : 0 < x -> er1 5 (@f_assoc (BNum L) x) (fxR x) (site_magnitude x).
  Proof.
    intros Px. unfold f_assoc, fxR, site_magnitude. rewrite half_b. cbn [nln nsub nadd nmul BNum].
    apply er1_rnd, er1_add; [ | apply er1_k with 0%nat; [lia | apply er1_c; lra]].
    apply er1_rnd, er1_sub.
    - apply (rp_er 1 one1 u_half 3). apply rp_within. destruct HL as (_ & _ & Hl & _). auto.
    - apply er1_k with 1%nat; [lia | ]. apply er1_rnd. replace (x * (1 / 2)) with (x / 2) by lra. apply er1_c. lra.
  Qed.
  Lemma energy_f64 x : (forall k, (k < n + n)%nat -> 0 < nth k x 0) ->
    Rabs (@ca_energy (BNum L) n na nb rho x - @ca_energy RNum n na nb rho x)
    <= (INR n + 9) / 2 ^ 53 * Sum i < n, nth i rho 0 * (nth i na 0 * site_magnitude (nth i x 0) + nth i nb 0 * site_magnitude (nth (n + i) x 0)).
  Proof.
    intros Px. replace (INR n + 9) with (INR (8 + n) + 1) by (rewrite plus_INR; simpl; lra). apply er1_final; [lia | | ].
    - rewrite plus_INR. pose proof (pos_INR n). replace (INR 8) with 8 by (simpl; lra). apply Rle_trans with ((10 ^ 6 + 8) * (10 ^ 6 + 8)); [apply Rmult_le_compat; lra | lra].
    - rewrite ca_energy_R. unfold ca_energy. apply (nsumi_er 1 one1 u_half). intros i Hi. rewrite !ix_b, nth_firstn, nth_skipn by auto. destruct (Cn i Hi) as (A0 & B0 & R0).
      pose proof (f_assoc_er _ (Px i ltac:(lia))) as F1. pose proof (f_assoc_er _ (Px (n + i)%nat ltac:(lia))) as F2.
      set (fa := @f_assoc (BNum L) (nth i x 0)) in *. set (fb := @f_assoc (BNum L) (nth (n + i) x 0)) in *. clearbody fa fb. cbn [nmul nadd BNum].
      apply er1_rnd. apply (er1_mul 0 _ _ _ 7); [apply er1_c; auto | ]. apply er1_rnd, er1_add; apply er1_rnd; rewrite Rmult_comm; apply (er1_mul 0 _ _ _ 5); auto; apply er1_c; auto.
  Qed.
End Energy.

Lemma ln_ratio x z q : 0 < x -> 0 < z -> 1 <= q -> x <= q * z -> z <= q * x -> Rabs (ln x) <= Rabs (ln z) + (q - 1).
Proof.
  intros Px Pz Hq H1 H2. assert (Lq : ln q <= q - 1) by (pose proof (exp_ineq1_le (ln q)) as Q; rewrite exp_ln in Q by lra; lra).
  assert (A : ln x <= ln q + ln z) by (rewrite <- ln_mult by lra; destruct H1 as [H1 | ->]; [left; apply ln_increasing; auto | lra]).
  assert (B : ln z <= ln q + ln x) by (rewrite <- ln_mult by lra; destruct H2 as [H2 | ->]; [left; apply ln_increasing; auto | lra]).
  pose proof (Rle_abs (ln z)). pose proof (Rle_abs (- ln z)). rewrite Rabs_Ropp in *. apply Rabs_le. lra.
Qed.

(** Association of several components in f64. *)
Section Final.
  Variables (L : libm) (lu : list (list R) -> list R -> option (list R)) (c : R) (p : params (BNum L)) (t : R) (rho r : list R) (n2 n3i xi : R).
  Notation n := (p_nassoc p).
  (** the strengths as computed, the numbers of sites and the densities of the associating components *)
  Definition compb (i : nat) : nat := nth i (p_assoc_comp p) 0%nat.
  Definition strb (i j : nat) : R := @association_strength (BNum L) p t r n2 n3i xi (compb i) (compb j).
  Definition sab (i : nat) : R := nth (compb i) (p_na p) 0.
  Definition sbb (i : nat) : R := nth (compb i) (p_nb p) 0.
  Definition denb (i : nat) : R := nth (compb i) rho 0.
  Definition first_guess_b (x0 : option (list R)) : list R :=
    match x0 with Some x => x | None => repeat (rnd 0.2) (2 * n) end.
  Hypothesis HL : libm_ok L.
  Hypothesis Hlu : lu_stable c lu.
  Hypothesis Hc : 0 <= c.
  Hypothesis Hn : INR n <= 10 ^ 6.
  Hypothesis Hstr : forall i j, (i < n)%nat -> (j < n)%nat -> 0 <= strb i j.
  Hypothesis Hnn : forall i, (i < n)%nat -> 0 <= sab i /\ 0 <= sbb i /\ 0 <= denb i.

  Theorem C52_cross_association max_iter tol x0 a x0' : (0 < max_iter)%nat -> 0 < tol <= 0.19 -> @nltb (BNum L) (@nsum (BNum L) rho) f_eps = false ->
    length (first_guess_b x0) = (2 * n)%nat ->
    @cross_association (BNum L) lu p t rho r n2 n3i xi max_iter tol x0 = (Ok a, x0') ->
    exists k (y : nat -> list R), (k < max_iter)%nat /\ y O = first_guess_b x0 /\ x0' = option_map (fun _ => y (S k)) x0 /\
      forall s z, 0 < s -> (forall l, (l < 2 * n)%nat -> s <= nth l (y k) 0) -> (c + eqn_error n) * (/ s + 1 / 2) <= 1 / 10 ->
        site_law n strb sab sbb denb z ->
        let theta := (11.6 * tol ^ 2 + 20 * c * tol + 9.6 * eqn_error n) / s in
        let q := / (1 - theta) in theta < 1 ->
        1 <= q /\
        (forall l, (l < 2 * n)%nat -> 0 < nth l (y (S k)) 0 /\ nth l (y (S k)) 0 <= q * nth l z 0 /\ nth l z 0 <= q * nth l (y (S k)) 0) /\
        Rabs (a - site_energy n sab sbb denb z)
        <= 3 / 2 * (q - 1) * (Sum i < n, denb i * (sab i + sbb i))
           + (INR n + 9) / 2 ^ 53 * (Sum i < n, denb i * (sab i * (Rabs (ln (fa z i)) + 2 * q) + sbb i * (Rabs (ln (fb n z i)) + 2 * q))).
  Proof.
    intros Hm Ht Hd Lf H. unfold cross_association in H. rewrite Hd in H. cbv zeta in H.
    replace (map (map (@nre (BNum L))) (ca_delta p t r n2 n3i xi)) with (ca_delta p t r n2 n3i xi) in H.
    2: { symmetry. rewrite <- (map_id (ca_delta p t r n2 n3i xi)) at 2. apply map_ext. intros w. apply map_id. }
    replace (map (@nre (BNum L)) (ca_sel p rho)) with (ca_sel p rho) in H by (symmetry; apply map_id).
    replace (match x0 with Some x => x | None => repeat (@nlit (BNum L) 0.2%Q) (2 * n) end) with (first_guess_b x0) in H.
    2: { unfold first_guess_b. destruct x0; auto. }
    set (delta := ca_delta p t r n2 n3i xi) in *. set (na := ca_sel p (p_na p)) in *. set (nb := ca_sel p (p_nb p)) in *. set (rhoa := ca_sel p rho) in *.
    destruct (newton_loop _ _ _) as [x | e0] eqn:E; [ | discriminate]. destruct max_iter as [ | m]; [lia | ].
    destruct (loop_ok _ m _ x E) as (k & y & Hk & Y0 & Yj & Yk & Yz). cbn [newton_deriv nderiv BNum] in H.
    exists k, y. split; [lia | ]. split; [exact Y0 | ]. split; [injection H as _ <-; rewrite Yz; destruct x0; auto | ].
    intros s z Hs Hx Hes Hz theta q Th.
    assert (Es : forall i j, (i < n)%nat -> (j < n)%nat -> nth j (nth i delta nil) 0 = strb i j).
    { intros i j Hi Hj. unfold delta, ca_delta. rewrite <- (ix2_b L). rewrite ix2_mk2 by auto. reflexivity. }
    assert (Ea : forall i, (i < n)%nat -> nth i na 0 = sab i) by (intros i Hi; unfold na, ca_sel; rewrite <- (ix_b L), ix_mk1 by auto; rewrite ix_b; reflexivity).
    assert (Eb : forall i, (i < n)%nat -> nth i nb 0 = sbb i) by (intros i Hi; unfold nb, ca_sel; rewrite <- (ix_b L), ix_mk1 by auto; rewrite ix_b; reflexivity).
    assert (Er : forall i, (i < n)%nat -> nth i rhoa 0 = denb i) by (intros i Hi; unfold rhoa, ca_sel; rewrite <- (ix_b L), ix_mk1 by auto; rewrite ix_b; reflexivity).
    assert (Cd : forall i j, (i < n)%nat -> (j < n)%nat -> 0 <= nth j (nth i delta nil) 0) by (intros i j Hi Hj; rewrite Es by auto; auto).
    assert (Cn : forall j, (j < n)%nat -> 0 <= nth j na 0 /\ 0 <= nth j nb 0 /\ 0 <= nth j rhoa 0) by (intros j Hj; rewrite Ea, Eb, Er by auto; auto).
    assert (Ex : exact n delta na nb rhoa z).
    { apply exact_law. destruct Hz as (Lz & Pz & Qz). split; [exact Lz | ]. split; [exact Pz | ]. intros i Hi. destruct (Qz i Hi) as [Q1 Q2].
      replace (bonds_a n (fun i j => @ix2 RNum delta i j) (fun i => @ix RNum nb i) (fun i => @ix RNum rhoa i) z i) with (bonds_a n strb sbb denb z i).
      2: { apply Sum_ext. intros j Hj. rewrite !ix_r, ix2_r, Es, Eb, Er by auto. reflexivity. }
      replace (bonds_b n (fun i j => @ix2 RNum delta i j) (fun i => @ix RNum na i) (fun i => @ix RNum rhoa i) z i) with (bonds_b n strb sab denb z i).
      2: { apply Sum_ext. intros j Hj. rewrite !ix_r, ix2_r, Es, Ea, Er by auto. reflexivity. }
      split; [exact Q1 | exact Q2]. }
    assert (Ly : forall j, (j <= k)%nat -> length (y j) = (n + n)%nat).
    { induction j as [ | j IH]; intros Hj; [rewrite Y0; change (length (first_guess_b x0) = (n + n)%nat); rewrite Lf; lia | ]. specialize (Yj j ltac:(lia)). unfold newton_step in Yj.
      pose proof (fun dx => Hlu (n + n)%nat _ _ dx (ca_hess_square (K := BNum L) n delta na nb rhoa (y j)) (ca_grad_length (K := BNum L) n delta na nb rhoa (y j))) as HQ.
      destruct (lu _ _) as [dx | ]; [ | discriminate]. destruct (HQ dx eq_refl) as [Ld _]. injection Yj as <- _. rewrite map_length, combine_length. specialize (IH ltac:(lia)). transitivity (Nat.min (n + n) (n + n)); [f_equal; [exact IH | exact Ld] | lia]. }
    destruct (step_f64 L n delta na nb rhoa Cd Cn lu c tol s Hlu Hc Ht Hs Hn Hes Th (y k) (y (S k)) z (Ly k (le_n k))) as (Lx' & Hq); auto.
    { intros l Hl. apply Hx. lia. }
    fold theta q in Hq.
    assert (T0 : 0 <= theta). { assert (0 < / s) by (apply Rinv_0_lt_compat; auto). assert (0 <= tol ^ 2) by apply pow2_ge_0. assert (0 <= c * tol) by (apply Rmult_le_pos; lra). pose proof (e_u n). pose proof u_pos. unfold theta, Rdiv. apply Rmult_le_pos; lra. }
    assert (Q1 : 1 <= q). { unfold q. rewrite <- Rinv_1 at 1. apply Rinv_le_contravar; lra. }
    split; [exact Q1 | ]. replace (2 * n)%nat with (n + n)%nat by lia. split; [exact Hq | ].
    assert (Za : a = @ca_energy (BNum L) n na nb rhoa (y (S k))) by (injection H as <- _; rewrite Yz; reflexivity).
    assert (HD : forall k l, (k < n + n)%nat -> (l < n + n)%nat -> 0 <= Dm n delta na nb rhoa k l) by (apply Dm_nonneg; [intros i j Hi Hj; rewrite ix2_r; auto | auto]).
    destruct Ex as [Lz Sz].
    assert (Z1 : forall k, (k < n + n)%nat -> 0 < nth k z 0 <= 1) by (intros l Hl; split; [apply Sz; auto | exact (solves_le1 _ _ HD _ Sz l Hl)]).
    pose proof (energy_close n na nb rhoa (y (S k)) z q Q1 Cn Z1 Hq) as EC.
    pose proof (energy_f64 L n na nb rhoa HL Cn Hn (y (S k)) (fun l Hl => proj1 (Hq l Hl))) as EF. rewrite <- Za in EF.
    assert (Ez : @ca_energy RNum n na nb rhoa z = site_energy n sab sbb denb z).
    { rewrite ca_energy_R. apply Sum_ext. intros i Hi. rewrite Ea, Eb, Er by auto. reflexivity. }
    rewrite Ez in EC.
    assert (EM : (Sum i < n, nth i rhoa 0 * (nth i na 0 * site_magnitude (nth i (y (S k)) 0) + nth i nb 0 * site_magnitude (nth (n + i) (y (S k)) 0)))
      <= Sum i < n, denb i * (sab i * (Rabs (ln (fa z i)) + 2 * q) + sbb i * (Rabs (ln (fb n z i)) + 2 * q))).
    { assert (M : forall l, (l < n + n)%nat -> site_magnitude (nth l (y (S k)) 0) <= Rabs (ln (nth l z 0)) + 2 * q).
      { intros l Hl. destruct (Hq l Hl) as (A1 & A2 & A3). destruct (Z1 l Hl) as [B1 B2]. unfold site_magnitude. pose proof (ln_ratio _ _ q A1 B1 Q1 A2 A3).
        assert (q * nth l z 0 <= q * 1) by (apply Rmult_le_compat_l; lra). lra. }
      apply rsum_le. intros i Hi. apply seq_in in Hi. rewrite Ea, Eb, Er by auto. destruct (Hnn i Hi) as (N1 & N2 & N3). apply Rmult_le_compat_l; auto.
      apply Rplus_le_compat; apply Rmult_le_compat_l; auto; apply M; lia. }
    apply Rle_trans with (Rabs (a - @ca_energy RNum n na nb rhoa (y (S k))) + Rabs (@ca_energy RNum n na nb rhoa (y (S k)) - site_energy n sab sbb denb z)).
    { set (e1 := @ca_energy RNum n na nb rhoa (y (S k))) in *. replace (a - site_energy n sab sbb denb z) with ((a - e1) + (e1 - site_energy n sab sbb denb z)) by ring. apply Rabs_triang. }
    rewrite Rplus_comm. apply Rplus_le_compat; [eapply Rle_trans; [exact EC | ]; right; apply (f_equal (fun w => 3 / 2 * (q - 1) * w)); apply Sum_ext; intros i Hi; rewrite Ea, Eb, Er by auto; reflexivity | ]. eapply Rle_trans; [exact EF | ]. apply Rmult_le_compat_l; [ | exact EM].
    apply Rmult_le_pos; [pose proof (pos_INR n); lra | left; apply Rinv_0_lt_compat, pow_lt; lra].
  Qed.
End Final.

(* ------------------------------------------------------------- the root itself is accepted *)

Lemma rsum_sq_le (l : list R) : rsum l (fun x => x * x) <= rsum l Rabs * rsum l Rabs.
Proof.
  induction l as [ | a l IH]; cbn [rsum]; [lra | ]. assert (0 <= rsum l Rabs) by (apply rsum_nonneg; intros; apply Rabs_pos). pose proof (Rabs_pos a).
  assert (a * a = Rabs a * Rabs a) by (rewrite <- Rabs_mult; symmetry; apply Rabs_pos_eq, Rle_0_sqr). assert (0 <= Rabs a * rsum l Rabs) by (apply Rmult_le_pos; auto).
  replace ((Rabs a + rsum l Rabs) * (Rabs a + rsum l Rabs)) with (Rabs a * Rabs a + 2 * (Rabs a * rsum l Rabs) + rsum l Rabs * rsum l Rabs) by ring. lra.
Qed.
Lemma rsum_bound (l : list R) b : (forall k, (k < length l)%nat -> Rabs (nth k l 0) <= b) -> rsum l Rabs <= INR (length l) * b.
Proof.
  induction l as [ | a l IH]; intros H; [cbn; lra | ]. cbn [rsum length]. rewrite S_INR. assert (Rabs a <= b) by (apply (H 0%nat); cbn; lia).
  assert (rsum l Rabs <= INR (length l) * b) by (apply IH; intros k Hk; apply (H (S k)); cbn; lia). lra.
Qed.
Lemma norm_b_upper L (g : list R) b : INR (length g) <= 10 ^ 7 -> (forall k, (k < length g)%nat -> Rabs (nth k g 0) <= b) -> 0 <= b ->
  @norm (BNum L) (map (@nre (BNum L)) g) <= 1.01 * (INR (length g) * b).
Proof.
  intros Lg Hg Hb. replace (map (@nre (BNum L)) g) with g by (symmetry; apply map_id). unfold norm. rewrite nsum_bsum. cbn [nmul nsqrt BNum].
  assert (S0 : 0 <= rsum g (fun x => x * x)) by (apply rsum_nonneg; intros; apply Rle_0_sqr).
  assert (H : rp (1 + length g) (bsum (map (fun x => rnd (x * x)) g) 0) (0 + rsum g (fun x => x * x))).
  { apply (bsum_rp (fun x => rnd (x * x)) (fun x => x * x) 1); [ | lia | lra | apply rp_weaken with 0%nat; [lia | apply rp_refl]]. intros x _. split; [apply (rp_rnd 0), rp_refl | apply Rle_0_sqr]. }
  rewrite Rplus_0_l in H. apply rp_sqrt in H; auto. apply rp_rnd in H. destruct H as (q & [_ Q2] & E).
  set (w := rnd _) in *. pose proof (rsum_bound g b Hg) as A. pose proof (rsum_sq_le g) as B.
  assert (P0 : 0 <= rsum g Rabs) by (apply rsum_nonneg; intros; apply Rabs_pos).
  assert (C : sqrt (rsum g (fun x => x * x)) <= INR (length g) * b).
  { apply Rle_trans with (rsum g Rabs); auto. rewrite <- (sqrt_square (rsum g Rabs)) by auto. apply sqrt_le_1_alt. exact B. }
  pose proof (o_pow_lower (S (1 + length g))) as O. assert (I : INR (S (1 + length g)) * u <= / 200).
  { apply Rle_trans with ((10 ^ 7 + 2) * / 10 ^ 15); [ | lra]. apply Rmult_le_compat; [apply pos_INR | left; apply u_pos | | apply u_small].
    rewrite !S_INR. simpl (1 + _)%nat. rewrite ?S_INR. lra. }
  assert (q <= 1.01). { eapply Rle_trans; [exact Q2 | ]. apply Rle_trans with (/ 0.995); [apply Rinv_le_contravar; lra | lra]. }
  rewrite E. assert (0 <= sqrt (rsum g (fun x => x * x))) by apply sqrt_pos. 
  apply Rle_trans with (sqrt (rsum g (fun x => x * x)) * 1.01); [apply Rmult_le_compat_l; auto | lra].
Qed.

(** the exact solution, every entry rounded *)
Definition gauss_f64 (h : list (list R)) (g : list R) : option (list R) := option_map (map rnd) (gauss_lu h g).
Lemma gauss_f64_stable : lu_stable (2 * u) gauss_f64.
Proof.
  intros N h g dx Sq Lg H. unfold gauss_f64 in H. pose proof (gauss_lu_exact N h g Sq Lg) as X. destruct (gauss_lu h g) as [z | ]; [ | discriminate].
  injection H as <-. destruct X as (_ & Lz & X). split; [rewrite map_length; auto | ]. intros k Hk. rewrite <- (X k Hk). unfold mat_vec.
  assert (Nz : forall l, (l < N)%nat -> nth l (map rnd z) 0 = rnd (nth l z 0)) by (intros l Hl; rewrite <- rnd_0 at 1; apply map_nth).
  rewrite <- rsum_minus. eapply Rle_trans; [apply rsum_abs | ].
  apply Rle_trans with (2 * u * (Sum l < N, Rabs (nth l (nth k h nil) 0) * Rabs (nth l (map rnd z) 0))).
  2: { pose proof u_pos. apply Rmult_le_compat_l; [lra | ]. pose proof (Rabs_pos (Sum l < N, @ix2 RNum h k l * nth l z 0)). lra. }
  rewrite <- rsum_scal. apply rsum_le. intros l Hl. apply seq_in in Hl. rewrite Nz, ix2_r by auto. set (a := nth l (nth k h nil) 0). set (b := nth l z 0).
  replace (a * rnd b - a * b) with (a * (rnd b - b)) by ring. rewrite Rabs_mult. replace (2 * u * (Rabs a * Rabs (rnd b))) with (Rabs a * (2 * u * Rabs (rnd b))) by ring. apply Rmult_le_compat_l; [apply Rabs_pos | ].
  destruct (rnd_err b) as (d & Hd & ->). replace (b * (1 + d) - b) with (b * d) by ring. rewrite !Rabs_mult. pose proof u_pos. pose proof u_small. apply Rabs_le_inv in Hd as Hd'.
  rewrite (Rabs_pos_eq (1 + d)) by lra. replace (2 * u * (Rabs b * (1 + d))) with (Rabs b * (2 * u * (1 + d))) by ring. apply Rmult_le_compat_l; [apply Rabs_pos | ].
  apply Rle_trans with (1 := Hd). rewrite <- (Rmult_1_r u) at 1. replace (2 * u * (1 + d)) with (u * (2 * (1 + d))) by ring. apply Rmult_le_compat_l; lra.
Qed.
Lemma gauss_f64_complete N h g : square N h -> length g = N -> nonsingular N h -> gauss_f64 h g <> None.
Proof. intros Sq Lg H. unfold gauss_f64. pose proof (gauss_lu_exact N h g Sq Lg) as X. destruct (gauss_lu h g); [discriminate | contradiction]. Qed.

Section Root.
  Variables (L : libm) (n : nat) (delta : list (list R)) (na nb rho : list R).
  Hypothesis Cd : forall i j, (i < n)%nat -> (j < n)%nat -> 0 <= nth j (nth i delta nil) 0.
  Hypothesis Cn : forall j, (j < n)%nat -> 0 <= nth j na 0 /\ 0 <= nth j nb 0 /\ 0 <= nth j rho 0.
  Variables (lu : list (list R) -> list R -> option (list R)) (tol s : R).
  Hypothesis Hlu : forall N h g, square N h -> length g = N -> nonsingular N h -> lu h g <> None.
  Hypothesis Hs : 0 < s.
  Hypothesis Hn : INR n <= 10 ^ 6.
  Let e := eqn_error n.
  Hypothesis Hes : e * (/ s + 1 / 2) <= 1 / 10.
  Hypothesis Ht : 2.5 * INR n * e / s < tol.
  Theorem accept_root z : exact n delta na nb rho z -> (forall k, (k < n + n)%nat -> s <= nth k z 0) ->
    exists x', @newton_step (BNum L) lu n delta na nb rho tol z = Ok (x', true).
  Proof.
    intros [Lz Sz] Hz. assert (Px : forall k, (k < n + n)%nat -> 0 < nth k z 0) by (intros k Hk; specialize (Hz k Hk); lra).
    pose proof (ca_hess_square (K := BNum L) n delta na nb rho z) as Sq. pose proof (ca_grad_length (K := BNum L) n delta na nb rho z) as Lg.
    pose proof (grad_k L n delta na nb rho Cd Cn z Lz Px) as HG. pose proof (hess_k L n delta na nb rho Cd Cn z Lz Px) as HH.
    unfold newton_step. set (g := @ca_grad (BNum L) n delta na nb rho z) in *. set (hs := @ca_hess (BNum L) n delta na nb rho z) in *.
    pose proof (e_u n) as Eu. fold e in Eu. pose proof u_pos as U0. pose proof u_small as U1. pose proof (Hn5 n Hn) as N5. assert (He : 0 < e) by lra.
    set (D := Dm n delta na nb rho) in *.
    assert (HD : forall k l, (k < n + n)%nat -> (l < n + n)%nat -> 0 <= D k l) by (apply Dm_nonneg; [intros i j Hi Hj; rewrite ix2_r; auto | auto]).
    assert (Bz : forall k, (k < n + n)%nat -> 1 + row (n + n) D (fun k => nth k z 0) k = / nth k z 0).
    { intros k Hk. destruct (Sz k Hk) as [P E]. cbv beta in P, E. apply Rmult_eq_reg_l with (nth k z 0); [ | lra]. rewrite Rinv_r by lra. exact E. }
    assert (Hh : forall k l, (k < n + n)%nat -> (l < n + n)%nat ->
      Rabs (- nth l (nth k hs nil) 0 - ((if Nat.eqb k l then (1 + row (n + n) D (fun k => nth k z 0) k) * / nth k z 0 else 0) + D k l))
      <= e * ((if Nat.eqb k l then (1 + row (n + n) D (fun k => nth k z 0) k) * / nth k z 0 else 0) + D k l)).
    { intros k l Hk Hl. destruct (HH k l Hk Hl) as (H0 & E0 & R0). rewrite E0, Ropp_involutive. apply (rp_eqn n (n + 5)); auto.
      pose proof (HD k l Hk Hl). destruct (Nat.eqb k l); [ | lra]. rewrite Bz by auto. assert (0 < / nth k z 0) by (apply Rinv_0_lt_compat; auto).
      assert (0 <= / nth k z 0 * / nth k z 0) by (apply Rmult_le_pos; lra). lra. }
    assert (Ns : nonsingular (n + n) hs).
    { intros v Hv k Hk. assert (Q : forall tau, 0 < tau <= 1 / 5 -> Rabs (v k) <= 1.7 * tau * nth k z 0).
      { intros tau Tt. apply (correction_small (n + n) D (fun k => nth k z 0) HD (fun k => / nth k z 0) (fun k => / nth k z 0) (fun _ => 0)
          (fun k l => - nth l (nth k hs nil) 0) v s e 0 tau); auto; try lra.
        - intros l Hl. assert (0 < / nth l z 0) by (apply Rinv_0_lt_compat; auto). rewrite Rminus_diag_eq, Rabs_R0 by auto. apply Rmult_le_pos; lra.
        - intros l Hl. assert (0 < / nth l z 0) by (apply Rinv_0_lt_compat; auto). cbv beta. rewrite Bz by auto. rewrite Rminus_diag_eq, Rabs_R0 by auto. apply Rmult_le_pos; lra.
        - intros l Hl. cbv beta. replace (/ nth l z 0 - / nth l z 0) with 0 by ring. rewrite Rminus_0_r, Rabs_R0. lra.
        - intros l Hl. rewrite Rabs_R0. lra.
        - intros l Hl. rewrite (Sum_ext (n + n) _ (fun m => - (1) * (nth m (nth l hs nil) 0 * v m))) by (intros; ring). rewrite rsum_scal.
          pose proof (Hv l Hl) as V. unfold mat_vec in V. rewrite (Sum_ext (n + n) (fun m => nth m (nth l hs nil) 0 * v m) (fun m => @ix2 RNum hs l m * v m)) by (intros; rewrite ix2_r; reflexivity). rewrite V.
          rewrite Rmult_0_r, Ropp_0, Rminus_0_r, Rabs_R0. lra. }
      destruct (Req_dec (v k) 0) as [ | Nz]; auto. exfalso. apply Rabs_pos_lt in Nz. pose proof (Px k Hk) as Pk.
      pose proof (Q (Rmin (1 / 5) (Rabs (v k) / (2 * nth k z 0)))) as Q1. assert (T : 0 < Rabs (v k) / (2 * nth k z 0)) by (apply Rdiv_lt_0_compat; lra).
      assert (M : 0 < Rmin (1 / 5) (Rabs (v k) / (2 * nth k z 0)) <= 1 / 5) by (split; [apply Rmin_pos; lra | apply Rmin_l]). specialize (Q1 M).
      assert (1.7 * Rmin (1 / 5) (Rabs (v k) / (2 * nth k z 0)) * nth k z 0 <= 0.85 * Rabs (v k)); [ | lra].
      apply Rle_trans with (1.7 * (Rabs (v k) / (2 * nth k z 0)) * nth k z 0); [apply Rmult_le_compat_r; [lra | ]; apply Rmult_le_compat_l; [lra | apply Rmin_r] | ].
      assert (Q2 : Rabs (v k) / (2 * nth k z 0) * nth k z 0 = Rabs (v k) / 2) by (field; lra). rewrite Rmult_assoc, Q2. lra. }
    pose proof (Hlu (n + n)%nat hs g Sq Lg Ns) as HL. destruct (lu hs g) as [dx | ]; [ | congruence]. eexists. apply (f_equal Ok). apply (f_equal2 pair); [reflexivity | ].
    cbn [nltb BNum]. apply Rltb_true. change (length (g : list R) = (n + n)%nat) in Lg.
    assert (Gb : forall k, (k < length (g : list R))%nat -> Rabs (nth k g 0) <= 1.2 * e / s).
    { rewrite Lg. intros k Hk. destruct (HG k Hk) as [E1 R1]. rewrite E1. rewrite Bz in R1 by auto. cbv beta. assert (I0 : 0 < / nth k z 0) by (apply Rinv_0_lt_compat; auto).
      apply (rp_eqn n (n + 4)) in R1; [ | auto | lia | lra]. fold e in R1. set (b := Bhat L n delta na nb rho z k) in *. set (w := / nth k z 0) in *.
      assert (Is : w <= / s) by (apply Rinv_le_contravar; auto). destruct (rnd_err w) as (d & Hd & ->). destruct (rnd_err (w * (1 + d) - b)) as (d2 & Hd2 & ->).
      assert (A1 : Rabs (w * (1 + d) - b) <= 1.1 * (e * w)).
      { replace (w * (1 + d) - b) with (w * d + - (b - w)) by ring. eapply Rle_trans; [apply Rabs_triang | ]. rewrite Rabs_Ropp, Rabs_mult, (Rabs_pos_eq w) by lra.
        assert (w * Rabs d <= w * (0.1 * e)) by (apply Rmult_le_compat_l; lra). lra. }
      rewrite Rabs_mult. apply Rabs_le_inv in Hd2. rewrite (Rabs_pos_eq (1 + d2)) by lra.
      apply Rle_trans with (1.1 * (e * w) * 1.05); [apply Rmult_le_compat; [apply Rabs_pos | lra | auto | lra] | ]. assert (e * w <= e * / s) by (apply Rmult_le_compat_l; lra). assert (0 <= e * w) by (apply Rmult_le_pos; lra). unfold Rdiv. lra. }
    assert (S0 : 0 < / s) by (apply Rinv_0_lt_compat; auto). assert (Es : 0 < e * / s) by (apply Rmult_lt_0_compat; lra).
    eapply Rle_lt_trans; [ | exact Ht]. eapply Rle_trans; [apply (norm_b_upper L g (1.2 * e / s)); [rewrite Lg, plus_INR; lra | exact Gb | unfold Rdiv; lra] | ].
    rewrite Lg, plus_INR. pose proof (pos_INR n). assert (0 <= INR n * (e * / s)) by (apply Rmult_le_pos; lra). unfold Rdiv. 
    replace (1.01 * ((INR n + INR n) * (1.2 * e * / s))) with (1.01 * 2.4 * (INR n * (e * / s))) by lra. replace (2.5 * INR n * e * / s) with (2.5 * (INR n * (e * / s))) by ring. lra.
  Qed.
End Root.

(** A start at the solution of the law of mass action is not rejected because of rounding. *)
Section FinalRoot.
  Variables (L : libm) (lu : list (list R) -> list R -> option (list R)) (p : params (BNum L)) (t : R) (rho r : list R) (n2 n3i xi : R).
  Notation n := (p_nassoc p).
  Notation strb := (strb L p t r n2 n3i xi).
  Notation sab := (sab L p).
  Notation sbb := (sbb L p).
  Notation denb := (denb L p rho).
  Hypothesis Hlu : forall N h g, square N h -> length g = N -> nonsingular N h -> lu h g <> None.
  Hypothesis Hn : INR n <= 10 ^ 6.
  Hypothesis Hstr : forall i j, (i < n)%nat -> (j < n)%nat -> 0 <= strb i j.
  Hypothesis Hnn : forall i, (i < n)%nat -> 0 <= sab i /\ 0 <= sbb i /\ 0 <= denb i.
  Theorem C52_cross_root max_iter tol s z : (0 < max_iter)%nat -> @nltb (BNum L) (@nsum (BNum L) rho) f_eps = false ->
    site_law n strb sab sbb denb z -> 0 < s -> (forall l, (l < 2 * n)%nat -> s <= nth l z 0) ->
    eqn_error n * (/ s + 1 / 2) <= 1 / 10 -> 2.5 * INR n * eqn_error n / s < tol ->
    exists a x', @cross_association (BNum L) lu p t rho r n2 n3i xi max_iter tol (Some z) = (Ok a, Some x').
  Proof.
    intros Hm Hd Hz Hs Hx Hes Ht. unfold cross_association. rewrite Hd. cbv zeta.
    replace (map (map (@nre (BNum L))) (ca_delta p t r n2 n3i xi)) with (ca_delta p t r n2 n3i xi).
    2: { symmetry. rewrite <- (map_id (ca_delta p t r n2 n3i xi)) at 2. apply map_ext. intros w. apply map_id. }
    replace (map (@nre (BNum L)) (ca_sel p rho)) with (ca_sel p rho) by (symmetry; apply map_id).
    set (delta := ca_delta p t r n2 n3i xi) in *. set (na := ca_sel p (p_na p)) in *. set (nb := ca_sel p (p_nb p)) in *. set (rhoa := ca_sel p rho) in *.
    assert (Es : forall i j, (i < n)%nat -> (j < n)%nat -> nth j (nth i delta nil) 0 = strb i j).
    { intros i j Hi Hj. unfold delta, ca_delta. rewrite <- (ix2_b L). rewrite ix2_mk2 by auto. reflexivity. }
    assert (Ea : forall i, (i < n)%nat -> nth i na 0 = sab i) by (intros i Hi; unfold na, ca_sel; rewrite <- (ix_b L), ix_mk1 by auto; rewrite ix_b; reflexivity).
    assert (Eb : forall i, (i < n)%nat -> nth i nb 0 = sbb i) by (intros i Hi; unfold nb, ca_sel; rewrite <- (ix_b L), ix_mk1 by auto; rewrite ix_b; reflexivity).
    assert (Er : forall i, (i < n)%nat -> nth i rhoa 0 = denb i) by (intros i Hi; unfold rhoa, ca_sel; rewrite <- (ix_b L), ix_mk1 by auto; rewrite ix_b; reflexivity).
    assert (Cd : forall i j, (i < n)%nat -> (j < n)%nat -> 0 <= nth j (nth i delta nil) 0) by (intros i j Hi Hj; rewrite Es by auto; auto).
    assert (Cn : forall j, (j < n)%nat -> 0 <= nth j na 0 /\ 0 <= nth j nb 0 /\ 0 <= nth j rhoa 0) by (intros j Hj; rewrite Ea, Eb, Er by auto; auto).
    assert (Ex : exact n delta na nb rhoa z).
    { apply exact_law. destruct Hz as (Lz & Pz & Qz). split; [exact Lz | ]. split; [exact Pz | ]. intros i Hi. destruct (Qz i Hi) as [Q1 Q2].
      replace (bonds_a n (fun i j => @ix2 RNum delta i j) (fun i => @ix RNum nb i) (fun i => @ix RNum rhoa i) z i) with (bonds_a n strb sbb denb z i).
      2: { apply Sum_ext. intros j Hj. rewrite !ix_r, ix2_r, Es, Eb, Er by auto. reflexivity. }
      replace (bonds_b n (fun i j => @ix2 RNum delta i j) (fun i => @ix RNum na i) (fun i => @ix RNum rhoa i) z i) with (bonds_b n strb sab denb z i).
      2: { apply Sum_ext. intros j Hj. rewrite !ix_r, ix2_r, Es, Ea, Er by auto. reflexivity. }
      split; [exact Q1 | exact Q2]. }
    destruct (accept_root L n delta na nb rhoa Cd Cn lu tol s Hlu Hs Hn Hes Ht z Ex) as [x' E]; [intros l Hl; apply Hx; lia | ].
    destruct max_iter as [ | m]; [lia | ]. cbn [newton_loop]. rewrite E. cbn [newton_deriv nderiv BNum]. eexists _, _. reflexivity.
  Qed.
End FinalRoot.

(** one component with one site of each kind; the strength is rnd (exp (1/2) - 1) *)
Definition BE := BNum exact_libm.
Definition one_assoc : params BE := @mkParams BE nil nil [1] nil nil nil nil nil nil nil [1] [1] [[1]] [[1 / 2]] nil nil nil nil
  0 0 1 nil nil [0%nat] None None None nil nil None.
Lemma f64_half : f64 (1 / 2). Proof. replace (1 / 2) with (IZR 1 * bpow radix2 (-1)) by (cbn; lra). exact (f64_Z 1 (-1) ltac:(lia)). Qed.
Lemma f64_two : f64 2. Proof. exact (f64_int 2 ltac:(lia)). Qed.
Lemma one_strength : 1 / 2 <= strb exact_libm one_assoc 1 [1] 0 1 1 0 0 <= 1.
Proof.
  unfold strb, association_strength, compb. cbn [one_assoc p_assoc_comp p_sigma p_kappa_aibj p_epsilon_k_aibj nth]. rewrite !ix_b, !ix2_b. cbn [nth].
  rewrite half_b. rewrite (litZ exact_libm 1), (litZ exact_libm 2) by (cbn; lia). unfold BE in *. cbn [nadd nmul ndiv nrecip nexpm1 npowi BNum exact_libm l_expm1].
  replace (1 * 1) with 1 by lra. replace (1 + 1) with 2 by lra. replace (0 * 1) with 0 by lra. rewrite rnd_1, (rnd_id 2 f64_two), rnd_0. replace (0 * 2) with 0 by lra. rewrite rnd_0, Rmult_0_r, rnd_0.
  rewrite (Rmult_0_l 1), rnd_0, Rmult_0_l, rnd_0, Rplus_0_l, rnd_1. replace (1 / 2 * 2) with 1 by lra. rewrite rnd_1. cbn [bpowi]. replace (1 * 1) with 1 by lra. rewrite rnd_1. replace (1 * 1) with 1 by lra. rewrite !rnd_1.
  rewrite ?Rmult_1_r, ?rnd_1, ?Rmult_1_l. rewrite Rinv_1, rnd_1, ?Rmult_1_l. rewrite (rnd_id (1 / 2) f64_half).
  assert (E : 1 / 2 <= exp (1 / 2) - 1 <= 1).
  { pose proof (exp_ineq1_le (1 / 2)). split; [lra | ]. apply Rnot_lt_le. intros C. assert (A : 2 * 2 < exp (1 / 2) * exp (1 / 2)) by (apply Rmult_gt_0_lt_compat; lra).
    rewrite <- exp_plus in A. replace (1 / 2 + 1 / 2) with 1 in A by lra. pose proof exp_le_3. lra. }
  assert (M : forall v, 1 / 2 <= v <= 1 -> 1 / 2 <= rnd v <= 1).
  { intros v [V1 V2]. apply rnd_le in V1, V2. rewrite (rnd_id (1 / 2) f64_half) in V1. rewrite rnd_1 in V2. lra. }
  apply M. apply M. exact E.
Qed.

(** started at the solution, with the default tolerance: the result is within 10^-13 of the exact energy *)
Example C52_cross_case : exists z a x',
  site_law 1 (strb exact_libm one_assoc 1 [1] 0 1 1) (sab exact_libm one_assoc) (sbb exact_libm one_assoc) (denb exact_libm one_assoc [1]) z /\
  (forall l, (l < 2)%nat -> 1 / 2 <= nth l z 0 < 1) /\
  @cross_association BE gauss_f64 one_assoc 1 [1] [1] 0 1 1 1 (/ 10 ^ 10) (Some z) = (Ok a, Some x') /\
  Rabs (a - site_energy 1 (sab exact_libm one_assoc) (sbb exact_libm one_assoc) (denb exact_libm one_assoc [1]) z) <= / 10 ^ 13.
Proof.
  pose proof one_strength as St. pose proof exact_libm_ok as LO. pose proof u_pos as U0. pose proof u_small as U1.
  set (d := strb exact_libm one_assoc 1 [1] 0 1 1) in *.
  assert (Hstr : forall i j, (i < p_nassoc one_assoc)%nat -> (j < p_nassoc one_assoc)%nat -> 0 <= d i j).
  { cbn [one_assoc p_nassoc]. intros [ | i] [ | j] Hi Hj; try lia. lra. }
  assert (Hnn : forall i, (i < p_nassoc one_assoc)%nat -> 0 <= sab exact_libm one_assoc i /\ 0 <= sbb exact_libm one_assoc i /\ 0 <= denb exact_libm one_assoc [1] i).
  { cbn [one_assoc p_nassoc]. intros [ | i] Hi; [ | lia]. unfold sab, sbb, denb, compb. cbn. lra. }
  assert (Hn : INR (p_nassoc one_assoc) <= 10 ^ 6) by (cbn; lra).
  assert (V0 : sab exact_libm one_assoc 0 = 1 /\ sbb exact_libm one_assoc 0 = 1 /\ denb exact_libm one_assoc [1] 0 = 1) by (unfold sab, sbb, denb, compb; cbn; auto). destruct V0 as (Va & Vb & Vr).
  destruct (C14_exists_unique 1 d (sab exact_libm one_assoc) (sbb exact_libm one_assoc) (denb exact_libm one_assoc [1]) Hstr Hnn) as (z & Hz & Z1 & _).
  assert (Zr : 1 / 2 <= nth 0 z 0 < 1 /\ 1 / 2 <= nth 1 z 0 < 1).
  { destruct Hz as (_ & _ & Hl). destruct (Hl 0%nat ltac:(lia)) as [E1 E2]. destruct (Z1 0%nat ltac:(lia)) as [F1 F2]. unfold bonds_a, bonds_b in E1, E2. cbn [seq rsum] in E1, E2. rewrite Va, Vb, Vr in *.
    unfold fa, fb in *. cbn [Nat.add] in *. set (a := nth 0 z 0) in *. set (b := nth 1 z 0) in *. set (w := d 0%nat 0%nat) in *. clearbody a b w.
    assert (Hab : 0 < b * w <= 1 /\ 0 < a * w <= 1) by (split; (split; [apply Rmult_lt_0_compat; lra | rewrite <- (Rmult_1_l 1); apply Rmult_le_compat; lra])). destruct Hab as [[B1 B2] [A1 A2]].
    assert (Ka : a + a * (b * w) = 1) by lra. assert (Kb : b + b * (a * w) = 1) by lra.
    assert (0 < a * (b * w) <= a * 1) by (split; [apply Rmult_lt_0_compat; lra | apply Rmult_le_compat_l; lra]). assert (0 < b * (a * w) <= b * 1) by (split; [apply Rmult_lt_0_compat; lra | apply Rmult_le_compat_l; lra]).
    lra. }
  assert (Zb : forall l, (l < 2)%nat -> 1 / 2 <= nth l z 0 < 1) by (intros [ | [ | l]] Hl'; try lia; apply Zr).
  assert (Ee : eqn_error 1 = 12 * u) by (unfold eqn_error; cbn; lra).
  assert (Hd : @nltb BE (@nsum BE [1]) f_eps = false).
  { unfold BE. rewrite nsum_bsum. cbn [bsum fold_left]. rewrite Rplus_0_l, rnd_1. cbn [nltb BNum]. apply Rltb_false. unfold f_eps. cbn [nlit BNum]. rewrite <- rnd_1. apply rnd_le. unfold Rlit. cbn. lra. }
  destruct (C52_cross_root exact_libm gauss_f64 one_assoc 1 [1] [1] 0 1 1 gauss_f64_complete Hn Hstr Hnn 1 (/ 10 ^ 10) (1 / 2) z) as (a & x' & E); auto; try lra.
  { intros l Hl. apply Zb. exact Hl. }
  { change (p_nassoc one_assoc) with 1%nat. rewrite Ee. lra. }
  { change (p_nassoc one_assoc) with 1%nat. rewrite Ee. cbn [INR]. lra. }
  exists z, a, x'. split; [exact Hz | ]. split; [exact Zb | ]. split; [exact E | ].
  destruct (C52_cross_association exact_libm gauss_f64 (2 * u) one_assoc 1 [1] [1] 0 1 1 LO gauss_f64_stable ltac:(lra) Hn Hstr Hnn 1 (/ 10 ^ 10) (Some z) a (Some x')) as (k & y & Hk & Y0 & _ & B); auto; try lra.
  { destruct Hz as [Lz _]. exact Lz. }
  assert (k = 0)%nat by lia. subst k. cbn [first_guess_b] in Y0. 
  destruct (B (1 / 2) z) as (Q1 & _ & Q3); auto; try lra.
  { intros l Hl. rewrite Y0. apply Zb. exact Hl. }
  { change (p_nassoc one_assoc) with 1%nat. rewrite Ee. lra. }
  { change (p_nassoc one_assoc) with 1%nat. rewrite Ee. lra. }
  eapply Rle_trans; [exact Q3 | ]. change (p_nassoc one_assoc) with 1%nat in *. rewrite Ee in *. set (th := (11.6 * (/ 10 ^ 10) ^ 2 + 20 * (2 * u) * / 10 ^ 10 + 9.6 * (12 * u)) / (1 / 2)) in *.
  cbn [seq rsum INR]. rewrite Va, Vb, Vr.
  assert (Ht : 0 <= th <= 26 / 10 ^ 15) by (unfold th, u; lra). set (q := / (1 - th)) in *.
  assert (Hq : q <= 1 + 27 / 10 ^ 15). { unfold q. apply Rmult_le_reg_l with (1 - th); [lra | ]. rewrite Rinv_r by lra. assert (th * (27 / 10 ^ 15) <= 1 / 10 ^ 15) by (apply Rle_trans with (26 / 10 ^ 15 * (27 / 10 ^ 15)); [apply Rmult_le_compat_r; lra | lra]). lra. }
  assert (Ln : forall l, (l < 2)%nat -> Rabs (ln (nth l z 0)) <= 1).
  { intros l Hl. destruct (Zb l Hl) as [Z2 Z3]. assert (N0 : ln (nth l z 0) < ln 1) by (apply ln_increasing; lra). rewrite ln_1 in N0. rewrite Rabs_left1 by lra. rewrite <- ln_Rinv by lra.
    assert (1 <= / nth l z 0 <= 2) by (split; [rewrite <- Rinv_1 at 1; apply Rinv_le_contravar; lra | replace 2 with (/ (1 / 2)) by lra; apply Rinv_le_contravar; lra]).
    pose proof (exp_ineq1_le (ln (/ nth l z 0))) as X. rewrite exp_ln in X by lra. lra. }
  pose proof (Ln 0%nat ltac:(lia)) as L0. pose proof (Ln 1%nat ltac:(lia)) as L1. unfold fa, fb. cbn [Nat.add].
  set (l0 := Rabs (ln (nth 0 z 0))) in *. set (l1 := Rabs (ln (nth 1 z 0))) in *. clearbody q th l0 l1. lra.
Qed.

Print Assumptions C52_cross_association.
Print Assumptions C52_cross_root.
Print Assumptions C52_cross_case.
