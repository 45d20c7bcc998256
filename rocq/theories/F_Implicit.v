(** Implicit function theorem for the mass-action equations x_k (1 + sum_l D_kl x_l) = 1: the
    solution through a point with nonsingular linearisation depends on the coefficients as
    smoothly as they depend on the parameters. *)
From Coq Require Import ZArith QArith Reals Lra Lia List Bool.
From Coquelicot Require Import Coquelicot.
From Verif Require Import Num RNum RSum Tables M_Params F_Params M_Eos F_Transfer XNum DNum F_Level F_Linear.
Import ListNotations.
Local Open Scope R_scope.
Set Bullet Behavior "Strict Subproofs".

Lemma Sum_abs_le n (f : nat -> R) c : (forall i, (i < n)%nat -> Rabs (f i) <= c) -> Rabs (Sum i < n, f i) <= INR n * c.
Proof.
  induction n as [ | n IH]; intros H.
  - cbn. rewrite Rabs_R0. lra.
  - rewrite Sum_S, S_INR. eapply Rle_trans; [apply Rabs_triang | ].
    assert (A := IH (fun i Hi => H i (Nat.lt_lt_succ_r _ _ Hi))). assert (B := H n (Nat.lt_succ_diag_r n)). lra.
Qed.
Lemma bound_nat n (f : nat -> R) : exists M, 0 <= M /\ forall k, (k < n)%nat -> Rabs (f k) <= M.
Proof.
  induction n as [ | n (M & A & B)]; [exists 0; split; [lra | intros; lia] | ].
  exists (M + Rabs (f n)). pose proof (Rabs_pos (f n)). split; [lra | ]. intros k Hk.
  destruct (Nat.eq_dec k n) as [-> | ]; [lra | ]. assert (C := B k ltac:(lia)). lra.
Qed.
Lemma bound_nat2 n (f : nat -> nat -> R) : exists M, 0 <= M /\ forall k l, (k < n)%nat -> (l < n)%nat -> Rabs (f k l) <= M.
Proof.
  assert (H : forall m, exists M, 0 <= M /\ forall k l, (k < m)%nat -> (l < n)%nat -> Rabs (f k l) <= M).
  { induction m as [ | m (M & A & B)]; [exists 0; split; [lra | intros; lia] | ].
    destruct (bound_nat n (f m)) as (M' & A' & B'). exists (M + M'). split; [lra | ]. intros k l Hk Hl.
    destruct (Nat.eq_dec k m) as [-> | ]; [specialize (B' l Hl); lra | ]. specialize (B k l ltac:(lia) Hl). lra. }
  apply H.
Qed.
Lemma locally_forall n (x : R) (Q : nat -> R -> Prop) : (forall i, (i < n)%nat -> locally x (Q i)) ->
  locally x (fun y => forall i, (i < n)%nat -> Q i y).
Proof.
  induction n as [ | n IH]; intros H.
  - apply filter_forall. intros; lia.
  - eapply filter_imp; [ | exact (filter_and _ _ (IH (fun i Hi => H i (Nat.lt_lt_succ_r _ _ Hi))) (H n (Nat.lt_succ_diag_r n)))].
    intros y [A B] i Hi. destruct (Nat.eq_dec i n) as [-> | ]; auto. apply A. lia.
Qed.
Lemma is_derive_Sum n (f : nat -> R -> R) (d : nat -> R) x : (forall i, (i < n)%nat -> is_derive (f i) x (d i)) ->
  is_derive (fun y => Sum i < n, f i y) x (Sum i < n, d i).
Proof.
  induction n as [ | n IH]; intros H.
  - apply (is_derive_ext (fun _ => 0)); [reflexivity | ]. apply (is_derive_const (V := R_NormedModule)).
  - rewrite Sum_S. apply (is_derive_ext (fun y => (Sum i < n, f i y) + f n y)); [intros; rewrite Sum_S; reflexivity | ].
    apply (is_derive_plus (fun y => Sum i < n, f i y) (f n)); auto.
Qed.

Lemma ball_R (x e : R) : @ball R_UniformSpace 0 e x <-> Rabs x < e.
Proof.
  unfold ball. cbn. unfold AbsRing_ball, abs, minus, plus, opp. cbn. replace (x + - 0) with x by ring. tauto.
Qed.

(* ------------------------------------------------------------------- contractions of R^N *)
Section Contraction.
  Variables (N : nat) (Phi : (nat -> R) -> nat -> R) (r kap : R).
  Hypothesis Hr : 0 <= r.
  Hypothesis Hk : 0 <= kap < 1.
  Definition inb (e : nat -> R) : Prop := forall k, (k < N)%nat -> Rabs (e k) <= r.
  Hypothesis Hself : forall e, inb e -> inb (Phi e).
  Hypothesis Hcon : forall e e' d, inb e -> inb e' -> (forall l, (l < N)%nat -> Rabs (e l - e' l) <= d) ->
    forall k, (k < N)%nat -> Rabs (Phi e k - Phi e' k) <= kap * d.
  Definition iter (i : nat) : nat -> R := Nat.iter i Phi (fun _ => 0).
  Definition fixp (k : nat) : R := real (Lim_seq (fun i => iter i k)).
  Lemma iter_inb i : inb (iter i).
  Proof. induction i as [ | i IH]; [intros k _; cbn; rewrite Rabs_R0; auto | apply Hself; exact IH]. Qed.
  Lemma iter_close m i k : (k < N)%nat -> Rabs (iter (i + m) k - iter i k) <= kap ^ i * r.
  Proof.
    revert k. induction i as [ | i IH]; intros k Hk'.
    - cbn [pow Nat.add]. change (iter 0 k) with 0. rewrite Rminus_0_r, Rmult_1_l. apply iter_inb; auto.
    - cbn [Nat.add pow]. rewrite Rmult_assoc. change (iter (S (i + m))) with (Phi (iter (i + m))). change (iter (S i)) with (Phi (iter i)).
      apply Hcon; auto using iter_inb.
  Qed.
  Lemma pow_lim C : is_lim_seq (fun i => C * kap ^ i) 0.
  Proof.
    replace (Finite 0) with (Rbar_mult (Finite C) (Finite 0)) by (cbn; f_equal; ring).
    apply is_lim_seq_scal_l. apply is_lim_seq_geom. rewrite Rabs_pos_eq; lra.
  Qed.
  Lemma zero_of_pow a C : 0 <= a -> (forall i, a <= C * kap ^ i) -> a = 0.
  Proof.
    intros Ha H. assert (A : Rbar_le a 0).
    { apply (is_lim_seq_le (fun _ => a) (fun i => C * kap ^ i)); [exact H | apply is_lim_seq_const | apply pow_lim]. }
    cbn in A. lra.
  Qed.
  Lemma iter_lim k : (k < N)%nat -> is_lim_seq (fun i => iter i k) (fixp k).
  Proof.
    intros Hk'. unfold fixp. apply Lim_seq_correct'. apply ex_lim_seq_cauchy_corr. intros eps.
    destruct (proj2 (is_lim_seq_spec _ _) (pow_lim r) (pos_div_2 eps)) as (n0 & Hn0). cbn in Hn0.
    exists n0. intros a b Ha Hb.
    assert (S : forall c, (n0 <= c)%nat -> Rabs (iter c k - iter n0 k) < eps / 2).
    { intros c Hc. replace c with (n0 + (c - n0))%nat by lia. eapply Rle_lt_trans; [apply iter_close; auto | ].
      specialize (Hn0 n0 (le_n _)). rewrite Rminus_0_r in Hn0. apply Rabs_def2 in Hn0. lra. }
    pose proof (S a Ha). pose proof (S b Hb). replace (iter a k - iter b k) with ((iter a k - iter n0 k) - (iter b k - iter n0 k)) by ring.
    eapply Rle_lt_trans; [apply Rabs_triang | ]. rewrite Rabs_Ropp. lra.
  Qed.
  Lemma fixp_close i k : (k < N)%nat -> Rabs (fixp k - iter i k) <= kap ^ i * r.
  Proof.
    intros Hk'.
    assert (A : Rbar_le (Rabs (fixp k - iter i k)) (kap ^ i * r)); [ | exact A].
    apply (is_lim_seq_le (fun m => Rabs (iter (i + m) k - iter i k)) (fun _ => kap ^ i * r)).
    - intros m. apply iter_close; auto.
    - apply (is_lim_seq_abs (fun m => iter (i + m) k - iter i k) (Finite (fixp k - iter i k))).
      apply is_lim_seq_minus'; [ | apply is_lim_seq_const].
      apply (is_lim_seq_ext (fun m => iter (m + i) k)); [intros; rewrite Nat.add_comm; auto | ].
      apply (is_lim_seq_incr_n (fun m => iter m k)). apply iter_lim; auto.
    - apply is_lim_seq_const.
  Qed.
  Lemma fixp_inb : inb fixp.
  Proof. intros k Hk'. pose proof (fixp_close 0 k Hk') as A. cbn [pow] in A. change (iter 0 k) with 0 in A. rewrite Rminus_0_r in A. lra. Qed.
  Theorem fixp_eq k : (k < N)%nat -> Phi fixp k = fixp k.
  Proof.
    intros Hk'. assert (Z : Rabs (Phi fixp k - fixp k) = 0).
    { apply (zero_of_pow _ (2 * r)); [apply Rabs_pos | ]. intros i.
      replace (Phi fixp k - fixp k) with ((Phi fixp k - iter (S i) k) - (fixp k - iter (S i) k)) by ring.
      eapply Rle_trans; [apply Rabs_triang | ]. rewrite Rabs_Ropp.
      assert (A : Rabs (Phi fixp k - iter (S i) k) <= kap * (kap ^ i * r)).
      { change (iter (S i)) with (Phi (iter i)). apply Hcon; auto using fixp_inb, iter_inb. intros l Hl. apply fixp_close; auto. }
      assert (B := fixp_close (S i) k Hk'). cbn [pow] in B.
      assert (0 <= kap ^ i * r) by (apply Rmult_le_pos; auto; apply pow_le; lra).
      assert (kap * (kap ^ i * r) <= 1 * (kap ^ i * r)) by (apply Rmult_le_compat_r; lra). lra. }
    apply Rminus_diag_uniq. destruct (Req_dec (Phi fixp k - fixp k) 0) as [ | N0]; auto. apply Rabs_no_R0 in N0. contradiction.
  Qed.
End Contraction.

(* --------------------------------------------------- one parameter, at one point *)
Section Implicit.
  Variables (N : nat) (D : nat -> nat -> R -> R) (xi : nat -> R) (G : nat -> nat -> R).
  Definition law (d : nat -> nat -> R) (y : nat -> R) : Prop :=
    forall k, (k < N)%nat -> y k * (1 + Sum l < N, d k l * y l) = 1.
  Definition jac (d : nat -> nat -> R) (y : nat -> R) (k m : nat) : R :=
    delta_ k m * (1 + Sum l < N, d k l * y l) + y k * d k m.
  Lemma jac_row d y e k : (k < N)%nat ->
    (Sum m < N, jac d y k m * e m) = e k * (1 + Sum l < N, d k l * y l) + y k * Sum l < N, d k l * e l.
  Proof.
    intros Hk. unfold jac.
    rewrite (Sum_ext N _ (fun m => delta_ k m * (e m * (1 + Sum l < N, d k l * y l)) + y k * (d k m * e m))) by (intros; ring).
    rewrite rsum_plus, rsum_scal. f_equal. apply (Sum_delta_l N (fun m => e m * (1 + Sum l < N, d k l * y l))); auto.
  Qed.
  Lemma law_shift d y e k : (k < N)%nat ->
    (y k + e k) * (1 + Sum l < N, d k l * (y l + e l)) - 1
    = (y k * (1 + Sum l < N, d k l * y l) - 1) + (Sum m < N, jac d y k m * e m) + e k * Sum l < N, d k l * e l.
  Proof.
    intros Hk. rewrite jac_row by auto.
    replace (Sum l < N, d k l * (y l + e l)) with ((Sum l < N, d k l * y l) + Sum l < N, d k l * e l); [ring | ].
    rewrite <- rsum_plus. apply Sum_ext. intros; ring.
  Qed.

  Let D0 k l := D k l 0.
  Hypothesis H0 : law D0 xi.
  Hypothesis HJG : forall k m, (k < N)%nat -> (m < N)%nat -> (Sum l < N, jac D0 xi k l * G l m) = delta_ k m.
  Definition Psi (x : R) (e : nat -> R) (m : nat) : R :=
    (Sum l < N, (D m l x - D m l 0) * ((xi m + e m) * (xi l + e l))) + Sum l < N, D m l 0 * (e m * e l).
  Definition Phi (x : R) (e : nat -> R) (k : nat) : R := - Sum m < N, G k m * Psi x e m.
  Definition eshift (x : R) (k : nat) : R := fixp (Phi x) k.

  Lemma Phi_law x e : (forall k, (k < N)%nat -> Phi x e k = e k) -> law (fun k l => D k l x) (fun k => xi k + e k).
  Proof.
    intros F k Hk. pose proof (law_shift D0 xi e k Hk) as S. rewrite (H0 k Hk) in S.
    assert (J : (Sum m < N, jac D0 xi k m * e m) = - Psi x e k).
    { rewrite (Sum_ext N _ (fun m => - Sum j < N, jac D0 xi k m * G m j * Psi x e j)).
      2:{ intros m Hm. rewrite <- (F m Hm). unfold Phi. rewrite <- (Rmult_1_l (jac D0 xi k m)) at 1.
          replace (1 * jac D0 xi k m * - (Sum m0 < N, G m m0 * Psi x e m0)) with (- (jac D0 xi k m * Sum m0 < N, G m m0 * Psi x e m0)) by ring.
          f_equal. rewrite <- rsum_scal. apply Sum_ext. intros; ring. }
      rewrite rsum_opp. f_equal. rewrite Sum_swap2.
      rewrite (Sum_ext N _ (fun j => delta_ k j * Psi x e j)); [apply Sum_delta_l; auto | ].
      intros j Hj. rewrite <- (HJG k j Hk Hj), <- rsum_scal_r. reflexivity. }
    rewrite J in S. unfold Psi in S.
    assert (E1 : (Sum l < N, (D k l x - D k l 0) * ((xi k + e k) * (xi l + e l)))
      = (xi k + e k) * ((Sum l < N, D k l x * (xi l + e l)) - Sum l < N, D0 k l * (xi l + e l))).
    { rewrite <- rsum_minus, <- rsum_scal. apply Sum_ext. intros. unfold D0. ring. }
    assert (E2 : (Sum l < N, D k l 0 * (e k * e l)) = e k * Sum l < N, D0 k l * e l).
    { rewrite <- rsum_scal. apply Sum_ext. intros. unfold D0. ring. }
    rewrite E1, E2 in S. lra.
  Qed.

  (** bounds *)
  Variables (A M g : R).
  Hypothesis HA : 0 <= A /\ forall k, (k < N)%nat -> Rabs (xi k) <= A.
  Hypothesis HM : 0 <= M /\ forall k l, (k < N)%nat -> (l < N)%nat -> Rabs (D k l 0) <= M.
  Hypothesis Hg : 0 <= g /\ forall k l, (k < N)%nat -> (l < N)%nat -> Rabs (G k l) <= g.
  Let B := A + 1.
  Let n := INR N.
  Let Q := n * n * g.
  Let C := Q * B * B.
  Definition wmax : R := / (2 * C + 4 * Q * B + 8 * Q * M * C + 1).
  Let Hn : 0 <= n. Proof. apply pos_INR. Qed.
  Let HQ : 0 <= Q. Proof. unfold Q. destruct Hg. apply Rmult_le_pos; auto. apply Rmult_le_pos; auto. Qed.
  Let HB : 1 <= B. Proof. unfold B. destruct HA. lra. Qed.
  Let HC : 0 <= C. Proof. unfold C. apply Rmult_le_pos; [apply Rmult_le_pos | ]; lra. Qed.
  Let QM : 0 <= Q * M. Proof. apply Rmult_le_pos; auto. apply HM. Qed.
  Let QMC : 0 <= Q * M * C. Proof. apply Rmult_le_pos; auto. Qed.
  Let QB : 0 <= Q * B. Proof. apply Rmult_le_pos; lra. Qed.
  Lemma wmax_pos : 0 < wmax.
  Proof. unfold wmax. apply Rinv_0_lt_compat. pose proof QMC. pose proof QB. pose proof HC. lra. Qed.

  Section AtX.
    Variables (x w : R).
    Hypothesis Hw : 0 <= w <= wmax.
    Hypothesis Hwx : forall k l, (k < N)%nat -> (l < N)%nat -> Rabs (D k l x - D k l 0) <= w.
    Let r := 2 * C * w.
    Let W1 : 2 * C * w <= 1 /\ 4 * Q * B * w + 8 * Q * M * C * w <= 1.
    Proof.
      assert (P : 0 < 2 * C + 4 * Q * B + 8 * Q * M * C + 1) by (pose proof QMC; pose proof QB; pose proof HC; lra).
      assert (E : w * (2 * C + 4 * Q * B + 8 * Q * M * C + 1) <= 1).
      { replace 1 with (wmax * (2 * C + 4 * Q * B + 8 * Q * M * C + 1)) at 2 by (unfold wmax; field; lra).
        apply Rmult_le_compat_r; lra. }
      assert (0 <= C * w) by (apply Rmult_le_pos; lra). assert (0 <= Q * B * w) by (apply Rmult_le_pos; lra).
      assert (0 <= Q * M * C * w) by (apply Rmult_le_pos; lra). lra.
    Qed.
    Let Hr0 : 0 <= r. Proof. unfold r. apply Rmult_le_pos; lra. Qed.
    Let Hr1 : r <= 1. Proof. unfold r. lra. Qed.
    Let shift_bound e k : inb N r e -> (k < N)%nat -> Rabs (xi k + e k) <= B.
    Proof.
      intros He Hk. eapply Rle_trans; [apply Rabs_triang | ]. specialize (He k Hk). destruct HA as [_ HA']. specialize (HA' k Hk). unfold B. lra.
    Qed.
    Lemma mul3 a b c a' b' c' : Rabs a <= a' -> Rabs b <= b' -> Rabs c <= c' -> Rabs (a * (b * c)) <= a' * (b' * c').
    Proof.
      intros. rewrite !Rabs_mult. pose proof (Rabs_pos a). pose proof (Rabs_pos b). pose proof (Rabs_pos c).
      apply Rmult_le_compat; auto; [apply Rmult_le_pos; auto | apply Rmult_le_compat; auto].
    Qed.
    Lemma Phi_self e : inb N r e -> inb N r (Phi x e).
    Proof.
      intros He k Hk. unfold Phi. rewrite Rabs_Ropp.
      assert (P : forall m, (m < N)%nat -> Rabs (Psi x e m) <= n * (w * (B * B)) + n * (M * (r * r))).
      { intros m Hm. unfold Psi. eapply Rle_trans; [apply Rabs_triang | ]. apply Rplus_le_compat.
        - apply Sum_abs_le. intros l Hl. apply mul3; auto.
        - apply Sum_abs_le. intros l Hl. apply mul3; [apply HM | | ]; auto. }
      eapply Rle_trans; [apply (Sum_abs_le N _ (g * (n * (w * (B * B)) + n * (M * (r * r))))) | ].
      - intros m Hm. rewrite Rabs_mult. apply Rmult_le_compat; auto using Rabs_pos. apply Hg; auto.
      - fold n. replace (n * (g * (n * (w * (B * B)) + n * (M * (r * r))))) with (C * w + Q * M * r * r) by (unfold C, Q; ring).
        assert (Q * M * r <= / 2). { unfold r. destruct W1 as [_ W2]. assert (0 <= Q * B * w) by (apply Rmult_le_pos; lra). lra. }
        assert (Q * M * r * r <= / 2 * r) by (apply Rmult_le_compat_r; auto). unfold r in *. lra.
    Qed.
    Lemma prod_diff a b a' b' d c c' : Rabs (a - a') <= d -> Rabs (b - b') <= d -> Rabs b <= c -> Rabs a' <= c' ->
      Rabs (a * b - a' * b') <= d * c + c' * d.
    Proof.
      intros. replace (a * b - a' * b') with ((a - a') * b + a' * (b - b')) by ring.
      eapply Rle_trans; [apply Rabs_triang | ]. rewrite !Rabs_mult.
      apply Rplus_le_compat; apply Rmult_le_compat; auto using Rabs_pos.
    Qed.
    Lemma Phi_con e e' d : inb N r e -> inb N r e' -> (forall l, (l < N)%nat -> Rabs (e l - e' l) <= d) ->
      forall k, (k < N)%nat -> Rabs (Phi x e k - Phi x e' k) <= / 2 * d.
    Proof.
      intros He He' Hd k Hk. unfold Phi.
      assert (D0' : 0 <= d) by (eapply Rle_trans; [apply Rabs_pos | exact (Hd k Hk)]).
      replace (- (Sum m < N, G k m * Psi x e m) - - (Sum m < N, G k m * Psi x e' m))
        with (- ((Sum m < N, G k m * Psi x e m) - Sum m < N, G k m * Psi x e' m)) by ring.
      rewrite Rabs_Ropp, <- rsum_minus.
      assert (P : forall m, (m < N)%nat -> Rabs (Psi x e m - Psi x e' m) <= n * (w * (d * B + B * d)) + n * (M * (d * r + r * d))).
      { intros m Hm. unfold Psi.
        match goal with |- Rabs ((?a + ?b) - (?c + ?f)) <= _ => replace ((a + b) - (c + f)) with ((a - c) + (b - f)) by ring end.
        eapply Rle_trans; [apply Rabs_triang | ]. rewrite <- !rsum_minus. apply Rplus_le_compat; apply Sum_abs_le; intros l Hl.
        - rewrite <- Rmult_minus_distr_l, Rabs_mult. apply Rmult_le_compat; auto using Rabs_pos.
          apply prod_diff; auto.
          + replace (xi m + e m - (xi m + e' m)) with (e m - e' m) by ring. auto.
          + replace (xi l + e l - (xi l + e' l)) with (e l - e' l) by ring. auto.
        - rewrite <- Rmult_minus_distr_l, Rabs_mult. apply Rmult_le_compat; auto using Rabs_pos; [apply HM; auto | ].
          apply prod_diff; auto. }
      eapply Rle_trans; [apply (Sum_abs_le N _ (g * (n * (w * (d * B + B * d)) + n * (M * (d * r + r * d))))) | ].
      - intros m Hm. rewrite <- Rmult_minus_distr_l, Rabs_mult. apply Rmult_le_compat; auto using Rabs_pos. apply Hg; auto.
      - fold n. replace (n * (g * (n * (w * (d * B + B * d)) + n * (M * (d * r + r * d))))) with ((2 * Q * B * w + 2 * Q * M * r) * d) by (unfold Q; ring).
        apply Rmult_le_compat_r; auto. unfold r. destruct W1. lra.
    Qed.
    Lemma eshift_small k : (k < N)%nat -> Rabs (eshift x k) <= 2 * C * w.
    Proof. intros Hk. apply (fixp_inb N (Phi x) r (/ 2) Hr0 ltac:(lra) Phi_self Phi_con k Hk). Qed.
    Lemma eshift_fix k : (k < N)%nat -> Phi x (eshift x) k = eshift x k.
    Proof. intros Hk. apply (fixp_eq N (Phi x) r (/ 2) Hr0 ltac:(lra) Phi_self Phi_con k Hk). Qed.
    Lemma eshift_law : law (fun k l => D k l x) (fun k => xi k + eshift x k).
    Proof. apply Phi_law. apply eshift_fix. Qed.
  End AtX.

  (** differentiability *)
  Variable D' : nat -> nat -> R.
  Hypothesis HD : forall k l, (k < N)%nat -> (l < N)%nat -> is_derive (D k l) 0 (D' k l).

  Lemma derive_lip (f : R -> R) d : is_derive f 0 d -> locally 0 (fun x => Rabs (f x - f 0) <= (Rabs d + 1) * Rabs x).
  Proof.
    intros H. apply is_derive_Reals in H. destruct (H 1 Rlt_0_1) as (e & He). exists e. intros x Hx.
    change (UniformSpace.sort R_UniformSpace) with R in x. apply (proj1 (ball_R x e)) in Hx. change (NormedModule.sort _ R_NormedModule) with R in d.
    destruct (Req_dec x 0) as [-> | Nx].
    - rewrite Rminus_diag_eq, Rabs_R0, Rmult_0_r by reflexivity. lra.
    - specialize (He x Nx Hx). rewrite Rplus_0_l in He.
      replace (f x - f 0) with (((f x - f 0) / x - d) * x + d * x) by (field; auto).
      eapply Rle_trans; [apply Rabs_triang | ]. rewrite !Rabs_mult. pose proof (Rabs_pos x).
      assert (Rabs ((f x - f 0) / x - d) * Rabs x <= 1 * Rabs x) by (apply Rmult_le_compat_r; lra). lra.
  Qed.
  Lemma coeff_lip : exists W, 0 <= W /\ locally 0 (fun x => forall k l, (k < N)%nat -> (l < N)%nat -> Rabs (D k l x - D k l 0) <= W * Rabs x).
  Proof.
    destruct (bound_nat2 N D') as (W & W0 & HW). exists (W + 1). split; [lra | ].
    assert (T : locally 0 (fun x => forall k, (k < N)%nat -> forall l, (l < N)%nat -> Rabs (D k l x - D k l 0) <= (W + 1) * Rabs x));
      [ | eapply filter_imp; [ | exact T]; auto].
    apply (locally_forall N 0 (fun k x => forall l, (l < N)%nat -> Rabs (D k l x - D k l 0) <= (W + 1) * Rabs x)). intros k Hk.
    apply (locally_forall N 0 (fun l x => Rabs (D k l x - D k l 0) <= (W + 1) * Rabs x)). intros l Hl.
    eapply filter_imp; [ | exact (derive_lip _ _ (HD k l Hk Hl))]. intros x Hx. eapply Rle_trans; [exact Hx | ].
    apply Rmult_le_compat_r; [apply Rabs_pos | ]. specialize (HW k l Hk Hl). lra.
  Qed.
  Lemma locally_small c : 0 < c -> locally 0 (fun x => Rabs x < c).
  Proof. intros Hc. exists (mkposreal c Hc). intros x Hx. exact (proj1 (ball_R x c) Hx). Qed.
  Theorem eshift_local : exists E, 0 <= E /\ locally 0 (fun x =>
    (forall k, (k < N)%nat -> Rabs (eshift x k) <= E * Rabs x) /\
    (forall k, (k < N)%nat -> Phi x (eshift x) k = eshift x k) /\
    law (fun k l => D k l x) (fun k => xi k + eshift x k)).
  Proof.
    destruct coeff_lip as (W & W0 & HW). exists (2 * C * W). split; [apply Rmult_le_pos; lra | ].
    assert (Cp : 0 < wmax / (W + 1)) by (apply Rdiv_lt_0_compat; [apply wmax_pos | lra]).
    eapply filter_imp; [ | exact (filter_and _ _ HW (locally_small _ Cp))]. intros x [A1 A2].
    assert (Hw : 0 <= W * Rabs x <= wmax).
    { pose proof (Rabs_pos x). split; [apply Rmult_le_pos; auto | ].
      assert ((W + 1) * Rabs x <= (W + 1) * (wmax / (W + 1))) by (apply Rmult_le_compat_l; lra).
      replace ((W + 1) * (wmax / (W + 1))) with wmax in H1 by (field; lra). lra. }
    split; [ | split].
    - intros k Hk. rewrite Rmult_assoc. exact (eshift_small x (W * Rabs x) Hw A1 k Hk).
    - exact (eshift_fix x (W * Rabs x) Hw A1).
    - exact (eshift_law x (W * Rabs x) Hw A1).
  Qed.
  Lemma eshift_0 k : (k < N)%nat -> eshift 0 k = 0.
  Proof.
    intros Hk. destruct eshift_local as (E & _ & HE). apply locally_singleton in HE. destruct HE as (HE & _).
    specialize (HE k Hk). rewrite Rabs_R0, Rmult_0_r in HE. pose proof (Rabs_pos (eshift 0 k)).
    destruct (Req_dec (eshift 0 k) 0) as [ | NZ]; auto. apply Rabs_no_R0 in NZ. lra.
  Qed.
  Lemma lip_continuous (f : R -> R) E : 0 <= E -> locally 0 (fun x => Rabs (f x - f 0) <= E * Rabs x) -> continuous f 0.
  Proof.
    intros HE H. apply continuity_pt_filterlim. apply continuity_pt_locally. intros eps.
    assert (Cp : 0 < eps / (E + 1)) by (apply Rdiv_lt_0_compat; [apply cond_pos | lra]).
    eapply filter_imp; [ | exact (filter_and _ _ H (locally_small _ Cp))]. intros x [A1 A2].
    eapply Rle_lt_trans; [exact A1 | ]. apply Rle_lt_trans with ((E + 1) * Rabs x); [pose proof (Rabs_pos x); lra | ].
    replace (pos eps) with ((E + 1) * (eps / (E + 1))) by (field; lra). apply Rmult_lt_compat_l; lra.
  Qed.
  Lemma derive_prod_cont (u c : R -> R) a : is_derive u 0 a -> u 0 = 0 -> continuous c 0 -> is_derive (fun x => u x * c x) 0 (a * c 0).
  Proof.
    intros Hu U0 Hc. apply is_derive_Reals. apply is_derive_Reals in Hu.
    apply continuity_pt_filterlim in Hc. 
    assert (Hq : forall eps, 0 < eps -> exists d : posreal, forall h, h <> 0 -> Rabs h < d -> Rabs ((u (0 + h) - u 0) / h - a) < eps) by exact Hu.
    intros eps Heps.
    destruct (Hq (eps / (2 * (Rabs (c 0) + 1)))) as (d1 & H1).
    { apply Rdiv_lt_0_compat; auto. pose proof (Rabs_pos (c 0)). lra. }
    set (e2 := Rmin 1 (eps / (2 * (Rabs a + 1)))).
    assert (E2 : 0 < e2). { apply Rmin_glb_lt; [lra | ]. apply Rdiv_lt_0_compat; auto. pose proof (Rabs_pos a). lra. }
    destruct (proj1 (continuity_pt_locally c 0) Hc (mkposreal e2 E2)) as (d2 & H2). cbn in H2.
    assert (D3 : 0 < Rmin d1 d2) by (apply Rmin_glb_lt; apply cond_pos).
    exists (mkposreal _ D3). intros h Hh0 Hh. cbn in Hh.
    assert (h1 : Rabs h < d1) by (eapply Rlt_le_trans; [exact Hh | apply Rmin_l]).
    assert (h2 : Rabs h < d2) by (eapply Rlt_le_trans; [exact Hh | apply Rmin_r]).
    specialize (H1 h Hh0 h1). 
    assert (H2' : Rabs (c (0 + h) - c 0) < e2).
    { apply H2. apply (proj2 (ball_R _ _)). rewrite Rplus_0_l. exact h2. }
    replace ((u (0 + h) * c (0 + h) - u 0 * c 0) / h - a * c 0)
      with (((u (0 + h) - u 0) / h - a) * c (0 + h) + a * (c (0 + h) - c 0)) by (rewrite U0; field; auto).
    eapply Rle_lt_trans; [apply Rabs_triang | ]. rewrite !Rabs_mult.
    assert (Cb : Rabs (c (0 + h)) <= Rabs (c 0) + 1).
    { replace (c (0 + h)) with (c 0 + (c (0 + h) - c 0)) by ring. eapply Rle_trans; [apply Rabs_triang | ].
      assert (e2 <= 1) by apply Rmin_l. lra. }
    assert (Ab : e2 <= eps / (2 * (Rabs a + 1))) by apply Rmin_r.
    pose proof (Rabs_pos a) as Pa. pose proof (Rabs_pos (c 0)) as Pc. pose proof (Rabs_pos (c (0 + h))). pose proof (Rabs_pos ((u (0 + h) - u 0) / h - a)).
    assert (T1 : Rabs ((u (0 + h) - u 0) / h - a) * Rabs (c (0 + h)) <= eps / (2 * (Rabs (c 0) + 1)) * (Rabs (c 0) + 1)) by (apply Rmult_le_compat; lra).
    replace (eps / (2 * (Rabs (c 0) + 1)) * (Rabs (c 0) + 1)) with (eps / 2) in T1 by (field; lra).
    assert (T2 : Rabs a * Rabs (c (0 + h) - c 0) <= Rabs a * (eps / (2 * (Rabs a + 1)))) by (apply Rmult_le_compat_l; lra).
    assert (T3 : Rabs a * (eps / (2 * (Rabs a + 1))) < eps / 2).
    { replace (eps / 2) with ((Rabs a + 1) * (eps / (2 * (Rabs a + 1)))) by (field; lra).
      apply Rmult_lt_compat_r; [apply Rdiv_lt_0_compat; lra | lra]. }
    lra.
  Qed.
  Lemma derive_quad (q : R -> R) E : q 0 = 0 -> locally 0 (fun x => Rabs (q x) <= E * (Rabs x * Rabs x)) -> is_derive q 0 0.
  Proof.
    intros Q0 [d H]. apply is_derive_Reals. intros eps Heps.
    assert (D3 : 0 < Rmin d (eps / (Rabs E + 1))).
    { apply Rmin_glb_lt; [apply cond_pos | ]. apply Rdiv_lt_0_compat; auto. pose proof (Rabs_pos E). lra. }
    exists (mkposreal _ D3). intros h Hh0 Hh. cbn in Hh.
    assert (h1 : Rabs h < d) by (eapply Rlt_le_trans; [exact Hh | apply Rmin_l]).
    assert (h2 : Rabs h < eps / (Rabs E + 1)) by (eapply Rlt_le_trans; [exact Hh | apply Rmin_r]).
    assert (Hq : Rabs (q h) <= E * (Rabs h * Rabs h)).
    { apply H. apply (proj2 (ball_R _ _)). exact h1. }
    rewrite Q0, Rplus_0_l, !Rminus_0_r. unfold Rdiv. rewrite Rabs_mult, Rabs_inv.
    assert (Ph : 0 < Rabs h) by (apply Rabs_pos_lt; auto).
    apply Rle_lt_trans with (Rabs E * Rabs h).
    - apply Rmult_le_reg_r with (Rabs h); auto. rewrite Rmult_assoc, Rinv_l by lra. rewrite Rmult_1_r, Rmult_assoc.
      eapply Rle_trans; [exact Hq | ]. apply Rmult_le_compat_r; [apply Rmult_le_pos; lra | apply Rle_abs].
    - pose proof (Rabs_pos E). replace eps with ((Rabs E + 1) * (eps / (Rabs E + 1))) by (field; lra).
      apply Rle_lt_trans with ((Rabs E + 1) * Rabs h); [lra | ]. apply Rmult_lt_compat_l; lra.
  Qed.

  Theorem eshift_derive k : (k < N)%nat ->
    is_derive (fun x => eshift x k) 0 (- Sum m < N, G k m * Sum l < N, D' m l * (xi m * xi l)).
  Proof.
    intros Hk. destruct eshift_local as (E & E0 & HE).
    assert (Ce : forall l, (l < N)%nat -> continuous (fun x => eshift x l) 0).
    { intros l Hl. apply (lip_continuous _ E E0). eapply filter_imp; [ | exact HE]. intros x (A1 & _).
      cbv beta. rewrite eshift_0 by auto. rewrite Rminus_0_r. auto. }
    apply (is_derive_ext_loc (fun x => Phi x (eshift x) k)).
    { eapply filter_imp; [ | exact HE]. intros x (_ & A2 & _). auto. }
    unfold Phi. apply (is_derive_opp (fun x => Sum m < N, G k m * Psi x (eshift x) m)).
    apply (is_derive_Sum N (fun m x => G k m * Psi x (eshift x) m)). intros m Hm.
    apply (is_derive_scal (fun x => Psi x (eshift x) m)). unfold Psi.
    replace (Sum l < N, D' m l * (xi m * xi l)) with ((Sum l < N, D' m l * (xi m * xi l)) + Sum l < N, 0) by (rewrite (rsum_zero (seq 0 N) (fun _ => 0)); [ring | auto]).
    apply (is_derive_plus (fun x => Sum l < N, (D m l x - D m l 0) * ((xi m + eshift x m) * (xi l + eshift x l)))
      (fun x => Sum l < N, D m l 0 * (eshift x m * eshift x l))).
    - apply (is_derive_Sum N (fun l x => (D m l x - D m l 0) * ((xi m + eshift x m) * (xi l + eshift x l)))). intros l Hl.
      replace (xi m * xi l) with ((xi m + eshift 0 m) * (xi l + eshift 0 l)) by (rewrite !eshift_0 by auto; ring).
      apply (derive_prod_cont (fun x => D m l x - D m l 0) (fun x => (xi m + eshift x m) * (xi l + eshift x l))).
      + replace (D' m l) with (D' m l - 0) by ring. apply (is_derive_minus (D m l) (fun _ => D m l 0)); [apply HD; auto | ].
        apply (is_derive_const (V := R_NormedModule)).
      + ring.
      + apply (continuous_mult (fun x => xi m + eshift x m) (fun x => xi l + eshift x l));
          apply (continuous_plus (fun _ => _) (fun x => eshift x _)); auto using continuous_const.
    - apply (is_derive_Sum N (fun l x => D m l 0 * (eshift x m * eshift x l))). intros l Hl.
      assert (Z : is_derive (fun x => D m l 0 * (eshift x m * eshift x l)) 0 (D m l 0 * 0)); [ | rewrite Rmult_0_r in Z; exact Z].
      apply (is_derive_scal (fun x => eshift x m * eshift x l)).
      apply (derive_quad _ (E * E)); [rewrite eshift_0 by auto; ring | ].
      eapply filter_imp; [ | exact HE]. intros x (A1 & _). rewrite Rabs_mult.
      replace (E * E * (Rabs x * Rabs x)) with ((E * Rabs x) * (E * Rabs x)) by ring.
      apply Rmult_le_compat; auto using Rabs_pos.
  Qed.
End Implicit.

(* ------------------------------------------------------------------------ any level *)
Lemma fin_choice {A} (a0 : A) n (Q : nat -> A -> Prop) : (forall k, (k < n)%nat -> exists a, Q k a) ->
  exists f, forall k, (k < n)%nat -> Q k (f k).
Proof.
  induction n as [ | n IH]; intros H.
  - exists (fun _ => a0). intros; lia.
  - destruct IH as (f & Hf); [intros k Hk; apply H; lia | ]. destruct (H n (Nat.lt_succ_diag_r n)) as (a & Ha).
    exists (fun k => if Nat.eqb k n then a else f k). intros k Hk. destruct (Nat.eqb_spec k n) as [-> | ]; auto. apply Hf. lia.
Qed.
Lemma msing_ext n H H' : (forall k l, (k < n)%nat -> (l < n)%nat -> H k l = H' k l) -> msing n H -> msing n H'.
Proof.
  intros E M u Hu. apply M. intros k Hk. rewrite <- (Hu k Hk). apply Sum_ext. intros l Hl. rewrite E; auto.
Qed.
Lemma jac_ext N d y y' k m : (k < N)%nat -> (forall l, (l < N)%nat -> y l = y' l) -> jac N d y k m = jac N d y' k m.
Proof.
  intros Hk E. unfold jac. rewrite (E k Hk). do 3 f_equal. apply Sum_ext. intros l Hl. rewrite E; auto.
Qed.
Lemma law_ext N d y y' : (forall l, (l < N)%nat -> y l = y' l) -> law N d y -> law N d y'.
Proof. intros E H k Hk. etransitivity; [ | exact (H k Hk)]. rewrite (E k Hk). do 2 f_equal. apply Sum_ext. intros l Hl. rewrite E; auto. Qed.
Lemma jac_reg L N (D : nat -> nat -> lP L -> R) (X : nat -> lP L -> R) k m : (k < N)%nat -> (m < N)%nat ->
  (forall k l, (k < N)%nat -> (l < N)%nat -> reg L (D k l)) -> (forall k, (k < N)%nat -> reg L (X k)) ->
  reg L (fun z => jac N (fun k l => D k l z) (fun k => X k z) k m).
Proof.
  intros Hk Hm RD RX. unfold jac. apply reg_add; [ | apply reg_mul; auto].
  apply (reg_mul L (fun _ => delta_ k m)); [apply reg_const | ]. apply reg_add; [apply reg_const | ].
  apply (reg_sum L N (fun l z => D k l z * X l z)). intros l Hl. apply reg_mul; auto.
Qed.

Theorem implicit_regular N n : forall (D : nat -> nat -> lP (dual n) -> R) (xi : nat -> R),
  (forall k l, (k < N)%nat -> (l < N)%nat -> reg (dual n) (D k l)) ->
  law N (fun k l => D k l (lz (dual n))) xi ->
  msing N (jac N (fun k l => D k l (lz (dual n))) xi) ->
  exists X : nat -> lP (dual n) -> R,
    (forall k, (k < N)%nat -> reg (dual n) (X k)) /\ (forall k, (k < N)%nat -> X k (lz (dual n)) = xi k) /\
    near (dual n) (fun z => law N (fun k l => D k l z) (fun k => X k z)).
Proof.
  induction n as [ | n IH]; intros D xi RD H0 M.
  - exists (fun k _ => xi k). split; [intros; apply reg_const | split; [auto | exact H0]].
  - cbn [dual] in *. set (L := dual n) in *.
    destruct (IH (fun k l y => D k l (0, y)) xi) as (X0 & R0 & E0 & L0).
    { intros k l Hk Hl. apply (reg_slice L). auto. }
    { exact H0. }
    { exact M. }
    destruct (inverse_regular L N (fun k m y => jac N (fun k l => D k l (0, y)) (fun k => X0 k y) k m)) as (G & RG & EG).
    { intros k l Hk Hl. apply (jac_reg L N (fun k l y => D k l (0, y)) X0); auto. intros k' l' Hk' Hl'. apply (reg_slice L). auto. }
    { eapply msing_ext; [ | exact M]. intros k l Hk Hl. apply (jac_ext N (fun k l => D k l (0, lz L))); auto. intros; symmetry; auto. }
    destruct (fin_choice (fun _ _ => 0) N (fun k (g : nat -> lP L -> R) => forall l, (l < N)%nat -> reg L (g l) /\
        near L (fun y => is_derive (fun x => D k l (x, y)) 0 (g l y)))) as (D' & HD').
    { intros k Hk. apply (fin_choice (fun _ => 0) N (fun l g => reg L g /\ near L (fun y => is_derive (fun x => D k l (x, y)) 0 (g y)))).
      intros l Hl. destruct (reg_slice L _ (RD k l Hk Hl)) as (_ & g & B & C). exists g. auto. }
    assert (ND : near L (fun y => forall k, (k < N)%nat -> forall l, (l < N)%nat -> is_derive (fun x => D k l (x, y)) 0 (D' k l y))).
    { apply (near_forall L N (fun k y => forall l, (l < N)%nat -> is_derive (fun x => D k l (x, y)) 0 (D' k l y))). intros k Hk.
      apply (near_forall L N (fun l y => is_derive (fun x => D k l (x, y)) 0 (D' k l y))). intros l Hl. apply HD'; auto. }
    set (e := fun k (z : R * lP L) => eshift N (fun k l x => D k l (x, snd z)) (fun k => X0 k (snd z)) (fun k l => G k l (snd z)) (fst z) k).
    assert (All : near L (fun y =>
       (forall k, (k < N)%nat -> e k (0, y) = 0) /\
       locally 0 (fun x => law N (fun k l => D k l (x, y)) (fun k => X0 k y + e k (x, y))) /\
       (forall k, (k < N)%nat -> is_derive (fun x => e k (x, y)) 0 (- Sum m < N, G k m y * Sum l < N, D' m l y * (X0 m y * X0 l y))))).
    { eapply near_imp; [ | exact (near_and L _ _ (near_and L _ _ L0 EG) ND)]. intros y [[A1 [A2 _]] A3].
      destruct (bound_nat N (fun k => X0 k y)) as (Ab & B1). destruct (bound_nat2 N (fun k l => D k l (0, y))) as (Mb & B2).
      destruct (bound_nat2 N (fun k l => G k l y)) as (gb & B3).
      pose proof (eshift_local N (fun k l x => D k l (x, y)) (fun k => X0 k y) (fun k l => G k l y) A1 A2 Ab Mb gb B1 B2 B3 (fun k l => D' k l y) (fun k l Hk Hl => A3 k Hk l Hl)) as (E & _ & HE).
      split; [ | split].
      - intros k Hk. exact (eshift_0 N (fun k l x => D k l (x, y)) (fun k => X0 k y) (fun k l => G k l y) A1 A2 Ab Mb gb B1 B2 B3 (fun k l => D' k l y) (fun k l Hk Hl => A3 k Hk l Hl) k Hk).
      - eapply filter_imp; [ | exact HE]. intros x (_ & _ & A). exact A.
      - intros k Hk. exact (eshift_derive N (fun k l x => D k l (x, y)) (fun k => X0 k y) (fun k l => G k l y) A1 A2 Ab Mb gb B1 B2 B3 (fun k l => D' k l y) (fun k l Hk Hl => A3 k Hk l Hl) k Hk). }
    exists (fun k z => X0 k (snd z) + e k z). split; [ | split].
    + intros k Hk. apply (reg_next L _ (fun y => - Sum m < N, G k m y * Sum l < N, D' m l y * (X0 m y * X0 l y))).
      * cbn [snd]. apply (reg_near L (X0 k)); auto. eapply near_imp; [ | exact All]. intros y (A1 & _). cbv beta. rewrite (A1 k Hk). ring.
      * apply reg_opp. apply (reg_sum L N (fun m y => G k m y * Sum l < N, D' m l y * (X0 m y * X0 l y))). intros m Hm.
        apply reg_mul; auto. apply (reg_sum L N (fun l y => D' m l y * (X0 m y * X0 l y))). intros l Hl.
        apply reg_mul; [apply HD'; auto | ]. apply reg_mul; auto.
      * eapply near_imp; [ | exact All]. intros y (_ & _ & A3). cbn [snd].
        replace (- Sum m < N, G k m y * Sum l < N, D' m l y * (X0 m y * X0 l y)) with (0 + - Sum m < N, G k m y * Sum l < N, D' m l y * (X0 m y * X0 l y)) by ring.
        apply (is_derive_plus (fun _ => X0 k y) (fun x => e k (x, y))); [apply (is_derive_const (V := R_NormedModule)) | auto].
    + intros k Hk. apply (near_z L) in All. destruct All as (A1 & _). change (X0 k (lz L) + e k (0, lz L) = xi k). rewrite (A1 k Hk), (E0 k Hk). ring.
    + change (near L (fun y => locally 0 (fun x => law N (fun k l => D k l (x, y)) (fun k => X0 k y + e k (x, y))))).
      eapply near_imp; [ | exact All]. intros y (_ & A2 & _). exact A2.
Qed.
