(** Errors relative to a magnitude, in powers of a base [b = 1/(1 - a u)]; used by P_RoundA.v.
    [a] is one for plain rounding and [1/(1 - eta)] where [1 - eta] is formed. *)
From Coq Require Import ZArith QArith Reals Lra Lia List Bool.
From Flocq Require Import Core Relative.
From Verif Require Import Num RNum RSum BNum F_Round F_Round2.
Import ListNotations.
Local Open Scope R_scope.
Set Bullet Behavior "Strict Subproofs".

Definition base (a : R) : R := / (1 - a * u).
(** [x] approximates [y], both of magnitude [M] or less *)
Definition er (a : R) (k : nat) (x y M : R) : Prop := Rabs (x - y) <= M * (base a ^ k - 1) /\ Rabs y <= M.

Section Er.
  Variable a : R. Hypothesis a1 : 1 <= a. Hypothesis au : a * u <= / 2.
  Let b := base a.
  Lemma au0 : 0 < a * u. Proof. apply Rmult_lt_0_compat; [lra | apply u_pos]. Qed.
  Lemma u_au : u <= a * u. Proof. pose proof u_pos. assert (1 * u <= a * u) by (apply Rmult_le_compat_r; lra). lra. Qed.
  Lemma b_eq : b * (1 - a * u) = 1. Proof. unfold b, base. apply Rinv_l. lra. Qed.
  Lemma b_u : 1 + a * u <= b.
  Proof. pose proof b_eq. pose proof au0. apply (Rmult_le_reg_r (1 - a * u)); [lra | ]. rewrite b_eq. assert (0 <= a * u * (a * u)) by (apply Rmult_le_pos; lra). lra. Qed.
  Lemma b_1 : 1 <= b. Proof. pose proof b_u. pose proof au0. lra. Qed.
  Lemma bk_1 k : 1 <= b ^ k. Proof. apply pow_R1_Rle, b_1. Qed.
  Lemma bk_mono k k' : (k <= k')%nat -> b ^ k <= b ^ k'. Proof. intros H. apply Rle_pow; [apply b_1 | auto]. Qed.
  Lemma o_b_inv k : / o ^ k <= b ^ k.
  Proof.
    rewrite <- pow_inv. apply pow_incr. pose proof o_b. split; [left; apply Rinv_0_lt_compat; lra | ]. unfold b, base. apply Rinv_le_contravar; [pose proof au0; lra | ]. unfold o. pose proof u_au. lra.
  Qed.
  Lemma er_M k x y M : er a k x y M -> 0 <= M. Proof. intros [_ H]. pose proof (Rabs_pos y). lra. Qed.
  Lemma er_weaken k k' x y M M' : (k <= k')%nat -> M <= M' -> er a k x y M -> er a k' x y M'.
  Proof.
    intros Hk HM H. pose proof (er_M _ _ _ _ H) as P. destruct H as [H1 H2]. split; [ | lra]. eapply Rle_trans; [exact H1 | ]. fold b. pose proof (bk_mono _ _ Hk). pose proof (bk_1 k). apply Rmult_le_compat; lra.
  Qed.
  Lemma er_eq k x y M M' : M = M' -> er a k x y M -> er a k x y M'. Proof. intros <-. auto. Qed.
  Lemma er_refl x : er a 0 x x (Rabs x). Proof. split; [ | lra]. replace (x - x) with 0 by ring. rewrite Rabs_R0. cbn. lra. Qed.
  Lemma er_opp k x y M : er a k x y M -> er a k (- x) (- y) M.
  Proof. intros [H1 H2]. split; [ | rewrite Rabs_Ropp; auto]. replace (- x - - y) with (- (x - y)) by ring. rewrite Rabs_Ropp. auto. Qed.
  Lemma er_add k x y M x' y' M' : er a k x y M -> er a k x' y' M' -> er a k (x + x') (y + y') (M + M').
  Proof.
    intros [H1 H2] [H3 H4]. split; [ | eapply Rle_trans; [apply Rabs_triang | lra]]. replace (x + x' - (y + y')) with ((x - y) + (x' - y')) by ring. eapply Rle_trans; [apply Rabs_triang | ]. lra.
  Qed.
  Lemma er_sub k x y M x' y' M' : er a k x y M -> er a k x' y' M' -> er a k (x - x') (y - y') (M + M').
  Proof. intros H H'. unfold Rminus. apply er_add; auto. apply er_opp; auto. Qed.
  Lemma er_abs k x y M : er a k x y M -> Rabs x <= M * b ^ k.
  Proof. intros [H1 H2]. fold b in H1. replace x with (x - y + y) by ring. eapply Rle_trans; [apply Rabs_triang | ]. lra. Qed.
  Lemma er_mul k x y M k' x' y' M' : er a k x y M -> er a k' x' y' M' -> er a (k + k') (x * x') (y * y') (M * M').
  Proof.
    intros H H'. pose proof (er_abs _ _ _ _ H') as HA. pose proof (er_M _ _ _ _ H) as PM. pose proof (er_M _ _ _ _ H') as PM'. destruct H as [H1 H2]. destruct H' as [H3 H4]. fold b in H1, H3. split.
    - replace (x * x' - y * y') with ((x - y) * x' + y * (x' - y')) by ring. eapply Rle_trans; [apply Rabs_triang | ]. rewrite !Rabs_mult. fold b. rewrite pow_add.
      assert (Rabs (x - y) * Rabs x' <= M * (b ^ k - 1) * (M' * b ^ k')) by (apply Rmult_le_compat; auto; apply Rabs_pos). assert (Rabs y * Rabs (x' - y') <= M * (M' * (b ^ k' - 1))) by (apply Rmult_le_compat; auto; apply Rabs_pos).
      replace (M * M' * (b ^ k * b ^ k' - 1)) with (M * (b ^ k - 1) * (M' * b ^ k') + M * (M' * (b ^ k' - 1))) by ring. lra.
    - rewrite Rabs_mult. apply Rmult_le_compat; auto; apply Rabs_pos.
  Qed.
  Lemma er_rnd k x y M : er a k x y M -> er a (S k) (rnd x) y M.
  Proof.
    intros H. pose proof (er_abs _ _ _ _ H) as HA. pose proof (er_M _ _ _ _ H) as PM. destruct H as [H1 H2]. split; [ | auto]. fold b. fold b in H1. destruct (rnd_err x) as (d & Hd & ->). replace (x * (1 + d) - y) with (x - y + x * d) by ring.
    eapply Rle_trans; [apply Rabs_triang | ]. rewrite Rabs_mult. assert (Rabs x * Rabs d <= M * b ^ k * u) by (apply Rmult_le_compat; auto; apply Rabs_pos). cbn [pow].
    assert (B : (1 + u) * (M * b ^ k) <= b * (M * b ^ k)). { apply Rmult_le_compat_r; [apply Rmult_le_pos; [auto | pose proof (bk_1 k); lra] | ]. pose proof b_u. pose proof u_au. lra. } lra.
  Qed.
  Lemma rel_er k x y q : x = y * q -> 1 - (b ^ k - 1) <= q <= b ^ k -> er a k x y (Rabs y).
  Proof.
    intros -> Hq. split; [ | lra]. fold b. replace (y * q - y) with (y * (q - 1)) by ring. rewrite Rabs_mult. apply Rmult_le_compat_l; [apply Rabs_pos | ]. apply Rabs_le. lra.
  Qed.
  Lemma rp_er k x y : rp k x y -> er a k x y (Rabs y).
  Proof.
    intros (q & [Q1 Q2] & E). apply (rel_er k x y q E). pose proof (o_b_inv k). destruct (o_pow k) as [P1 P2]. split; [ | lra].
    assert (2 - / o ^ k <= o ^ k); [ | lra]. set (z := o ^ k) in *. clearbody z. apply (Rmult_le_reg_r z); auto. rewrite Rmult_minus_distr_r, Rinv_l by lra. pose proof (Rle_0_sqr (z - 1)). unfold Rsqr in *. lra.
  Qed.
  (** powers of the base *)
  Lemma b_lower k : 1 - INR k * (a * u) <= / b ^ k.
  Proof.
    assert (E : / b = 1 - a * u) by (unfold b, base; apply Rinv_inv). pose proof au0 as P. rewrite <- pow_inv, E. clear E. induction k as [ | k IH]; [cbn; lra | ]. rewrite S_INR. cbn [pow]. pose proof (pos_INR k).
    assert (0 <= INR k * (a * u) * (a * u)) by (apply Rmult_le_pos; [apply Rmult_le_pos | ]; lra). assert ((1 - a * u) * (1 - INR k * (a * u)) <= (1 - a * u) * (1 - a * u) ^ k) by (apply Rmult_le_compat_l; lra). lra.
  Qed.
  Lemma b_upper k : INR k * (a * u) <= / 2 -> b ^ k - 1 <= INR k * (a * u) * (1 + 2 * (INR k * (a * u))).
  Proof.
    intros H. pose proof (b_lower k) as Lo. pose proof (bk_1 k) as B. pose proof au0. pose proof (pos_INR k). set (e := INR k * (a * u)) in *. assert (E0 : 0 <= e) by (apply Rmult_le_pos; lra). clearbody e.
    set (z := b ^ k) in *. clearbody z. assert (z * (1 - e) <= 1). { apply Rle_trans with (z * / z); [apply Rmult_le_compat_l; lra | rewrite Rinv_r; lra]. }
    assert (z <= 2) by nra. assert (z * e <= (1 + 2 * e) * e); [ | lra]. apply Rmult_le_compat_r; [auto | ]. nra.
  Qed.
  (** relative errors of one quantity: inverse *)
  Lemma er_inv k x y : y <> 0 -> 4 * (INR k * INR k) * (a * u) <= 1 -> er a k x y (Rabs y) -> er a (S k) (/ x) (/ y) (Rabs (/ y)).
  Proof.
    intros Hy Hk [H1 _]. fold b in H1. pose proof au0 as P. pose proof (pos_INR k) as K0. assert (Hk' : INR k * (a * u) <= / 2).
    { destruct k as [ | k]; [cbn; lra | ]. assert (1 <= INR (S k)) by (rewrite S_INR; pose proof (pos_INR k); lra). assert (0 <= INR (S k) * (a * u)) by (apply Rmult_le_pos; lra).
      assert (INR (S k) * (a * u) * 1 <= INR (S k) * (a * u) * INR (S k)) by (apply Rmult_le_compat_l; lra). lra. }
    pose proof (b_upper k Hk') as B. pose proof (bk_1 k) as B1. pose proof b_eq as BE. pose proof b_1 as Bb. set (z := b ^ k) in *. assert (Z2 : (z - 1) * (z - 1) <= a * u).
    { assert (z - 1 <= 2 * (INR k * (a * u))). { assert (INR k * (a * u) * (2 * (INR k * (a * u))) <= INR k * (a * u) * 1) by (apply Rmult_le_compat_l; [apply Rmult_le_pos | ]; lra). lra. }
      apply Rle_trans with (2 * (INR k * (a * u)) * (2 * (INR k * (a * u)))); [apply Rmult_le_compat; lra | ]. replace (2 * (INR k * (a * u)) * (2 * (INR k * (a * u)))) with (4 * (INR k * INR k) * (a * u) * (a * u)) by ring. rewrite <- (Rmult_1_l (a * u)) at 3. apply Rmult_le_compat_r; lra. }
    assert (Z3 : z - 1 < 1) by nra. pose proof (Rabs_pos_lt y Hy) as Py. set (q := x / y). assert (Ex : x = y * q) by (unfold q; field; auto).
    assert (Hq : Rabs (q - 1) <= z - 1). { apply (Rmult_le_reg_l (Rabs y)); auto. rewrite <- Rabs_mult. replace (y * (q - 1)) with (x - y) by (unfold q; field; auto). auto. }
    clearbody q. apply Rabs_le_inv in Hq as [Q1 Q2]. apply (rel_er (S k) (/ x) (/ y) (/ q)); [rewrite Ex; apply Rinv_mult | ]. cbn [pow]. fold z. clearbody z.
    assert (U : / q <= b * z). { apply Rle_trans with (/ (2 - z)); [apply Rinv_le_contravar; lra | ]. apply (Rmult_le_reg_r (2 - z)); [lra | ]. rewrite Rinv_l by lra.
      replace (b * z * (2 - z)) with (b * (1 - (z - 1) * (z - 1))) by ring. rewrite <- BE at 1. apply Rmult_le_compat_l; lra. }
    split; [ | exact U]. assert (2 - z <= / q). { apply Rle_trans with (/ z); [ | apply Rinv_le_contravar; lra]. apply (Rmult_le_reg_r z); [lra | ]. rewrite Rinv_l by lra. pose proof (Rle_0_sqr (z - 1)). unfold Rsqr in *. lra. }
    assert (1 * z <= b * z) by (apply Rmult_le_compat_r; lra). lra.
  Qed.
  (** [c] times the error, as relative error: Bernoulli *)
  Lemma b_times c k : INR c * (b ^ k - 1) <= b ^ (c * k) - 1.
  Proof.
    induction c as [ | c IH]; [cbn; lra | ]. rewrite S_INR. replace (S c * k)%nat with (c * k + k)%nat by lia. rewrite pow_add. pose proof (bk_1 k). pose proof (bk_1 (c * k)). assert (0 <= (b ^ (c * k) - 1) * (b ^ k - 1)) by (apply Rmult_le_pos; lra). lra.
  Qed.
  Lemma er_rel c k x y M : er a k x y M -> M <= INR c * Rabs y -> er a (c * k) x y (Rabs y).
  Proof.
    intros [H1 _] HM. split; [ | lra]. eapply Rle_trans; [exact H1 | ]. fold b. pose proof (bk_1 k). apply Rle_trans with (INR c * Rabs y * (b ^ k - 1)); [apply Rmult_le_compat_r; lra | ].
    replace (INR c * Rabs y * (b ^ k - 1)) with (Rabs y * (INR c * (b ^ k - 1))) by ring. apply Rmult_le_compat_l; [apply Rabs_pos | apply b_times].
  Qed.
  (** [c - x] for [x < c]: the relative error grows by [x/(c - x)] at most *)
  Lemma er_gap c k x y : 0 <= y < c -> y <= a * (c - y) -> rp k x y -> er a k (c - x) (c - y) (c - y).
  Proof.
    intros Hy Ha (q & [Q1 Q2] & ->). split; [ | rewrite Rabs_right; lra]. fold b. replace (c - y * q - (c - y)) with (y * (1 - q)) by ring. rewrite Rabs_mult, (Rabs_right y) by lra.
    assert (I : forall j, a * (/ o ^ j - 1) <= b ^ j - 1).
    { induction j as [ | j IH]; [cbn; lra | ]. cbn [pow]. rewrite Rinv_mult. pose proof o_b as O. assert (O1 : 1 <= / o) by (rewrite <- Rinv_1; apply Rinv_le_contravar; lra). assert (Ob : / o <= b) by (pose proof (o_b_inv 1) as H; cbn in H; rewrite !Rmult_1_r in H; auto).
      assert (Oj : 1 <= / o ^ j) by (destruct (o_pow j); rewrite <- Rinv_1; apply Rinv_le_contravar; lra).
      assert (A1 : a * (/ o - 1) <= b - 1).
      { replace (b - 1) with (a * u * b) by (pose proof b_eq; lra). replace (/ o - 1) with (u * / o) by (unfold o; field; unfold o in O; lra). rewrite <- Rmult_assoc. apply Rmult_le_compat_l; [pose proof au0; lra | auto]. }
      assert (A2 : / o * (a * (/ o ^ j - 1)) <= b * (b ^ j - 1)) by (apply Rmult_le_compat; [lra | apply Rmult_le_pos; lra | auto | auto]). lra. }
    assert (Rabs (1 - q) <= / o ^ k - 1).
    { apply Rabs_le. split; [lra | ]. destruct (o_pow k) as [P1 P2]. assert (2 - / o ^ k <= o ^ k); [ | lra]. set (z := o ^ k) in *. clearbody z. apply (Rmult_le_reg_r z); auto. rewrite Rmult_minus_distr_r, Rinv_l by lra. pose proof (Rle_0_sqr (z - 1)). unfold Rsqr in *. lra. }
    apply Rle_trans with (a * (c - y) * (/ o ^ k - 1)); [apply Rmult_le_compat; auto; [lra | apply Rabs_pos] | ]. replace (a * (c - y) * (/ o ^ k - 1)) with ((c - y) * (a * (/ o ^ k - 1))) by ring. apply Rmult_le_compat_l; [lra | apply I].
  Qed.
  (** sums in a loop *)
  Lemma bsum_er {A} (f g M : A -> R) k l : (forall i, In i l -> er a k (f i) (g i) (M i)) ->
    forall s s' N j, (k <= j)%nat -> er a j s s' N -> er a (j + length l) (bsum (map f l) s) (s' + rsum l g) (N + rsum l M).
  Proof.
    induction l as [ | i l IH]; intros H s s' N j Hj Hs.
    - cbn. rewrite !Rplus_0_r, Nat.add_0_r. auto.
    - cbn [map bsum fold_left length]. replace (s' + rsum (i :: l) g) with ((s' + g i) + rsum l g) by (cbn; ring). replace (N + rsum (i :: l) M) with ((N + M i) + rsum l M) by (cbn; ring). replace (j + S (length l))%nat with (S j + length l)%nat by lia.
      apply (IH (fun i' Hi' => H i' (or_intror Hi'))); [lia | ]. apply er_rnd, er_add; auto. apply er_weaken with k (M i); [lia | lra | ]. apply H. left. auto.
  Qed.
  Lemma nsumi_er L n (f g M : nat -> R) k : (forall i, (i < n)%nat -> er a k (f i) (g i) (M i)) -> er a (k + n) (@nsumi (BNum L) n f) (rsum (seq 0 n) g) (rsum (seq 0 n) M).
  Proof.
    intros H. unfold nsumi, mk1. rewrite nsum_bsum. rewrite <- (seq_length n 0) at 1. rewrite <- (Rplus_0_l (rsum (seq 0 n) g)), <- (Rplus_0_l (rsum (seq 0 n) M)). apply (bsum_er f g M k); [ | lia | ].
    - intros i Hi. apply in_seq in Hi. apply H. lia.
    - apply er_weaken with 0%nat (Rabs 0); [lia | rewrite Rabs_R0; lra | apply er_refl].
  Qed.
End Er.
