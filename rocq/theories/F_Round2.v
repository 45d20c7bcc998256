(** Relative precision (Olver): quotients between (1-u)^k and (1-u)^-k; used by P_RoundH.v. *)
From Coq Require Import ZArith QArith Reals Lra Lia List Bool.
From Flocq Require Import Core Relative.
From Verif Require Import Num RNum RSum BNum F_Round.
Import ListNotations.
Local Open Scope R_scope.
Set Bullet Behavior "Strict Subproofs".

Definition o : R := 1 - u.
Lemma o_b : 0.999 < o < 1. Proof. unfold o. pose proof u_pos. pose proof u_small. lra. Qed.
Lemma o_pow k : 0 < o ^ k <= 1.
Proof. pose proof o_b. split; [apply pow_lt; lra | ]. rewrite <- (pow1 k). apply pow_incr. lra. Qed.
Lemma o_mono k k' : (k <= k')%nat -> o ^ k' <= o ^ k.
Proof.
  intros H. replace k' with (k + (k' - k))%nat by lia. rewrite pow_add. destruct (o_pow k) as [P _]. destruct (o_pow (k' - k)) as [_ Q].
  apply Rle_trans with (o ^ k * 1); [apply Rmult_le_compat_l; lra | lra].
Qed.
Definition rp (k : nat) (x y : R) : Prop := exists q, o ^ k <= q <= / o ^ k /\ x = y * q.
Lemma rp_refl x : rp 0 x x.
Proof. exists 1. split; [cbn; lra | ring]. Qed.
Lemma rp_weaken k k' x y : (k <= k')%nat -> rp k x y -> rp k' x y.
Proof.
  intros H (q & [A B] & ->). exists q. split; auto. pose proof (o_mono _ _ H). destruct (o_pow k') as [P _]. split; [lra | ].
  eapply Rle_trans; [exact B | ]. apply Rinv_le_contravar; auto.
Qed.
Lemma rp_mul k k' x y x' y' : rp k x y -> rp k' x' y' -> rp (k + k') (x * x') (y * y').
Proof.
  intros (q & [A B] & ->) (q' & [A' B'] & ->). exists (q * q'). split; [ | ring]. destruct (o_pow k) as [P _]. destruct (o_pow k') as [P' _].
  rewrite pow_add. split; [apply Rmult_le_compat; lra | ]. rewrite Rinv_mult. apply Rmult_le_compat; lra.
Qed.
Lemma rp_inv k x y : rp k x y -> rp k (/ x) (/ y).
Proof.
  intros (q & [A B] & ->). exists (/ q). split; [ | apply Rinv_mult]. destruct (o_pow k) as [P _]. split.
  - rewrite <- (Rinv_inv (o ^ k)). apply Rinv_le_contravar; lra.
  - apply Rinv_le_contravar; lra.
Qed.
Lemma rp_rnd k x y : rp k x y -> rp (S k) (rnd x) y.
Proof.
  intros (q & [A B] & ->). destruct (rnd_err (y * q)) as (d & D & ->). apply Rabs_le_inv in D. pose proof o_b as O. destruct (o_pow k) as [P _].
  exists (q * (1 + d)). split; [ | ring]. cbn [pow]. split.
  - rewrite Rmult_comm. apply Rmult_le_compat; unfold o in *; lra.
  - rewrite Rinv_mult, Rmult_comm. pose proof u_pos. pose proof u_small. apply Rmult_le_compat; try lra. unfold o. apply (Rmult_le_reg_r (1 - u)); [lra | ]. rewrite Rinv_l by lra.
    assert (d * u <= u * u) by (apply Rmult_le_compat_r; lra). assert (0 <= u * u) by (apply Rmult_le_pos; lra). nra.
Qed.
Lemma rp_add k x y x' y' : 0 <= y -> 0 <= y' -> rp k x y -> rp k x' y' -> rp k (x + x') (y + y').
Proof.
  intros P P' (q & [A B] & ->) (q' & [A' B'] & ->). destruct (Req_dec (y + y') 0) as [Z | Z].
  - assert (y = 0) by lra. assert (y' = 0) by lra. subst. exists 1. split; [ | ring]. destruct (o_pow k) as [Q Q']. split; auto. rewrite <- Rinv_1. apply Rinv_le_contravar; lra.
  - assert (S : 0 < y + y') by lra. exists ((y * q + y' * q') / (y + y')). split; [ | field; auto]. split.
    + apply (Rmult_le_reg_r (y + y')); auto. unfold Rdiv. rewrite (Rmult_assoc _ (/ (y + y'))), Rinv_l, Rmult_1_r by auto.
      assert (y * o ^ k <= y * q) by (apply Rmult_le_compat_l; auto). assert (y' * o ^ k <= y' * q') by (apply Rmult_le_compat_l; auto). lra.
    + apply (Rmult_le_reg_r (y + y')); auto. unfold Rdiv. rewrite (Rmult_assoc _ (/ (y + y'))), Rinv_l, Rmult_1_r by auto.
      assert (y * q <= y * / o ^ k) by (apply Rmult_le_compat_l; auto). assert (y' * q' <= y' * / o ^ k) by (apply Rmult_le_compat_l; auto). lra.
Qed.
Lemma rp_lit k x y : rnd x = y -> rp (S k) y x.
Proof. intros <-. apply rp_weaken with 1%nat; [lia | ]. apply rp_rnd, rp_refl. Qed.
Lemma o_pow_lower k : 1 - INR k * u <= o ^ k.
Proof.
  induction k as [ | k IH]; [cbn; lra | ]. rewrite S_INR. cbn [pow]. pose proof u_pos. pose proof o_b. pose proof (pos_INR k).
  assert (0 <= INR k * u * u) by (repeat apply Rmult_le_pos; lra). assert (o * (1 - INR k * u) <= o * o ^ k) by (apply Rmult_le_compat_l; lra). unfold o in *. lra.
Qed.
Lemma rp_acc k x y : INR k * u <= / 2 -> rp k x y -> acc (INR k * u * (1 + 2 * (INR k * u))) x y.
Proof.
  intros H (q & [A B] & ->). pose proof (o_pow_lower k) as Lo. pose proof (pos_INR k) as K0. pose proof u_pos. set (e := INR k * u) in *. assert (E0 : 0 <= e) by (apply Rmult_le_pos; lra).
  exists (q - 1). split; [ | ring]. assert (0 <= e * e) by (apply Rmult_le_pos; auto). apply Rabs_le. split; [lra | ].
  assert (/ o ^ k <= / (1 - e)) by (apply Rinv_le_contravar; lra). assert (/ (1 - e) <= 1 + e * (1 + 2 * e)); [ | lra].
  apply (Rmult_le_reg_r (1 - e)); [lra | ]. rewrite Rinv_l by lra. assert (e * e * e <= e * e * / 2) by (apply Rmult_le_compat_l; lra). nra.
Qed.
(** small relative errors as relative precision *)
Lemma acc_rp k x y : acc (INR k * u) x y -> INR k <= 1000 -> rp (S k) x y.
Proof.
  intros (d & D & ->) Hk. apply Rabs_le_inv in D. pose proof u_pos as U0. pose proof u_small as U1. exists (1 + d). split; auto. pose proof (pos_INR k) as K0.
  pose proof (o_pow_lower (S k)) as Lo. rewrite S_INR in Lo. set (e := INR k * u) in *. assert (E0 : 0 <= e) by (apply Rmult_le_pos; lra). assert (E1 : e <= 1000 * / 10 ^ 15) by (apply Rmult_le_compat; lra).
  (* o^(S k) <= 1 - e *)
  assert (Up : forall j, INR j <= 1001 -> o ^ j <= 1 - INR j * u + INR j * INR j * u * u).
  { intros j. induction j as [ | j IH]; [cbn; lra | ]. intros Hj. rewrite S_INR in *. pose proof (pos_INR j) as J0. specialize (IH ltac:(lra)). pose proof o_b. cbn [pow].
    apply Rle_trans with (o * (1 - INR j * u + INR j * INR j * u * u)); [apply Rmult_le_compat_l; lra | ]. unfold o.
    assert (0 <= u * u) by (apply Rmult_le_pos; lra). assert (0 <= INR j * (u * u)) by (apply Rmult_le_pos; lra). assert (0 <= INR j * INR j * (u * u) * u) by (repeat apply Rmult_le_pos; lra). nra. }
  specialize (Up (S k)). rewrite S_INR in Up. specialize (Up ltac:(lra)).
  assert (Q : (INR k + 1) * (INR k + 1) * u * u <= u).
  { apply Rle_trans with (1 * u); [ | lra]. apply Rmult_le_compat_r; [lra | ]. assert ((INR k + 1) * (INR k + 1) <= 1001 * 1001) by (apply Rmult_le_compat; lra).
    apply Rle_trans with (1001 * 1001 * / 10 ^ 15); [apply Rmult_le_compat; try lra; apply Rmult_le_pos; lra | lra]. }
  split; [unfold e in *; lra | ]. destruct (o_pow (S k)) as [P _]. apply Rle_trans with (/ (1 - e)); [ | apply Rinv_le_contravar; unfold e in *; lra].
  apply (Rmult_le_reg_r (1 - e)); [lra | ]. rewrite Rinv_l by lra. assert (0 <= e * e) by (apply Rmult_le_pos; auto). assert (d * e <= e * e) by (apply Rmult_le_compat_r; lra).
  assert (d * (1 - e) <= e * (1 - e)) by (apply Rmult_le_compat_r; lra). lra.
Qed.

(** sums in a loop *)
Definition bsum (l : list R) (a : R) : R := fold_left (fun a b => rnd (a + b)) l a.
Lemma bsum_rp {A} (f g : A -> R) k l : (forall i, In i l -> rp k (f i) (g i) /\ 0 <= g i) ->
  forall a b j, (k <= j)%nat -> 0 <= b -> rp j a b -> rp (j + length l) (bsum (map f l) a) (b + rsum l g).
Proof.
  induction l as [ | i l IH]; intros H a b j Hj Hb Hab.
  - cbn. rewrite Rplus_0_r, Nat.add_0_r. auto.
  - cbn [map bsum fold_left length]. destruct (H i (or_introl eq_refl)) as [Hi Pi].
    replace (b + rsum (i :: l) g) with ((b + g i) + rsum l g) by (cbn; ring). replace (j + S (length l))%nat with (S j + length l)%nat by lia.
    apply (IH (fun i' Hi' => H i' (or_intror Hi'))); [lia | lra | ]. apply rp_rnd, rp_add; auto. apply rp_weaken with k; auto.
Qed.
Lemma nsum_bsum L (l : list R) : @nsum (BNum L) l = bsum l 0.
Proof.
  unfold nsum, bsum. replace (@n0 (BNum L)) with 0; [reflexivity | ]. unfold n0. cbn [nlit BNum]. replace (Rlit 0) with 0 by (unfold Rlit; cbn; lra). symmetry. apply rnd_0.
Qed.
Lemma nsum_rp L (l : list R) k (g : R -> R) : (forall x, In x l -> rp k x (g x) /\ 0 <= g x) -> rp (k + length l) (@nsum (BNum L) l) (rsum l g).
Proof.
  intros H. rewrite nsum_bsum. replace (bsum l 0) with (bsum (map (fun x => x) l) 0) by (rewrite map_id; reflexivity). replace (rsum l g) with (0 + rsum l g) by ring. apply (bsum_rp (fun x => x) g k l H); [lia | lra | ]. apply rp_weaken with 0%nat; [lia | apply rp_refl].
Qed.
Lemma nsumi_rp L n (f g : nat -> R) k : (forall i, (i < n)%nat -> rp k (f i) (g i) /\ 0 <= g i) -> rp (k + n) (@nsumi (BNum L) n f) (rsum (seq 0 n) g).
Proof.
  intros H. unfold nsumi, mk1. rewrite nsum_bsum. rewrite <- (seq_length n 0) at 1. replace (rsum (seq 0 n) g) with (0 + rsum (seq 0 n) g) by ring. apply (bsum_rp f g k); [ | lia | lra | ].
  - intros i Hi. apply in_seq in Hi. apply H. lia.
  - apply rp_weaken with 0%nat; [lia | apply rp_refl].
Qed.

(** relative errors in units of [w] *)
Section Unit.
  Variable w : R. Hypothesis Hw : 0 < w <= / 10 ^ 9. Hypothesis Hu : u <= w / 20.
  Lemma W_rnd a x y : 0 <= a <= 1000 -> acc (a * w) x y -> acc ((a + 0.06) * w) (rnd x) y.
  Proof.
    intros Ha H. eapply acc_weaken; [ | apply acc_rnd; exact H]. pose proof u_pos. assert (a * w * u <= 0.005 * w); [ | lra].
    replace (a * w * u) with (a * u * w) by ring. apply Rmult_le_compat_r; [lra | ]. apply Rle_trans with (1000 * / 10 ^ 9); [apply Rmult_le_compat; lra | lra].
  Qed.
  Lemma W_mul a b x y x' y' : acc (a * w) x y -> acc (b * w) x' y' -> 0 <= a <= 1000 -> 0 <= b <= 1000 -> acc ((a + b + 0.01) * w) (x * x') (y * y').
  Proof.
    intros H H' Ha Hb. eapply acc_weaken; [ | apply acc_mul; eassumption]. assert (a * w * (b * w) <= 0.005 * w); [ | lra].
    replace (a * w * (b * w)) with (a * b * w * w) by ring. apply Rmult_le_compat_r; [lra | ]. assert (a * b <= 1000 * 1000) by (apply Rmult_le_compat; lra).
    apply Rle_trans with (1000 * 1000 * / 10 ^ 9); [apply Rmult_le_compat; try lra; apply Rmult_le_pos; lra | lra].
  Qed.
  Lemma W_mulr a b x y x' y' : acc (a * w) x y -> acc (b * w) x' y' -> 0 <= a <= 400 -> 0 <= b <= 400 -> acc ((a + b + 0.07) * w) (rnd (x * x')) (y * y').
  Proof. intros H H' Ha Hb. replace (a + b + 0.07) with (a + b + 0.01 + 0.06) by lra. apply W_rnd; [lra | ]. apply W_mul; auto; lra. Qed.
  Lemma W_inv a x y : 0 <= a <= 1000 -> y <> 0 -> acc (a * w) x y -> acc ((a + 0.01) * w) (/ x) (/ y).
  Proof.
    intros Ha Hy H. assert (A0 : 0 <= a * w) by (apply Rmult_le_pos; lra). assert (A1 : a * w <= 1000 * / 10 ^ 9) by (apply Rmult_le_compat; lra).
    eapply acc_weaken; [ | apply acc_inv; [ | exact Hy | exact H]]; [ | lra]. assert (a * w * (2 * (a * w)) <= 0.01 * w); [ | lra].
    replace (a * w * (2 * (a * w))) with (2 * a * (a * w) * w) by ring. apply Rmult_le_compat_r; [lra | ]. apply Rle_trans with (2 * 1000 * (1000 * / 10 ^ 9)); [apply Rmult_le_compat; lra | lra].
  Qed.
  Lemma W_invr a x y : 0 <= a <= 400 -> y <> 0 -> acc (a * w) x y -> acc ((a + 0.07) * w) (rnd (/ x)) (/ y).
  Proof. intros Ha Hy H. replace (a + 0.07) with (a + 0.01 + 0.06) by lra. apply W_rnd; [lra | ]. apply W_inv; auto; lra. Qed.
  Lemma W_self x : acc (0 * w) x x.
  Proof. rewrite Rmult_0_l. apply acc_refl. Qed.
  Lemma W_weaken a b x y : a <= b -> acc (a * w) x y -> acc (b * w) x y.
  Proof. intros H. apply acc_weaken. apply Rmult_le_compat_r; lra. Qed.
  Lemma W_abs a x y : acc (a * w) x y -> Rabs (x - y) <= a * w * Rabs y.
  Proof. apply acc_within. Qed.
End Unit.
