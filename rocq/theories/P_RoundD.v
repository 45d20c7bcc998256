(** C52: rounding of the hard-sphere diameter and of the free-volume factor of the hard-sphere
    functional. *)
From Coq Require Import ZArith QArith Reals Lra Lia List Bool.
From Coquelicot Require Import Coquelicot.
From Flocq Require Import Core Relative.
From Interval Require Import Tactic.
From Verif Require Import Num RNum RSum Tables M_Params M_Eos M_Dft Spec BNum F_Round P_Fmt.
Import ListNotations.
Local Open Scope R_scope.
Set Bullet Behavior "Strict Subproofs".
Notation length := List.length.

Lemma accu_rnd a x y : 0 <= a <= 10 ^ 9 -> acc (a * u) x y -> acc ((a + 1.001) * u) (rnd x) y.
Proof.
  intros Ha H. eapply acc_weaken; [ | apply acc_rnd; exact H]. pose proof u_pos. pose proof u_small.
  assert (a * u * u <= / 1000 * u); [ | lra]. apply Rmult_le_compat_r; [lra | ].
  apply Rle_trans with (10 ^ 9 * / 10 ^ 15); [apply Rmult_le_compat; lra | lra].
Qed.
Lemma accu_mul a b x y x' y' : 0 <= a <= 10 ^ 9 -> 0 <= b <= 1000 -> acc (a * u) x y -> acc (b * u) x' y' -> acc ((a + b + 0.001) * u) (x * x') (y * y').
Proof.
  intros Ha Hb H H'. eapply acc_weaken; [ | apply acc_mul; eassumption]. pose proof u_pos. pose proof u_small.
  assert (a * u * (b * u) <= / 1000 * u); [ | lra]. replace (a * u * (b * u)) with (a * b * u * u) by ring. apply Rmult_le_compat_r; [lra | ].
  assert (a * b <= 10 ^ 9 * 1000) by (apply Rmult_le_compat; lra). apply Rle_trans with (10 ^ 9 * 1000 * / 10 ^ 15); [ | lra].
  apply Rmult_le_compat; try lra. apply Rmult_le_pos; lra.
Qed.
Lemma accu_inv a x y : 0 <= a <= 10 ^ 6 -> y <> 0 -> acc (a * u) x y -> acc ((a + 0.01) * u) (/ x) (/ y).
Proof.
  intros Ha Hy H. pose proof u_pos. pose proof u_small.
  assert (A1 : a * u <= 10 ^ 6 * / 10 ^ 15) by (apply Rmult_le_compat; lra).
  eapply acc_weaken; [ | apply acc_inv; [ | exact Hy | exact H]]; [ | lra].
  assert (A0 : 0 <= a * u) by (apply Rmult_le_pos; lra).
  assert (A2 : a * u * (2 * (a * u)) <= 0.01 * u); [ | lra]. replace (a * u * (2 * (a * u))) with (2 * a * (a * u) * u) by ring. apply Rmult_le_compat_r; [lra | ].
  apply Rle_trans with (2 * 10 ^ 6 * (10 ^ 6 * / 10 ^ 15)); [ | lra]. apply Rmult_le_compat; lra.
Qed.
Lemma acc_lit q : acc (1 * u) (rnd (Rlit q)) (Rlit q).
Proof. rewrite Rmult_1_l. destruct (rnd_err (Rlit q)) as (d & H & E). exists d. auto. Qed.
Lemma acc0 x : acc (0 * u) x x.
Proof. rewrite Rmult_0_l. apply acc_refl. Qed.

(* ------------------------------------------------------------------------- diameter *)
(** temperature-dependent diameter *)
Definition diameter (sigma eps t : R) : R := sigma * (1 - 0.12 * exp (- 3 * eps / t)).

Lemma exp_perturb y d : 0 <= y -> Rabs d <= / 100 -> Rabs (exp (- y * (1 + d)) - exp (- y)) <= 1.02 * Rabs d.
Proof.
  intros Hy Hd. set (a := Rabs d) in *. assert (A0 : 0 <= a) by apply Rabs_pos. assert (B : - a <= d <= a) by (apply Rabs_le_inv; unfold a; lra).
  set (z := y * (1 - a)). assert (Z0 : 0 <= z) by (apply Rmult_le_pos; lra).
  assert (Z1 : z * exp (- z) <= 1).
  { rewrite exp_Ropp. pose proof (exp_pos z). apply (Rmult_le_reg_r (exp z)); auto. rewrite Rmult_assoc, Rinv_l by lra.
    destruct (Req_dec z 0) as [-> | N]; [rewrite exp_0; lra | ]. pose proof (exp_ineq1 z N). lra. }
  assert (K : forall p q, p <= q -> exp q - exp p <= (q - p) * exp q).
  { intros p q Hpq. replace (exp p) with (exp q * exp (p - q)) by (rewrite <- exp_plus; f_equal; ring). pose proof (exp_pos q).
    assert (1 + (p - q) <= exp (p - q)) by (destruct (Req_dec (p - q) 0) as [-> | N]; [rewrite exp_0; lra | left; apply exp_ineq1; auto]). nra. }
  assert (M : forall q, q <= - z -> exp q <= exp (- z)) by (intros q [Hq | ->]; [left; apply exp_increasing; auto | lra]).
  assert (Y1 : y * a * exp (- z) <= 1.02 * a).
  { assert (Ey : y = z / (1 - a)) by (unfold z; field; lra). rewrite Ey. replace (z / (1 - a) * a * exp (- z)) with (z * exp (- z) * (a / (1 - a))) by (field; lra).
    assert (0 <= a / (1 - a)) by (apply Rle_div_r; lra). apply Rle_trans with (1 * (a / (1 - a))); [apply Rmult_le_compat_r; auto | ]. rewrite Rmult_1_l. apply Rle_div_l; [lra | ].
    assert (a * a <= a * / 100) by (apply Rmult_le_compat_l; lra). lra. }
  assert (Ya : 0 <= y * a) by (apply Rmult_le_pos; auto). assert (Yd : - (y * a) <= y * d <= y * a) by (split; [assert (y * - a <= y * d) by (apply Rmult_le_compat_l; lra); lra | apply Rmult_le_compat_l; lra]).
  pose proof (exp_pos (- z)). apply Rabs_le. destruct (Rle_lt_dec d 0) as [Sd | Sd].
  - assert (E1 : - y <= - y * (1 + d)) by (assert (y * d <= y * 0) by (apply Rmult_le_compat_l; lra); lra).
    pose proof (K _ _ E1) as K1. assert (E2 : exp (- y * (1 + d)) <= exp (- z)) by (apply M; unfold z; lra).
    assert (E3 : exp (- y) <= exp (- y * (1 + d))) by (destruct E1 as [E1 | E1]; [left; apply exp_increasing; auto | rewrite E1 at 1; lra]).
    assert ((- y * (1 + d) - - y) * exp (- y * (1 + d)) <= y * a * exp (- z)) by (apply Rmult_le_compat; try lra; pose proof (exp_pos (- y * (1 + d))); lra). lra.
  - assert (E1 : - y * (1 + d) <= - y) by (assert (0 <= y * d) by (apply Rmult_le_pos; lra); lra).
    pose proof (K _ _ E1) as K1. assert (E2 : exp (- y) <= exp (- z)) by (apply M; unfold z; lra).
    assert (E3 : exp (- y * (1 + d)) <= exp (- y)) by (destruct E1 as [E1 | E1]; [left; apply exp_increasing; auto | rewrite E1; lra]).
    assert ((- y - - y * (1 + d)) * exp (- y) <= y * a * exp (- z)) by (apply Rmult_le_compat; try lra; pose proof (exp_pos (- y)); lra). lra.
Qed.

Section Diameter.
  Variable L : libm. Hypothesis HL : libm_ok L.
  Definition fl_diameter (sigma eps t : R) : R :=
    rnd (- rnd (rnd (l_exp L (rnd (rnd (rnd (/ t) * rnd (Rlit (-3))) * eps)) * rnd (Rlit 0.12)) - rnd 1) * sigma).
  Lemma fl_diameter_ok p t i : (i < length (p_sigma p))%nat ->
    @ix (BNum L) (@hs_diameter (BNum L) p t) i = fl_diameter (@ix (BNum L) (p_sigma p) i) (@ix (BNum L) (p_epsilon_k p) i) t.
  Proof.
    intros Hi. unfold hs_diameter. cbv zeta. rewrite ix_mk1 by auto.
    change (@nlit (BNum L) 1%Q) with (rnd (Rlit 1)). replace (Rlit 1) with 1 by (unfold Rlit; cbn; lra). reflexivity.
  Qed.
  Lemma fl_diameter_err sigma eps t : 0 < t -> 0 <= eps -> 0 < sigma -> acc (4 * u) (fl_diameter sigma eps t) (diameter sigma eps t).
  Proof.
    intros Ht He Hs. pose proof u_pos as U0. pose proof u_small as U1. unfold fl_diameter.
    assert (I0 : 0 < / t) by (apply Rinv_0_lt_compat; auto). set (y := 3 * eps / t). assert (Y0 : 0 <= y) by (unfold y, Rdiv; apply Rmult_le_pos; lra).
    assert (A : acc (3.006 * u) (rnd (rnd (rnd (/ t) * rnd (Rlit (-3))) * eps)) (- y)).
    { replace (Rlit (-3)) with (-3) by (unfold Rlit; cbn; lra). rewrite (rnd_id (-3)) by exact (f64_int (-3) ltac:(lia)).
      assert (A1 : acc (1.001 * u) (rnd (/ t)) (/ t)) by (eapply acc_weaken; [ | apply (accu_rnd 0); [lra | apply acc0]]; lra).
      assert (A2 : acc (1.002 * u) (rnd (/ t) * -3) (/ t * -3)) by (eapply acc_weaken; [ | apply (accu_mul 1.001 0); [lra | lra | exact A1 | apply acc0]]; lra).
      assert (A3 : acc (2.003 * u) (rnd (rnd (/ t) * -3)) (/ t * -3)) by (eapply acc_weaken; [ | apply (accu_rnd 1.002); [lra | exact A2]]; lra).
      assert (A4 : acc (2.004 * u) (rnd (rnd (/ t) * -3) * eps) (/ t * -3 * eps)) by (eapply acc_weaken; [ | apply (accu_mul 2.003 0); [lra | lra | exact A3 | apply acc0]]; lra).
      replace (- y) with (/ t * -3 * eps) by (unfold y; field; lra). eapply acc_weaken; [ | apply (accu_rnd 2.004); [lra | exact A4]]. lra. }
    destruct A as (d1 & D1 & ->). assert (Sd : Rabs d1 <= / 100) by lra. pose proof (exp_perturb y d1 Y0 Sd) as E1. apply Rabs_le_inv in E1.
    destruct HL as (HE & _). specialize (HE (- y * (1 + d1))). unfold within in HE. set (a1 := exp (- y * (1 + d1))) in *. assert (P1 : 0 < a1) by apply exp_pos. rewrite (Rabs_right a1) in HE by lra. apply Rabs_le_inv in HE.
    set (a2 := l_exp L (- y * (1 + d1))) in *. set (e := exp (- y)) in *. assert (Pe : 0 < e <= 1).
    { split; [apply exp_pos | ]. unfold e. rewrite <- exp_0. destruct Y0 as [Y0 | Y0]; [left; apply exp_increasing; lra | right; f_equal; lra]. }
    assert (F : / 2 ^ 52 = 2 * u) by (unfold u; lra). rewrite F in HE.
    assert (B1 : a1 <= 1.001) by lra. assert (B1' : 2 * u * a1 <= 2 * u * 1.001) by (apply Rmult_le_compat_l; lra). assert (B2 : - (5.1 * u) <= a2 - e <= 5.1 * u) by lra.
    destruct (acc_lit 0.12) as (d2 & D2 & E2). rewrite E2. replace (Rlit 0.12) with 0.12 by (unfold Rlit; cbn; lra). apply Rabs_le_inv in D2. rewrite Rmult_1_l in D2.
    destruct (rnd_err (a2 * (0.12 * (1 + d2)))) as (d3 & D3 & ->). apply Rabs_le_inv in D3.
    set (g := (1 + d2) * (1 + d3) - 1). assert (G : - (2.001 * u) <= g <= 2.001 * u).
    { assert (- (u * / 1000) <= d2 * d3 <= u * / 1000); [ | unfold g; lra]. apply Rabs_le_inv. rewrite Rabs_mult. apply Rmult_le_compat; try apply Rabs_pos; apply Rabs_le; lra. }
    replace (a2 * (0.12 * (1 + d2)) * (1 + d3)) with (0.12 * (a2 * (1 + g))) by (unfold g; ring).
    assert (B3 : - (7.2 * u) <= a2 * (1 + g) - e <= 7.2 * u).
    { assert (Z : - (1.01 * (2.001 * u)) <= a2 * g <= 1.01 * (2.001 * u)) by (apply Rabs_le_inv; rewrite Rabs_mult; apply Rmult_le_compat; try apply Rabs_pos; apply Rabs_le; lra). lra. }
    set (h := a2 * (1 + g)) in *. rewrite rnd_1. destruct (rnd_err (0.12 * h - 1)) as (d4 & D4 & ->). apply Rabs_le_inv in D4.
    destruct (rnd_err (- ((0.12 * h - 1) * (1 + d4)) * sigma)) as (d5 & D5 & ->). apply Rabs_le_inv in D5.
    replace (diameter sigma eps t) with (sigma * (1 - 0.12 * e)) by (unfold diameter, e, y; do 4 f_equal; field; lra).
    set (w := 1 - 0.12 * e). assert (W : 0.88 <= w <= 1) by (unfold w; lra). clearbody a1 a2 h. 
    set (k := (1 + d4) * (1 + d5) - 1). assert (Kb : - (2.001 * u) <= k <= 2.001 * u).
    { assert (- (u * / 1000) <= d4 * d5 <= u * / 1000); [ | unfold k; lra]. apply Rabs_le_inv. rewrite Rabs_mult. apply Rmult_le_compat; try apply Rabs_pos; apply Rabs_le; lra. }
    apply within_acc; [lra | ]. unfold within. rewrite (Rabs_right (sigma * w)) by (apply Rle_ge, Rmult_le_pos; lra).
    replace (- ((0.12 * h - 1) * (1 + d4)) * sigma * (1 + d5) - sigma * w) with (sigma * ((1 - 0.12 * h) * (1 + k) - w)) by (unfold k; ring). rewrite Rabs_mult, (Rabs_right sigma) by lra.
    replace (4 * u * (sigma * w)) with (sigma * (4 * u * w)) by ring. apply Rmult_le_compat_l; [lra | ].
    replace ((1 - 0.12 * h) * (1 + k) - w) with (w * k - 0.12 * (h - e) * (1 + k)) by (unfold w; ring).
    assert (Z1 : Rabs (w * k) <= w * (2.001 * u)) by (rewrite Rabs_mult, (Rabs_right w) by lra; apply Rmult_le_compat_l; [lra | apply Rabs_le; lra]).
    assert (Z2 : Rabs (0.12 * (h - e) * (1 + k)) <= 0.12 * (7.2 * u) * 1.001).
    { rewrite !Rabs_mult, (Rabs_right 0.12) by lra. apply Rmult_le_compat; [apply Rmult_le_pos; [lra | apply Rabs_pos] | apply Rabs_pos | | apply Rabs_le; lra]. apply Rmult_le_compat_l; [lra | apply Rabs_le; lra]. }
    assert (Z3 : 0.88 * u <= w * u) by (apply Rmult_le_compat_r; lra).
    unfold Rminus at 1. eapply Rle_trans; [apply Rabs_triang | ]. rewrite Rabs_Ropp. lra.
  Qed.
  Lemma fl_diameter_upper sigma eps t : 0 <= sigma -> f64 sigma -> fl_diameter sigma eps t <= sigma.
  Proof.
    intros Hs Fs. unfold fl_diameter. set (a := rnd (rnd (rnd (/ t) * rnd (Rlit (-3))) * eps)). destruct HL as (HE & _). specialize (HE a). unfold within in HE.
    pose proof (exp_pos a) as Pa. rewrite (Rabs_right (exp a)) in HE by lra. apply Rabs_le_inv in HE.
    assert (P1 : 0 <= l_exp L a) by (assert (/ 2 ^ 52 * exp a <= 1 * exp a) by (apply Rmult_le_compat_r; lra); lra).
    assert (P2 : 0 <= rnd (Rlit 0.12)). { rewrite <- rnd_0. apply rnd_le. unfold Rlit. cbn. lra. }
    assert (P3 : 0 <= rnd (l_exp L a * rnd (Rlit 0.12))). { rewrite <- rnd_0 at 1. apply rnd_le. apply Rmult_le_pos; auto. }
    rewrite rnd_1. set (b := rnd (l_exp L a * rnd (Rlit 0.12))) in *.
    assert (P4 : - (1) <= rnd (b - 1)). { apply Rle_trans with (rnd (- (1))); [rewrite rnd_opp, rnd_1; lra | apply rnd_le; lra]. }
    apply Rle_trans with (rnd sigma); [apply rnd_le | rewrite rnd_id by auto; lra].
    assert (- rnd (b - 1) * sigma <= 1 * sigma) by (apply Rmult_le_compat_r; lra). lra.
  Qed.
End Diameter.

(** At every temperature the diameter computed with f64 agrees with the exact one to the last two bits,
    and never exceeds the segment diameter. *)
Theorem C52_diameter L p t i : libm_ok L -> (i < length (p_sigma p))%nat -> 0 < t ->
  let sigma := @ix (BNum L) (p_sigma p) i in let eps := @ix (BNum L) (p_epsilon_k p) i in let d := @ix (BNum L) (@hs_diameter (BNum L) p t) i in
  0 < sigma -> 0 <= eps ->
  Rabs (d - diameter sigma eps t) <= / 2 ^ 51 * diameter sigma eps t /\ (f64 sigma -> d <= sigma).
Proof.
  intros HL Hi Ht sigma eps d Hs He. unfold d. rewrite fl_diameter_ok by auto. fold sigma eps. split.
  - pose proof (acc_within _ _ _ (fl_diameter_err L HL sigma eps t Ht He Hs)) as H. unfold within in H.
    assert (P : 0 <= diameter sigma eps t).
    { unfold diameter. apply Rmult_le_pos; [lra | ]. assert (exp (- 3 * eps / t) <= exp 0); [ | rewrite exp_0 in *; lra].
      assert (0 <= 3 * eps * / t) by (apply Rmult_le_pos; [lra | left; apply Rinv_0_lt_compat; auto]). destruct (Req_dec (-3 * eps / t) 0) as [-> | N]; [lra | left; apply exp_increasing; unfold Rdiv in *; lra]. }
    rewrite (Rabs_right (diameter sigma eps t)) in H by lra. replace (/ 2 ^ 51) with (4 * u) by (unfold u; lra). exact H.
  - intros Fs. apply fl_diameter_upper; auto. lra.
Qed.

(* --------------------------------------------------------- free-volume factor of the functional *)
Lemma numerator n : 0 < n < 1 -> - (n * (1 - n)) <= (1 - n) ^ 2 * ln (1 - n) < 0.
Proof.
  intros H. set (w := 1 - n). assert (W : 0 < w < 1) by (unfold w; lra).
  assert (L1 : 1 - / w <= ln w).
  { assert (ln (/ w) <= / w - 1). { assert (0 < / w) by (apply Rinv_0_lt_compat; lra). pose proof (exp_ineq1_le (ln (/ w))) as E. rewrite exp_ln in E by auto. lra. } rewrite ln_Rinv in H0 by lra. lra. }
  assert (L2 : ln w < 0) by (rewrite <- ln_1; apply ln_increasing; lra).
  assert (P2 : 0 < w ^ 2) by (apply pow_lt; lra). split; [ | apply Rmult_lt_0_compat with (r1 := w ^ 2) (r2 := - ln w) in P2; lra].
  assert (E : w ^ 2 * (1 - / w) = - (n * w)) by (unfold w in *; field; lra). rewrite <- E. apply Rmult_le_compat_l; lra.
Qed.
Lemma acc_refl_n e x y : 0 <= e -> x = y -> acc e x y. Proof. intros; apply acc_eq; auto. Qed.

Section F3.
  Variable L : libm. Hypothesis HL : libm_ok L.
  Variable n : R. Hypothesis Hn : 0 < n < 1.
  Lemma raw_err : / 10 ^ 6 <= n -> acc ((7 / n + 12) * u) (@fmt_f3_raw (BNum L) n) (f3_exact n).
  Proof.
    intros H6. pose proof u_pos as U0. pose proof u_small as U1. set (w := 1 - n). assert (W : 0 < w < 1) by (unfold w; lra).
    change (@fmt_f3_raw (BNum L) n) with (let m := rnd (- n + rnd (Rlit 1)) in
      rnd (rnd (rnd (rnd (rnd (rnd (rnd (m * m) * l_ln1p L (- n)) + n) * rnd (/ n)) * rnd (/ n)) * rnd (/ m)) * rnd (/ m))).
    cbv zeta. replace (Rlit 1) with 1 by (unfold Rlit; cbn; lra). rewrite rnd_1. replace (- n + 1) with w by (unfold w; ring).
    assert (Am : acc (1.001 * u) (rnd w) w) by (eapply acc_weaken; [ | apply (accu_rnd 0); [lra | apply acc0]]; lra). set (m := rnd w) in *. clearbody m.
    assert (Amm : acc (3.005 * u) (rnd (m * m)) (w * w)).
    { eapply acc_weaken; [ | apply (accu_rnd 2.003); [lra | eapply acc_weaken; [ | apply (accu_mul 1.001 1.001); [lra | lra | exact Am | exact Am]]; lra]]. lra. }
    assert (Al : acc (2 * u) (l_ln1p L (- n)) (ln w)).
    { destruct HL as (_ & _ & _ & HP). apply within_acc; [lra | ]. replace (2 * u) with (/ 2 ^ 52) by (unfold u; lra). replace w with (1 + - n) by (unfold w; ring). apply HP. lra. }
    assert (At : acc (6.008 * u) (rnd (rnd (m * m) * l_ln1p L (- n))) (w * w * ln w)).
    { eapply acc_weaken; [ | apply (accu_rnd 5.006); [lra | eapply acc_weaken; [ | apply (accu_mul 3.005 2); [lra | lra | exact Amm | exact Al]]; lra]]. lra. }
    destruct (numerator n Hn) as [N1 N2]. fold w in N1, N2. replace (w ^ 2) with (w * w) in N1, N2 by ring. set (T0 := w * w * ln w) in *. set (T := rnd (rnd (m * m) * l_ln1p L (- n))) in *. clearbody T.
    set (Nm := T0 + n). assert (NP : n * n <= Nm) by (unfold Nm, w in *; lra). assert (P2 : 0 < n * n) by (apply Rmult_lt_0_compat; lra).
    set (a := 6.01 / n). assert (In : 0 < / n) by (apply Rinv_0_lt_compat; lra). assert (A0 : 0 <= a <= 10 ^ 7).
    { unfold a, Rdiv. split; [lra | ]. assert (/ n <= 10 ^ 6) by (rewrite <- (Rinv_inv (10 ^ 6)); apply Rinv_le_contravar; lra). lra. }
    assert (An : acc (a * u) (T + n) Nm).
    { destruct At as (d & D & ->). apply within_acc; [apply Rmult_le_pos; lra | ]. unfold within. replace (T0 * (1 + d) + n - Nm) with (T0 * d) by (unfold Nm; ring). rewrite Rabs_mult, (Rabs_left T0), (Rabs_right Nm) by lra.
      apply Rle_trans with (n * w * (6.008 * u)); [apply Rmult_le_compat; [lra | apply Rabs_pos | lra | exact D] | ].
      apply Rle_trans with (a * u * (n * n)); [ | apply Rmult_le_compat_l; [apply Rmult_le_pos; lra | auto]].
      replace (a * u * (n * n)) with (6.01 * u * n) by (unfold a; field; lra). replace (n * w * (6.008 * u)) with (6.008 * u * n * w) by ring.
      assert (0 < u * n) by (apply Rmult_lt_0_compat; lra). assert (6.008 * u * n * w <= 6.008 * u * n * 1) by (apply Rmult_le_compat_l; lra). lra. }
    assert (Ar : acc (1.001 * u) (rnd (/ n)) (/ n)) by (eapply acc_weaken; [ | apply (accu_rnd 0); [lra | apply acc0]]; lra). set (r := rnd (/ n)) in *. clearbody r.
    assert (Ai : acc (2.013 * u) (rnd (/ m)) (/ w)) by (eapply acc_weaken; [ | apply (accu_rnd 1.011); [lra | eapply acc_weaken; [ | apply (accu_inv 1.001); [lra | lra | exact Am]]; lra]]; lra). set (mr := rnd (/ m)) in *. clearbody mr.
    assert (M : forall c b x y x' y', acc (c * u) x y -> acc (b * u) x' y' -> 0 <= c <= 10 ^ 8 -> 0 <= b <= 1000 -> acc ((c + b + 1.01) * u) (rnd (x * x')) (y * y')).
    { intros c b x y x' y' H H' Hc Hb. eapply acc_weaken; [ | apply (accu_rnd (c + b + 0.001)); [lra | apply accu_mul; eauto; lra]]. lra. }
    pose proof (accu_rnd a _ _ ltac:(lra) An) as K0. pose proof (M _ 1.001 _ _ _ _ K0 Ar ltac:(lra) ltac:(lra)) as K1. pose proof (M _ 1.001 _ _ _ _ K1 Ar ltac:(lra) ltac:(lra)) as K2.
    pose proof (M _ 2.013 _ _ _ _ K2 Ai ltac:(lra) ltac:(lra)) as K3. pose proof (M _ 2.013 _ _ _ _ K3 Ai ltac:(lra) ltac:(lra)) as K4.
    replace (f3_exact n) with (Nm * / n * / n * / w * / w) by (unfold f3_exact, Nm, T0, w in *; field; lra). eapply acc_weaken; [ | exact K4]. apply Rmult_le_compat_r; [lra | ]. unfold a, Rdiv. lra.
  Qed.

  Lemma taylor_err : acc (9.5 * u) (@fmt_f3_taylor (BNum L) n) (@fmt_f3_taylor RNum n).
  Proof.
    pose proof u_pos as U0. pose proof u_small as U1.
    change (@fmt_f3_taylor (BNum L) n) with (rnd (rnd (rnd (rnd (rnd (rnd (rnd (rnd (rnd (n * rnd (Rlit 35)) / rnd (Rlit 6)) + rnd (Rlit 4.8)) * n) + rnd (Rlit 3.75)) * n) + rnd (rnd (Rlit 8) / rnd (Rlit 3))) * n) + rnd (Rlit 1.5))).
    replace (@fmt_f3_taylor RNum n) with ((((n * 35 * / 6 + 4.8) * n + 3.75) * n + 8 * / 3) * n + 1.5) by (unfold fmt_f3_taylor; rn; lra).
    assert (Ex : forall q z, Rlit q = IZR z -> (Z.abs z < 2 ^ 53)%Z -> rnd (Rlit q) = IZR z) by (intros q z -> Hz; apply rnd_id, f64_int; auto).
    rewrite (Ex 35%Q 35%Z), (Ex 6%Q 6%Z), (Ex 8%Q 8%Z), (Ex 3%Q 3%Z); try lia; try (unfold Rlit; cbn; lra).
    pose proof (acc_lit 4.8) as L48. pose proof (acc_lit 3.75) as L375. pose proof (acc_lit 1.5) as L15.
    replace (Rlit 4.8) with 4.8 in * by (unfold Rlit; cbn; lra). replace (Rlit 3.75) with 3.75 in * by (unfold Rlit; cbn; lra). replace (Rlit 1.5) with 1.5 in * by (unfold Rlit; cbn; lra).
    assert (Ad : forall c b x y x' y', acc (c * u) x y -> acc (b * u) x' y' -> 0 <= y -> 0 <= y' -> 0 <= c <= 100 -> b <= c -> acc ((c + 1.001) * u) (rnd (x + x')) (y + y')).
    { intros c b x y x' y' H H' Py Py' Hc Hb. apply accu_rnd; [lra | ]. apply acc_add; auto. eapply acc_weaken; [ | exact H']. apply Rmult_le_compat_r; lra. }
    assert (Mu : forall c x y k, acc (c * u) x y -> 0 <= c <= 100 -> acc ((c + 1.003) * u) (rnd (x * k)) (y * k)).
    { intros c x y k H Hc. eapply acc_weaken; [ | apply (accu_rnd (c + 0.001)); [lra | eapply acc_weaken; [ | apply (accu_mul c 0); [lra | lra | exact H | apply acc0]]; lra]]. lra. }
    pose proof (Mu 0 n n 35 (acc0 n) ltac:(lra)) as K1. pose proof (Mu _ _ _ (/ 6) K1 ltac:(lra)) as K2.
    pose proof (Ad _ 1 _ _ _ _ K2 L48 ltac:(lra) ltac:(lra) ltac:(lra) ltac:(lra)) as K3. pose proof (Mu _ _ _ n K3 ltac:(lra)) as K4.
    assert (P1 : 0 <= (n * 35 * / 6 + 4.8) * n) by (apply Rmult_le_pos; lra).
    pose proof (Ad _ 1 _ _ _ _ K4 L375 P1 ltac:(lra) ltac:(lra) ltac:(lra)) as K5. pose proof (Mu _ _ _ n K5 ltac:(lra)) as K6.
    assert (P2 : 0 <= ((n * 35 * / 6 + 4.8) * n + 3.75) * n) by (apply Rmult_le_pos; lra).
    pose proof (Mu 0 8 8 (/ 3) (acc0 8) ltac:(lra)) as L83.
    pose proof (Ad _ _ _ _ _ _ K6 L83 P2 ltac:(lra) ltac:(lra) ltac:(lra)) as K7. pose proof (Mu _ _ _ n K7 ltac:(lra)) as K8.
    assert (P3 : 0 <= (((n * 35 * / 6 + 4.8) * n + 3.75) * n + 8 * / 3) * n) by (apply Rmult_le_pos; lra).
    pose proof (Ad _ 1 _ _ _ _ K8 L15 P3 ltac:(lra) ltac:(lra) ltac:(lra)) as K9.
    eapply acc_weaken; [ | exact K9]. lra.
  Qed.

  Lemma f3_pos : 1.4 <= f3_exact n \/ / 10 ^ 2 <= n.
  Proof.
    destruct (Rle_lt_dec (/ 10 ^ 2) n) as [H | H]; [right; auto | left]. assert (H' : 0 < n <= 1 / 100) by lra. destruct (C32_taylor_error n H') as [A _]. rewrite taylor_poly in A.
    assert (0 <= n ^ 2) by (apply pow_le; lra). assert (0 <= n ^ 3) by (apply pow_le; lra). assert (0 <= n ^ 4) by (apply pow_le; lra). assert (0 <= n ^ 5) by (apply pow_le; lra). lra.
  Qed.
End F3.
Lemma f3_exact_pos n : 0 < n < 1 -> 0 < f3_exact n.
Proof.
  intros H. unfold f3_exact. destruct (numerator n H) as [N1 N2]. assert (0 < n * n) by (apply Rmult_lt_0_compat; lra). apply Rdiv_lt_0_compat; [lra | ]. apply Rmult_lt_0_compat; apply pow_lt; lra.
Qed.
Lemma cutoff_lit L : / 10 ^ 5 - / 10 ^ 20 <= @n3_cutoff (BNum L) <= / 10 ^ 5 + / 10 ^ 20.
Proof.
  change (@n3_cutoff (BNum L)) with (rnd (Rlit 1e-5)). destruct (rnd_err (Rlit 1e-5)) as (d & D & ->). apply Rabs_le_inv in D. pose proof u_small.
  replace (Rlit 1e-5) with (/ 10 ^ 5) by (unfold Rlit; cbn; lra). lra.
Qed.

(** The factor (w^2 ln w + n)/(n^2 w^2), w = 1 - n, loses digits to cancellation, but only up to the
    switch to the series: the f64 result is within 7/n + 12 units of roundoff above it and ten below. *)
Theorem C52_free_volume L n : libm_ok L -> 0 < n < 1 ->
  Rabs (@fmt_f3 (BNum L) n - f3_exact n) <= (if Rlt_dec n (@n3_cutoff (BNum L)) then 10 else 7 / n + 12) / 2 ^ 53 * f3_exact n.
Proof.
  intros HL Hn. pose proof (cutoff_lit L) as C. unfold fmt_f3. change (@nltb (BNum L)) with Rltb. change (/ 2 ^ 53) with u. unfold Rdiv at 1. change (/ 2 ^ 53) with u. pose proof (f3_exact_pos n Hn) as Pf. pose proof u_pos as U0. pose proof u_small as U1.
  destruct (Rlt_dec n (@n3_cutoff (BNum L))) as [Hc | Hc].
  - rewrite (proj2 (Rltb_true _ _) Hc). pose proof (acc_within _ _ _ (taylor_err L n Hn)) as A. unfold within in A.
    assert (H' : 0 < n <= 1 / 100) by lra. destruct (C32_taylor_error n H') as [B1 B2]. assert (N5 : 0 <= n ^ 5) by (apply pow_le; lra).
    assert (N5' : n ^ 5 <= (2 * / 10 ^ 5) ^ 5) by (apply pow_incr; lra). destruct (f3_pos n Hn) as [F | F]; [ | lra].
    set (T := @fmt_f3_taylor RNum n) in *. assert (PT : 0 < T) by lra. rewrite (Rabs_right T) in A by lra.
    replace (@fmt_f3_taylor (BNum L) n - f3_exact n) with ((@fmt_f3_taylor (BNum L) n - T) + (T - f3_exact n)) by (change (car (BNum L)) with R; lra).
    eapply Rle_trans; [apply Rabs_triang | ]. assert (T <= f3_exact n) by lra. assert (9.5 * u * T <= 9.5 * u * f3_exact n) by (apply Rmult_le_compat_l; lra).
    assert (Rabs (T - f3_exact n) <= 0.5 * u * 1.4). { apply Rabs_le. assert (8 * (2 * / 10 ^ 5) ^ 5 <= 0.5 * u * 1.4) by (unfold u; lra). lra. }
    assert (0.5 * u * 1.4 <= 0.5 * u * f3_exact n) by (apply Rmult_le_compat_l; lra). lra.
  - assert (E : Rltb n (@n3_cutoff (BNum L)) = false) by (apply Rltb_false; lra). rewrite E. pose proof (acc_within _ _ _ (raw_err L HL n Hn ltac:(lra))) as A. unfold within in A. rewrite (Rabs_right (f3_exact n)) in A by lra. exact A.
Qed.
(** in particular ten digits are always correct *)
Theorem C52_free_volume_digits L n : libm_ok L -> 0 < n < 1 -> Rabs (@fmt_f3 (BNum L) n - f3_exact n) <= / 10 ^ 10 * f3_exact n.
Proof.
  intros HL Hn. eapply Rle_trans; [apply C52_free_volume; auto | ]. pose proof (f3_exact_pos n Hn). apply Rmult_le_compat_r; [lra | ]. pose proof (cutoff_lit L) as C.
  destruct (Rlt_dec n (@n3_cutoff (BNum L))) as [Hc | Hc]; [lra | ]. assert (I : / n <= 1.001 * 10 ^ 5). { replace (1.001 * 10 ^ 5) with (/ (/ (1.001 * 10 ^ 5))) by apply Rinv_inv. apply Rinv_le_contravar; lra. }
  apply Rle_trans with ((7 * (1.001 * 10 ^ 5) + 12) / 2 ^ 53); [ | lra]. unfold Rdiv. apply Rmult_le_compat_r; [lra | ]. lra.
Qed.

Definition b_methane L : pure_record (BNum L) :=
  @mkPure (BNum L) (mkIdent None None None None None None) 16 (@mkRec (BNum L) 1 3.5 150 None None None None None None None None None) None.
Example C52_diameter_case : let p := @from_records_raw (BNum exact_libm) [b_methane exact_libm] [[0]] in
  let d := @ix (BNum exact_libm) (@hs_diameter (BNum exact_libm) p 300) 0 in
  Rabs (d - diameter 3.5 150 300) <= / 2 ^ 51 * diameter 3.5 150 300 /\ d <= 3.5 /\
  Rabs (@fmt_f3 (BNum exact_libm) 0.3 - f3_exact 0.3) <= / 10 ^ 10 * f3_exact 0.3 /\
  Rabs (@fmt_f3 (BNum exact_libm) (/ 10 ^ 7) - f3_exact (/ 10 ^ 7)) <= / 10 ^ 10 * f3_exact (/ 10 ^ 7).
Proof.
  intros p d. destruct (C52_diameter exact_libm p 300 0 exact_libm_ok ltac:(cbn; lia) ltac:(lra) ltac:(cbn; lra) ltac:(cbn; lra)) as [A B].
  split; [exact A | split; [apply B | split; apply C52_free_volume_digits; try apply exact_libm_ok; lra]].
  change (f64 3.5). replace 3.5 with (IZR 7 * bpow radix2 (-1)) by (cbn; lra). apply f64_Z. lia.
Qed.
Print Assumptions C52_diameter.
Print Assumptions C52_free_volume.
Print Assumptions C52_free_volume_digits.
