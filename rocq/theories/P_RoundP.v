(** C52: rounding of the dipole and quadrupole contributions of a mixture with one polar component. *)
From Coq Require Import ZArith QArith Reals Lra Lia List Bool.
From Flocq Require Import Core Relative.
From Interval Require Import Tactic.
From Verif Require Import Num RNum RSum Tables M_Params M_Eos Spec F_Params P_Basic BNum F_Round F_Round2 F_Round3 P_RoundD P_RoundH P_RoundA.
Import ListNotations.
Local Open Scope R_scope.
Set Bullet Behavior "Strict Subproofs".
Notation length := List.length.

(** reduced squared multipole moment: mu^2 in D^2 (k = 3) or Q^2 in (D A)^2 (k = 5) over m sigma^k eps, in units of the Boltzmann constant *)
Definition reduced_moment (k : nat) (mu m s e : R) : R := mu ^ 2 / (m * s ^ k * e) * (Rlit 1e-19 / Rlit 1.380649e-23).
(** the mixture described by parameters held as f64 *)
Definition polar_fluid {L} (p : params (BNum L)) : mixture :=
  mkMix (length (p_m p)) (fun i => nth i (p_m p) 0) (fun i => nth i (p_sigma p) 0) (fun i => nth i (p_epsilon_k p) 0)
    (fun i => reduced_moment 3 (nth i (p_mu p) 0) (nth i (p_m p) 0) (nth i (p_sigma p) 0) (nth i (p_epsilon_k p) 0))
    (fun i => reduced_moment 5 (nth i (p_q p) 0) (nth i (p_m p) 0) (nth i (p_sigma p) 0) (nth i (p_epsilon_k p) 0))
    (fun _ => 0) (fun _ => 0) (fun _ => 0) (fun _ => 0) (fun i j => nth j (nth i (p_k_ij p) nil) 0).
(** sums of the absolute values of the terms of the perturbation integrals and of the two orders of the expansions *)
Definition cm_scale (c : list (list Q)) (l : nat) (m : R) : R :=
  Rabs (lit2 c l 0) + (m + 1) / m * Rabs (lit2 c l 1) + (m + 1) / m * ((m + 2) / m) * Rabs (lit2 c l 2).
Definition J2_scale (X : mixture) (T : R) (rho : nat -> R) (a b : list (list Q)) (i j : nat) : R :=
  Sum l < length a, (cm_scale a l (m2 X i j) + cm_scale b l (m2 X i j) * (Eij0 X i j / T)) * Eta X T rho ^ l.
Definition J3_scale (X : mixture) (T : R) (rho : nat -> R) (c : list (list Q)) (i j k : nat) : R :=
  Sum l < length c, cm_scale c l (m3 X i j k) * Eta X T rho ^ l.
Definition dd2_scale (X : mixture) (T : R) (rho : nat -> R) : R := PI * Sum i < N X, Sum j < N X,
  rho i * rho j * Wi X T 3 i * Wi X T 3 j / Sij X i j ^ 3 * Mu2 X i * Mu2 X j * J2_scale X T rho AD BD i j.
Definition dd3_scale (X : mixture) (T : R) (rho : nat -> R) : R := 4 * PI ^ 2 / 3 * Sum i < N X, Sum j < N X, Sum k < N X,
  rho i * rho j * rho k * Wi X T 3 i * Wi X T 3 j * Wi X T 3 k / (Sij X i j * Sij X i k * Sij X j k)
  * Mu2 X i * Mu2 X j * Mu2 X k * J3_scale X T rho CD i j k.
Definition qq2_scale (X : mixture) (T : R) (rho : nat -> R) : R := PI * (3 / 4) ^ 2 * Sum i < N X, Sum j < N X,
  rho i * rho j * Wi X T 5 i * Wi X T 5 j / Sij X i j ^ 7 * Qu2 X i * Qu2 X j * J2_scale X T rho AQ BQ i j.
Definition qq3_scale (X : mixture) (T : R) (rho : nat -> R) : R := 4 * PI ^ 2 / 3 * (3 / 4) ^ 3 * Sum i < N X, Sum j < N X, Sum k < N X,
  rho i * rho j * rho k * Wi X T 5 i * Wi X T 5 j * Wi X T 5 k / (Sij X i j * Sij X i k * Sij X j k) ^ 3
  * Qu2 X i * Qu2 X j * Qu2 X k * J3_scale X T rho CQ i j k.

Lemma one1 : 1 <= 1. Proof. lra. Qed.
Lemma u_half : 1 * u <= / 2.
Proof. pose proof u_small. pose proof u_pos. assert (/ 10 ^ 15 <= / 2) by (apply Rinv_le_contravar; lra). lra. Qed.
Notation er1 := (er 1).
Lemma er1_rnd k x y M : er1 k x y M -> er1 (S k) (rnd x) y M. Proof. exact (er_rnd 1 one1 u_half k x y M). Qed.
Lemma er1_mul k x y M k' x' y' M' : er1 k x y M -> er1 k' x' y' M' -> er1 (k + k') (x * x') (y * y') (M * M'). Proof. exact (er_mul 1 k x y M k' x' y' M'). Qed.
Lemma er1_k k k' x y M : (k <= k')%nat -> er1 k x y M -> er1 k' x y M.
Proof. intros H. apply (er_weaken 1 one1 u_half); [auto | lra]. Qed.
Lemma er1_add k x y M x' y' M' : er1 k x y M -> er1 k x' y' M' -> er1 k (x + x') (y + y') (M + M'). Proof. exact (er_add 1 k x y M x' y' M'). Qed.
Lemma er1_sub k x y M x' y' M' : er1 k x y M -> er1 k x' y' M' -> er1 k (x - x') (y - y') (M + M'). Proof. exact (er_sub 1 k x y M x' y' M'). Qed.
Lemma er1_c c : 0 <= c -> er1 0 c c c. Proof. intros H. eapply er_eq; [ | apply er_refl]. apply Rabs_right. lra. Qed.
Lemma rp_er1 k x y : 0 <= y -> rp k x y -> er1 k x y y. Proof. intros H R. eapply er_eq; [ | exact (rp_er 1 one1 u_half k x y R)]. apply Rabs_right. lra. Qed.

Lemma nn2 r w : 0 <= r -> 0 <= w -> 0 <= r * r * w * w. Proof. intros. repeat apply Rmult_le_pos; auto. Qed.
Lemma nn3 r w : 0 <= r -> 0 <= w -> 0 <= r * r * r * w * w * w. Proof. intros. repeat apply Rmult_le_pos; auto. Qed.

Lemma al1 A : - (4 * PI ^ 2 / 3) * A = (0 - A) * (4 * PI * (PI * / 3)). Proof. field. Qed.
Lemma al2 A : 4 * PI ^ 2 / 3 * A = (0 + A) * (4 * PI * (PI * / 3)). Proof. field. Qed.
Lemma al3 A : - PI * (3 / 4) ^ 2 * A = (0 - A) * (PI * (9 / 16)). Proof. field. Qed.
Lemma al4 A : PI * (3 / 4) ^ 2 * A = (0 + A) * (PI * (9 / 16)). Proof. field. Qed.
Lemma al5 A : 4 * PI ^ 2 / 3 * (3 / 4) ^ 3 * A = (0 + A) * (PI * PI * (9 / 16)). Proof. field. Qed.

(** the perturbation integrals *)
Section Ints.
  Variable L : libm.
  Variables (eta E m Mm e ee : R) (ke km : nat).
  Hypothesis Pe : 0 <= eta. Hypothesis AE : rp ke E eta. Hypothesis Pm : 0 < m. Hypothesis AM : rp km Mm m.
  Hypothesis Pee : 0 <= e. Hypothesis Ae : rp 4 ee e.
  Let c_er c i j : er1 1 (@cst2 (BNum L) c i j) (lit2 c i j) (Rabs (lit2 c i j)).
  Proof. unfold cst2, lit2. cbn [nlit BNum]. apply er1_rnd. apply er_refl. Qed.
  Let m_er : er1 km Mm m m. Proof. apply rp_er1; auto. lra. Qed.
  Let im_er : er1 km (/ Mm) (/ m) (/ m). Proof. apply rp_er1; [left; apply Rinv_0_lt_compat, Pm | apply rp_inv; auto]. Qed.
  Let gap_er c : 0 <= c -> er1 (km + 1) (rnd (Mm - c)) (m - c) (m + c).
  Proof. intros Hc. replace (km + 1)%nat with (S km) by lia. apply er1_rnd, er1_sub; [exact m_er | ]. apply er1_k with 0%nat; [lia | apply er1_c; auto]. Qed.
  Lemma f1_er : er1 (2 * km + 2) (@frac1 (BNum L) Mm) (q1 m) ((m + 1) / m).
  Proof.
    unfold frac1, q1. rewrite (litZ L 1) by (cbn; lia). cbn [ndiv nsub BNum]. unfold Rdiv. replace (2 * km + 2)%nat with (S (km + 1 + km)) by lia. apply er1_rnd, er1_mul; [ | exact im_er]. apply gap_er. lra.
  Qed.
  Let f2_er : er1 (4 * km + 5) (@frac2 (BNum L) Mm) (q12 m) ((m + 1) / m * ((m + 2) / m)).
  Proof.
    unfold frac2, q12. rewrite (litZ L 2) by (cbn; lia). cbn [ndiv nsub nmul BNum]. unfold Rdiv at 1. replace ((m - 1) / m * ((m - 2) / m)) with ((m - 1) / m * (m - 2) * / m) by (field; lra). replace ((m + 1) / m * ((m + 2) / m)) with ((m + 1) / m * (m + 2) * / m) by (field; lra).
    replace (4 * km + 5)%nat with (S (S (2 * km + 2 + (km + 1)) + km)) by lia. apply er1_rnd, er1_mul; [ | exact im_er]. apply er1_rnd, er1_mul; [exact f1_er | ]. apply gap_er. lra.
  Qed.
  Let c1_er c i : er1 (2 * km + 4) (@nmul (BNum L) (@frac1 (BNum L) Mm) (@cst2 (BNum L) c i 1)) (q1 m * lit2 c i 1) ((m + 1) / m * Rabs (lit2 c i 1)).
  Proof. cbn [nmul BNum]. replace (2 * km + 4)%nat with (S (2 * km + 2 + 1)) by lia. apply er1_rnd, er1_mul; [exact f1_er | apply c_er]. Qed.
  Let c2_er c i : er1 (4 * km + 7) (@nmul (BNum L) (@frac2 (BNum L) Mm) (@cst2 (BNum L) c i 2)) (q12 m * lit2 c i 2) ((m + 1) / m * ((m + 2) / m) * Rabs (lit2 c i 2)).
  Proof. cbn [nmul BNum]. replace (4 * km + 7)%nat with (S (4 * km + 5 + 1)) by lia. apply er1_rnd, er1_mul; [exact f2_er | apply c_er]. Qed.
  Let cm_er c i : er1 (4 * km + 8) (@nadd (BNum L) (@nadd (BNum L) (@cst2 (BNum L) c i 0) (@nmul (BNum L) (@frac1 (BNum L) Mm) (@cst2 (BNum L) c i 1))) (@nmul (BNum L) (@frac2 (BNum L) Mm) (@cst2 (BNum L) c i 2))) (cm c i m) (cm_scale c i m).
  Proof.
    unfold cm, cm_scale. pose proof (c1_er c i) as H1. pose proof (c2_er c i) as H2. set (x1 := @nmul (BNum L) _ (@cst2 (BNum L) c i 1)) in *. set (x2 := @nmul (BNum L) _ (@cst2 (BNum L) c i 2)) in *. clearbody x1 x2. cbn [nadd BNum]. replace (4 * km + 8)%nat with (S (4 * km + 7)) by lia. apply er1_rnd, er1_add; [ | exact H2].
    apply er1_k with (S (2 * km + 4)); [lia | ]. apply er1_rnd, er1_add; [apply er1_k with 1%nat; [lia | apply c_er] | exact H1].
  Qed.
  Let eta_er : er1 ke E eta eta. Proof. apply rp_er1; auto. Qed.
  Lemma pow_er i : (i <= 4)%nat -> er1 (4 * ke + 3) (@etas (BNum L) E i) (eta ^ i) (eta ^ i).
  Proof.
    intros Hi. assert (P2 : er1 (2 * ke + 1) (@nmul (BNum L) E E) (eta * eta) (eta * eta)).
    { cbn [nmul BNum]. replace (2 * ke + 1)%nat with (S (ke + ke)) by lia. apply er1_rnd, er1_mul; exact eta_er. }
    unfold etas. cbv zeta. set (x := @nmul (BNum L) E E) in *. clearbody x. destruct i as [ | [ | [ | [ | [ | i]]]]].
    - unfold n1. rewrite (litZ L 1) by (cbn; lia). cbn [pow]. apply er1_k with 0%nat; [lia | ]. apply er1_c. lra.
    - rewrite pow_1. apply er1_k with ke; [lia | exact eta_er].
    - replace (eta ^ 2) with (eta * eta) by ring. apply er1_k with (2 * ke + 1)%nat; [lia | exact P2].
    - replace (eta ^ 3) with (eta * eta * eta) by ring. apply er1_k with (S (2 * ke + 1 + ke)); [lia | ]. cbn [nmul BNum]. apply er1_rnd, er1_mul; [exact P2 | exact eta_er].
    - replace (eta ^ 4) with (eta * eta * (eta * eta)) by ring. apply er1_k with (S (2 * ke + 1 + (2 * ke + 1))); [lia | ]. cbn [nmul BNum]. apply er1_rnd, er1_mul; exact P2.
    - lia.
  Qed.
  Lemma pair_er a b : (length a <= 5)%nat -> er1 (4 * ke + 4 * km + 25) (@pair_integral_ij (BNum L) (@frac1 (BNum L) Mm) (@frac2 (BNum L) Mm) E a b ee)
    (Sum l < length a, (cm a l m + cm b l m * e) * eta ^ l) (Sum l < length a, (cm_scale a l m + cm_scale b l m * e) * eta ^ l).
  Proof.
    intros Ha. unfold pair_integral_ij. apply er1_k with (4 * ke + 4 * km + 20 + length a)%nat; [lia | ]. apply (nsumi_er 1 one1 u_half). intros i Hi.
    rewrite (Rmult_comm (cm a i m + _)), (Rmult_comm (cm_scale a i m + _)). pose proof (cm_er b i) as B. pose proof (c1_er a i) as H1. pose proof (c2_er a i) as H2.
    set (y := @nadd (BNum L) (@nadd (BNum L) (@cst2 (BNum L) b i 0) _) _) in *. set (x1 := @nmul (BNum L) _ (@cst2 (BNum L) a i 1)) in *. set (x2 := @nmul (BNum L) _ (@cst2 (BNum L) a i 2)) in *. clearbody y x1 x2.
    cbn [nadd nmul BNum]. replace (4 * ke + 4 * km + 20)%nat with (S (4 * ke + 3 + (4 * km + 16))) by lia. apply er1_rnd, er1_mul; [apply pow_er; lia | ].
    unfold cm at 1, cm_scale at 1. set (cb := cm b i m) in *. set (sb := cm_scale b i m) in *. clearbody cb sb.
    replace (lit2 a i 0 + q1 m * lit2 a i 1 + q12 m * lit2 a i 2 + cb * e) with (e * cb + lit2 a i 0 + q1 m * lit2 a i 1 + q12 m * lit2 a i 2) by ring.
    replace (Rabs (lit2 a i 0) + (m + 1) / m * Rabs (lit2 a i 1) + (m + 1) / m * ((m + 2) / m) * Rabs (lit2 a i 2) + sb * e) with (e * sb + Rabs (lit2 a i 0) + (m + 1) / m * Rabs (lit2 a i 1) + (m + 1) / m * ((m + 2) / m) * Rabs (lit2 a i 2)) by ring.
    replace (4 * km + 16)%nat with (S (S (S (4 * km + 13)))) by lia.
    apply er1_rnd, er1_add. 2: { apply er1_k with (4 * km + 7)%nat; [lia | exact H2]. }
    apply er1_rnd, er1_add. 2: { apply er1_k with (2 * km + 4)%nat; [lia | exact H1]. }
    apply er1_rnd, er1_add. 2: { apply er1_k with 1%nat; [lia | apply c_er]. }
    replace (4 * km + 13)%nat with (S (4 + (4 * km + 8))) by lia. apply er1_rnd, er1_mul; [apply rp_er1; auto | exact B].
  Qed.
  Lemma triplet_er c : (length c <= 5)%nat -> er1 (4 * ke + 4 * km + 17) (@triplet_integral_ijk (BNum L) (@frac1 (BNum L) Mm) (@frac2 (BNum L) Mm) E c)
    (Sum l < length c, cm c l m * eta ^ l) (Sum l < length c, cm_scale c l m * eta ^ l).
  Proof.
    intros Ha. unfold triplet_integral_ijk. apply er1_k with (4 * ke + 4 * km + 12 + length c)%nat; [lia | ]. apply (nsumi_er 1 one1 u_half). intros i Hi.
    rewrite (Rmult_comm (cm c i m)), (Rmult_comm (cm_scale c i m)). pose proof (cm_er c i) as B. set (y := @nadd (BNum L) (@nadd (BNum L) _ _) _) in *. clearbody y. cbn [nmul BNum].
    replace (4 * ke + 4 * km + 12)%nat with (S (4 * ke + 3 + (4 * km + 8))) by lia. apply er1_rnd, er1_mul; [apply pow_er; lia | exact B].
  Qed.
End Ints.

(** the Pade approximant *)
Lemma pade_er L K c x2 x3 y2 y3 s2 s3 v : 0 < v -> er1 K x2 y2 s2 -> er1 K x3 y3 s3 -> y2 <> y3 -> s2 + s3 <= INR c * Rabs (y2 - y3) ->
  4 * (INR (c * (K + 1)) * INR (c * (K + 1))) * (1 * u) <= 1 ->
  er1 (2 * K + 4 + c * (K + 1)) (@pade (BNum L) x2 x3 v) (v * pade2 y2 y3) (v * (s2 ^ 2 / Rabs (y2 - y3))).
Proof.
  intros Pv E2 E3 Ne Hc Hk. unfold pade, pade2. cbv zeta. change (@nisnan (BNum L) _) with false. cbv iota. cbn [nmul ndiv nsub BNum].
  assert (Nz : y2 - y3 <> 0) by lra. assert (D : er1 (S K) (rnd (x2 - x3)) (y2 - y3) (s2 + s3)) by (apply er1_rnd, er1_sub; auto).
  pose proof (er_rel 1 one1 u_half c (S K) _ _ _ D Hc) as D1. replace (c * S K)%nat with (c * (K + 1))%nat in D1 by lia. pose proof (er_inv 1 one1 u_half _ _ _ Nz Hk D1) as D2.
  rewrite Rabs_inv in D2. replace (v * (y2 ^ 2 / (y2 - y3))) with (y2 * y2 * / (y2 - y3) * v) by (unfold Rdiv; ring). replace (v * (s2 ^ 2 / Rabs (y2 - y3))) with (s2 * s2 * / Rabs (y2 - y3) * v) by (unfold Rdiv; ring).
  replace (2 * K + 4 + c * (K + 1))%nat with (S (S (S (K + K) + S (c * (K + 1))) + 0)) by lia. apply er1_rnd, er1_mul; [ | apply er1_c; lra]. unfold Rdiv. apply er1_rnd, er1_mul; [ | exact D2]. apply er1_rnd, er1_mul; auto.
Qed.
Lemma er1_final k x y M : (0 < k)%nat -> INR k * INR k <= 2 ^ 51 -> er1 k x y M -> Rabs (x - y) <= (INR k + 1) / 2 ^ 53 * M.
Proof.
  intros Hk0 Hk D. pose proof (er_M _ _ _ _ _ D) as PM. destruct D as [D _]. eapply Rle_trans; [exact D | ]. rewrite Rmult_comm. apply Rmult_le_compat_r; auto.
  pose proof (lt_INR _ _ Hk0) as K0. cbn in K0. assert (K1 : 1 <= INR k) by (replace 1 with (INR 1) by reflexivity; apply le_INR; lia). assert (Eu : u = / 2 ^ 53) by reflexivity. pose proof u_pos as Pu.
  assert (KK : INR k * INR k * u <= / 4). { rewrite Eu. apply Rle_trans with (2 ^ 51 * / 2 ^ 53); [apply Rmult_le_compat_r; [left; apply Rinv_0_lt_compat; lra | exact Hk] | right; field]. }
  assert (K2 : INR k * u <= INR k * INR k * u). { apply Rmult_le_compat_r; [lra | ]. rewrite <- (Rmult_1_r (INR k)) at 1. apply Rmult_le_compat_l; lra. }
  eapply Rle_trans; [apply (b_upper 1 one1 u_half); rewrite Rmult_1_l; lra | ]. rewrite Rmult_1_l. unfold Rdiv. rewrite <- Eu. assert (INR k * u * (2 * (INR k * u)) <= u); [ | lra]. replace (INR k * u * (2 * (INR k * u))) with (2 * (INR k * INR k * u) * u) by ring.
  assert (2 * (INR k * INR k * u) * u <= 1 * u) by (apply Rmult_le_compat_r; lra). lra.
Qed.

Section Pol.
  Variable L : libm. Hypothesis HL : libm_ok L.
  Variables (prs : list (pure_record (BNum L))) (bin : list (list R)) (t v : R) (moles : list R).
  Let p := @from_records_raw (BNum L) prs bin.
  Hypothesis S : sphere_state p t v moles.
  Let X := polar_fluid p.
  Let n := length (p_m p).
  Let rho i := nth i moles 0 / v.
  Let st := @state_new (BNum L) t v moles.
  Let E := @packing (BNum L) p t (s_rho st).
  Let eta := Eta X t rho.
  Variable a : nat. Hypothesis Ha : (a < n)%nat.
  Let m := Rmin (M X a) 2.
  Let e := Eij0 X a a / t.
  Notation B := (BNum L).
  Let pa : 0 < M X a /\ 0 < Sg X a /\ 0 <= Ep X a /\ 0 <= rho a.
  Proof. exact (par L prs bin t v moles S a Ha). Qed.
  Let Pt : 0 < t. Proof. exact (ss_t _ _ _ _ S). Qed.
  Let Pm : 0 < m. Proof. unfold m, Rmin. destruct pa as [? _]. destruct (Rle_dec _ _); lra. Qed.
  Let mcap_eq : @mcap B p a = m.
  Proof. unfold mcap. rewrite (litZ L 2) by (cbn; lia). rewrite (ixb L). reflexivity. Qed.
  Let m2_eq : m2 X a a = m. Proof. unfold m2. change (mp X a) with m. apply sqrt_square. lra. Qed.
  Let m3_eq : m3 X a a a = m. Proof. unfold m3. change (mp X a) with m. apply Rcbrt_of_cube; auto. Qed.
  Let Sij_eq : Sij X a a = Sg X a. Proof. unfold Sij. lra. Qed.
  Let sg_rp : rp 2 (@ix2 B (p_sigma_ij p) a a) (Sg X a).
  Proof.
    rewrite <- Sij_eq. unfold p. cbn [from_records_raw p_sigma_ij]. rewrite (n_prs L prs bin). rewrite (ix2_mk2_b L prs bin) by exact Ha. rewrite !(ixb L). assert (L5 : @nlit (BNum L) 0.5 = / 2).
    { cbn [nlit BNum]. replace (Rlit 0.5) with (IZR 1 * bpow radix2 (-1)) by (unfold Rlit; cbn; lra). rewrite rnd_id; [cbn; lra | ]. exact (f64_Z 1 (-1) ltac:(lia)). }
    rewrite L5. unfold Sij. cbn [nmul nadd BNum]. unfold Rdiv. rewrite (Rmult_comm _ (/ 2)). apply (rp_rnd 1), (rp_mul 0 1); [apply rp_refl | ]. apply (rp_rnd 0), rp_refl.
  Qed.
  Let s3_rp : rp 8 (@npowi B (@ix2 B (p_sigma_ij p) a a) 3) (Sg X a ^ 3).
  Proof.
    pose proof sg_rp as G. set (x := @ix2 B _ a a) in *. cbn [npowi BNum]. change (bpowi x 3) with (rnd (x * rnd (x * x))). replace (Sg X a ^ 3) with (Sg X a * (Sg X a * Sg X a)) by ring. apply (rp_rnd 7), (rp_mul 2 5); auto. apply (rp_rnd 4), (rp_mul 2 2); auto.
  Qed.
  Let e_rp : rp 4 (@nmul B (@nrecip B t) (@ix2 B (p_e_k_ij p) a a)) e.
  Proof.
    unfold p. cbn [from_records_raw p_e_k_ij]. rewrite (n_prs L prs bin). rewrite (ix2_mk2_b L prs bin) by exact Ha. rewrite !(ixb L). cbn [nmul nrecip nsqrt BNum]. unfold e, Eij0, Rdiv. rewrite (Rmult_comm _ (/ t)). apply (rp_rnd 3), (rp_mul 1 2); [apply (rp_rnd 0), rp_refl | ].
    apply (rp_rnd 1), rp_sqrt; [apply Rmult_le_pos; apply pa | ]. apply (rp_rnd 0), rp_refl.
  Qed.
  Let e_pos : 0 <= e. Proof. apply Rmult_le_pos; [apply sqrt_pos | left; apply Rinv_0_lt_compat; auto]. Qed.
  Let E_rp : rp (27 + n) E eta. Proof. exact (eta_rp L HL prs bin t v moles S). Qed.
  Let eta_pos : 0 <= eta. Proof. left. exact (z_pos L p t v moles S 3). Qed.
  Let r_rp : rp 1 (@ix B (s_rho st) a) (rho a). Proof. exact (rho_rp L p t v moles S a Ha). Qed.
  (* reduced moments *)
  Lemma ix_mk1_b (f : nat -> R) i : (i < n)%nat -> @ix B (mk1 n f) i = f i.
  Proof. intros Hi. rewrite (ixb L). unfold mk1. rewrite (nth_indep _ 0 (f 0%nat)) by (rewrite map_length, seq_length; auto). rewrite map_nth, seq_nth by auto. reflexivity. Qed.
  Lemma units_rp : rp 2 (@kb_conv B) (/ Rlit 1.380649e-23) /\ rp 1 (@e_m19 B) (Rlit 1e-19).
  Proof.
    unfold kb_conv, e_m19. rewrite (litZ L 1) by (cbn; lia). cbn [nlit ndiv BNum]. split; [ | apply (rp_rnd 0), rp_refl]. unfold Rdiv. rewrite Rmult_1_l. apply (rp_rnd 1), rp_inv, (rp_rnd 0), rp_refl.
  Qed.
  Lemma mu2_rp i : (i < n)%nat -> rp 11 (@ix B (p_mu2 p) i) (Mu2 X i).
  Proof.
    intros Hi. destruct units_rp as [U1 U2]. unfold p at 1. cbn [from_records_raw p_mu2]. rewrite (n_prs L prs bin). change (length (p_m (@from_records_raw B prs bin))) with n. rewrite ix_mk1_b by exact Hi. rewrite !(ixb L). unfold mu2_of. cbn [nmul ndiv BNum].
    unfold X, polar_fluid, reduced_moment. cbn [Mu2]. 
    change (map r_m (map pr_model prs)) with (p_m p). change (map r_sigma (map pr_model prs)) with (p_sigma p). change (map r_epsilon_k (map pr_model prs)) with (p_epsilon_k p). change (map (fun r => unwrap_or (r_mu r) (@n0 B)) (map pr_model prs)) with (p_mu p).
    set (mu := nth i (p_mu p) 0). set (mm := nth i (p_m p) 0). set (s := nth i (p_sigma p) 0). set (ep := nth i (p_epsilon_k p) 0).
    replace (mu ^ 2 / (mm * s ^ 3 * ep) * (Rlit 1e-19 / Rlit 1.380649e-23)) with (mu * mu * / (mm * s * s * s * ep) * Rlit 1e-19 * / Rlit 1.380649e-23) by (unfold Rdiv; replace (mm * s ^ 3 * ep) with (mm * s * s * s * ep) by ring; ring).
    apply (rp_rnd 10), (rp_mul 8 2); [ | exact U1]. apply (rp_rnd 7), (rp_mul 6 1); [ | exact U2]. unfold Rdiv. apply (rp_rnd 5), (rp_mul 1 4); [apply (rp_rnd 0), rp_refl | ]. apply rp_inv. apply (rp_rnd 3), (rp_mul 3 0); [ | apply rp_refl]. apply (rp_rnd 2), (rp_mul 2 0); [ | apply rp_refl]. apply (rp_rnd 1), (rp_mul 1 0); [ | apply rp_refl]. apply (rp_rnd 0), rp_refl.
  Qed.
  Lemma q2_rp i : (i < n)%nat -> rp 13 (@ix B (p_q2 p) i) (Qu2 X i).
  Proof.
    intros Hi. destruct units_rp as [U1 U2]. unfold p at 1. cbn [from_records_raw p_q2]. rewrite (n_prs L prs bin). change (length (p_m (@from_records_raw B prs bin))) with n. rewrite ix_mk1_b by exact Hi. rewrite !(ixb L). unfold q2_of. cbn [nmul ndiv npowi BNum].
    unfold X, polar_fluid, reduced_moment. cbn [Qu2].
    change (map r_m (map pr_model prs)) with (p_m p). change (map r_sigma (map pr_model prs)) with (p_sigma p). change (map r_epsilon_k (map pr_model prs)) with (p_epsilon_k p). change (map (fun r => unwrap_or (r_q r) (@n0 B)) (map pr_model prs)) with (p_q p).
    set (mu := nth i (p_q p) 0). set (mm := nth i (p_m p) 0). set (s := nth i (p_sigma p) 0). set (ep := nth i (p_epsilon_k p) 0). change (bpowi s 5) with (rnd (s * rnd (s * rnd (s * rnd (s * s))))).
    replace (mu ^ 2 / (mm * s ^ 5 * ep) * (Rlit 1e-19 / Rlit 1.380649e-23)) with (mu * mu * / (mm * (s * (s * (s * (s * s)))) * ep) * Rlit 1e-19 * / Rlit 1.380649e-23) by (unfold Rdiv; replace (mm * s ^ 5 * ep) with (mm * (s * (s * (s * (s * s)))) * ep) by ring; ring).
    apply (rp_rnd 12), (rp_mul 10 2); [ | exact U1]. apply (rp_rnd 9), (rp_mul 8 1); [ | exact U2]. unfold Rdiv. apply (rp_rnd 7), (rp_mul 1 6); [apply (rp_rnd 0), rp_refl | ]. apply rp_inv. apply (rp_rnd 5), (rp_mul 5 0); [ | apply rp_refl]. apply (rp_rnd 4), (rp_mul 0 4); [apply rp_refl | ].
    apply (rp_rnd 3), (rp_mul 0 3); [apply rp_refl | ]. apply (rp_rnd 2), (rp_mul 0 2); [apply rp_refl | ]. apply (rp_rnd 1), (rp_mul 0 1); [apply rp_refl | ]. apply (rp_rnd 0), rp_refl.
  Qed.
  Lemma zero_rp k x y : rp k x y -> @nonzero B x = false -> y = 0.
  Proof.
    intros (q & [A1 A2] & ->) H. unfold nonzero in H. rewrite (lit0 L) in H. cbn [nltb nabs BNum] in H. unfold Rltb in H. destruct (Rlt_dec 0 (Rabs (y * q))) as [ | Nn]; [discriminate | ]. destruct (Req_dec y 0) as [ | Ny]; auto. exfalso. apply Nn. apply Rabs_pos_lt. apply Rmult_integral_contrapositive_currified; auto. destruct (o_pow k) as [P _]. apply Rgt_not_eq. lra.
  Qed.
  Lemma moment_nonneg k mu mm s ep : 0 < mm -> 0 < s -> 0 <= ep -> 0 <= reduced_moment k mu mm s ep.
  Proof.
    intros. unfold reduced_moment. apply Rmult_le_pos; [ | apply Rlt_le, Rdiv_lt_0_compat; unfold Rlit; apply Rdiv_lt_0_compat; apply IZR_lt; reflexivity]. unfold Rdiv. apply Rmult_le_pos; [apply pow2_ge_0 | ]. destruct (Req_dec ep 0) as [-> | Ne]; [rewrite Rmult_0_r, Rinv_0; lra | ]. left. apply Rinv_0_lt_compat. apply Rmult_lt_0_compat; [ | lra]. apply Rmult_lt_0_compat; [auto | apply pow_lt; auto].
  Qed.
  Let Wpos k : 0 <= Wi X t k a. Proof. unfold Wi. apply Rmult_le_pos; [ | apply pow_le; lra]. apply Rmult_le_pos; [apply pa | left; apply Rinv_0_lt_compat; auto]. Qed.
  Let pi_er : er1 1 (rnd PI) PI PI. Proof. apply er1_rnd. apply er1_c. left. apply PI_RGT_0. Qed.

  Section Dip.
    Hypothesis Hd : p_dipole_comp p = [a].
    Lemma other_mu i : (i < n)%nat -> i <> a -> Mu2 X i = 0.
    Proof.
      intros Hi Ni. apply (zero_rp 11 (@ix B (p_mu2 p) i)); [apply mu2_rp; auto | ]. destruct (@nonzero B (@ix B (p_mu2 p) i)) eqn:Z; auto. exfalso. assert (I : In i (p_dipole_comp p)).
      { change (p_dipole_comp p) with (nonzero_comp (p_mu2 p)). apply nonzero_comp_in. split; auto. change (p_mu2 p) with (mk1 (length prs) (fun i => @mu2_of B (@ix B (p_mu p) i) (@ix B (p_m p) i) (@ix B (p_sigma p) i) (@ix B (p_epsilon_k p) i))). unfold mk1. rewrite map_length, seq_length, (n_prs L prs bin). exact Hi. }
      rewrite Hd in I. cbn in I. destruct I as [I | []]. congruence.
    Qed.
    Let w := Wi X t 3 a * Mu2 X a.
    Lemma mu_pos : 0 <= Mu2 X a. Proof. apply moment_nonneg; apply pa. Qed.
    Lemma w_pos : 0 <= w. Proof. apply Rmult_le_pos; [apply Wpos | apply mu_pos]. Qed.
    Lemma mu_rp : rp 23 (@nmul B (@nmul B (@nmul B (@nrecip B t) (@npowi B (@ix2 B (p_sigma_ij p) a a) 3)) (@ix B (p_epsilon_k p) a)) (@ix B (p_mu2 p) a)) w.
    Proof.
      pose proof (mu2_rp a Ha) as R1. pose proof s3_rp as R2. rewrite (ixb L (p_epsilon_k p)). set (x := @ix B _ a) in *. set (y := @npowi B _ 3) in *. clearbody x y. cbn [nmul nrecip BNum]. unfold w, Wi. replace (Ep X a / t * Sg X a ^ 3 * Mu2 X a) with (/ t * Sg X a ^ 3 * Ep X a * Mu2 X a) by (unfold Rdiv; ring).
      apply (rp_rnd 22), (rp_mul 11 11); [ | exact R1]. apply (rp_rnd 10), (rp_mul 10 0); [ | apply rp_refl]. apply (rp_rnd 9), (rp_mul 1 8); [apply (rp_rnd 0), rp_refl | exact R2].
    Qed.
    Lemma dd2_single J : (- PI * Sum i < N X, Sum j < N X, rho i * rho j * Wi X t 3 i * Wi X t 3 j / Sij X i j ^ 3 * Mu2 X i * Mu2 X j * J i j) = - (rho a * rho a * w * w * J a a * / Sg X a ^ 3) * PI.
    Proof.
      change (N X) with n. rewrite (Sum_single n a) by (auto; intros i Hi Ni; apply rsum_zero; intros j _; rewrite (other_mu i Hi Ni); ring). rewrite (Sum_single n a) by (auto; intros j Hj Nj; rewrite (other_mu j Hj Nj); ring). rewrite Sij_eq. unfold w, Rdiv. ring.
    Qed.
    Lemma dd3_single k J : (k * Sum i < N X, Sum j < N X, Sum l < N X, rho i * rho j * rho l * Wi X t 3 i * Wi X t 3 j * Wi X t 3 l / (Sij X i j * Sij X i l * Sij X j l) * Mu2 X i * Mu2 X j * Mu2 X l * J i j l) = k * (rho a * rho a * rho a * w * w * w * J a a a * / Sg X a ^ 3).
    Proof.
      change (N X) with n. rewrite (Sum_single n a) by (auto; intros i Hi Ni; apply rsum_zero; intros j _; apply rsum_zero; intros l _; rewrite (other_mu i Hi Ni); ring). rewrite (Sum_single n a) by (auto; intros j Hj Nj; apply rsum_zero; intros l _; rewrite (other_mu j Hj Nj); ring). rewrite (Sum_single n a) by (auto; intros j Hj Nj; rewrite (other_mu j Hj Nj); ring). rewrite Sij_eq. unfold w, Rdiv.
      replace (Sg X a * Sg X a * Sg X a) with (Sg X a ^ 3) by ring. ring.
    Qed.
    Let is3_er : er1 8 (/ @npowi B (@ix2 B (p_sigma_ij p) a a) 3) (/ Sg X a ^ 3) (/ Sg X a ^ 3).
    Proof. apply rp_er1; [left; apply Rinv_0_lt_compat, pow_lt, pa | apply rp_inv, s3_rp]. Qed.
    Lemma phi2_er : er1 (4 * (27 + n) + 89) (@dipole_phi2 B p t (s_rho st) E) (dd2 X t rho) (dd2_scale X t rho).
    Proof.
      pose proof (pair_er L eta E m m e _ (27 + n) 0 eta_pos E_rp Pm (rp_refl m) e_pos e_rp AD BD ltac:(cbn; lia)) as J. replace (4 * (27 + n) + 4 * 0 + 25)%nat with (4 * (27 + n) + 25)%nat in J by lia. pose proof mu_rp as Rm. pose proof is3_er as Ri.
      unfold dd2, dd2_scale. rewrite dd2_single. match goal with |- er1 _ _ _ (PI * ?s) => replace (PI * s) with (- (- PI * s)) by ring end. rewrite dd2_single. unfold J2, J2_scale. rewrite m2_eq. fold eta. fold e.
      unfold dipole_phi2. cbv zeta. change (p_ndipole p) with (length (p_dipole_comp p)). rewrite Hd. cbn [length tri2 seq flat_map map above Nat.sub app]. unfold tri2. cbn [seq flat_map map above Nat.sub app ixn nth]. rewrite mcap_eq. unfold nsubs. cbn [fold_left].
      set (mu := @nmul B (@nmul B _ (@ix B (p_epsilon_k p) a)) _) in *. set (j := @pair_integral_ij B _ _ _ _ _ _) in *. set (s3 := @npowi B _ 3) in *. set (J0 := rsum _ _) in *. set (J1 := rsum (seq 0 (length AD)) (fun l => (cm_scale _ _ _ + _) * _)) in *. pose proof r_rp as Rr. set (r := @ix B (s_rho st) a) in *. clearbody mu j s3 J0 J1 r. rewrite (lit0 L). cbn [nsub nmul ndiv npi BNum].
      replace (- (- (rho a * rho a * w * w * J1 * / Sg X a ^ 3) * PI)) with ((0 + rho a * rho a * w * w * J1 * / Sg X a ^ 3) * PI) by ring. replace (- (rho a * rho a * w * w * J0 * / Sg X a ^ 3)) with (0 - rho a * rho a * w * w * J0 * / Sg X a ^ 3) by ring.
      replace (4 * (27 + n) + 89)%nat with (Datatypes.S (Datatypes.S (Datatypes.S (Datatypes.S (51 + (4 * (27 + n) + 25)) + 8)) + 1)) by lia. apply er1_rnd, er1_mul; [ | exact pi_er]. apply er1_rnd, er1_sub; [apply er1_k with 0%nat; [lia | apply er1_c; lra] | ]. unfold Rdiv. apply er1_rnd, er1_mul; [ | exact Ri]. apply er1_rnd, er1_mul; [ | exact J].
      pose proof w_pos. destruct pa as (_ & _ & _ & ?). apply rp_er1; [apply nn2; auto | ]. apply (rp_rnd 50), (rp_mul 27 23); [ | exact Rm]. apply (rp_rnd 26), (rp_mul 3 23); [ | exact Rm]. apply (rp_rnd 2), (rp_mul 1 1); exact Rr.
    Qed.
    Lemma phi3_er : er1 (4 * (27 + n) + 111) (@dipole_phi3 B p t (s_rho st) E) (dd3 X t rho) (dd3_scale X t rho).
    Proof.
      pose proof (triplet_er L eta E m m (27 + n) 0 eta_pos E_rp Pm (rp_refl m) CD ltac:(cbn; lia)) as J. replace (4 * (27 + n) + 4 * 0 + 17)%nat with (4 * (27 + n) + 17)%nat in J by lia. pose proof mu_rp as Rm. pose proof is3_er as Ri. pose proof PI_RGT_0 as PP.
      unfold dd3, dd3_scale. rewrite !dd3_single. unfold J3, J3_scale. rewrite m3_eq. fold eta.
      unfold dipole_phi3. cbv zeta. change (p_ndipole p) with (length (p_dipole_comp p)). rewrite Hd. cbn [length]. unfold tri3. cbn [seq flat_map map above Nat.sub app ixn nth]. rewrite mcap_eq. unfold nsubs. cbn [fold_left].
      set (mu := @nmul B (@nmul B _ (@ix B (p_epsilon_k p) a)) _) in *. set (j := @triplet_integral_ijk B _ _ _ _) in *. set (s3 := @npowi B _ 3) in *. set (J0 := rsum _ _) in *. set (J1 := rsum (seq 0 (length CD)) (fun l => cm_scale _ _ _ * _)) in *. pose proof r_rp as Rr. set (r := @ix B (s_rho st) a) in *. clearbody mu j s3 J0 J1 r. rewrite (lit0 L). unfold pi_sq_43, frac_pi_3. rewrite (litZ L 4), (litZ L 3) by (cbn; lia). cbn [nsub nmul ndiv npi BNum].
      rewrite al1, al2.
      replace (4 * (27 + n) + 111)%nat with (Datatypes.S (Datatypes.S (Datatypes.S (Datatypes.S (77 + (4 * (27 + n) + 17)) + 8)) + 5)) by lia. apply er1_rnd, er1_mul.
      2: { apply er1_k with 5%nat; [lia | ]. apply er1_rnd. apply (er1_mul 2 _ _ _ 2); [apply er1_rnd; apply (er1_mul 0 _ _ _ 1); [apply er1_c; lra | exact pi_er] | ]. unfold Rdiv. apply er1_rnd. apply (er1_mul 1 _ _ _ 0); [exact pi_er | apply er1_c; lra]. }
      apply er1_rnd, er1_sub; [apply er1_k with 0%nat; [lia | apply er1_c; lra] | ]. unfold Rdiv. apply er1_rnd, er1_mul; [ | exact Ri]. apply er1_rnd, er1_mul; [ | exact J].
      pose proof w_pos. destruct pa as (_ & _ & _ & ?). apply rp_er1; [apply nn3; auto | ]. apply (rp_rnd 76), (rp_mul 53 23); [ | exact Rm]. apply (rp_rnd 52), (rp_mul 29 23); [ | exact Rm]. apply (rp_rnd 28), (rp_mul 5 23); [ | exact Rm]. apply (rp_rnd 4), (rp_mul 3 1); [ | exact Rr]. apply (rp_rnd 2), (rp_mul 1 1); exact Rr.
    Qed.
  End Dip.

  Section Quad.
    Hypothesis Hd : p_quadpole_comp p = [a].
    Lemma other_qu i : (i < n)%nat -> i <> a -> Qu2 X i = 0.
    Proof.
      intros Hi Ni. apply (zero_rp 13 (@ix B (p_q2 p) i)); [apply q2_rp; auto | ]. destruct (@nonzero B (@ix B (p_q2 p) i)) eqn:Z; auto. exfalso. assert (I : In i (p_quadpole_comp p)).
      { change (p_quadpole_comp p) with (nonzero_comp (p_q2 p)). apply nonzero_comp_in. split; auto. change (p_q2 p) with (mk1 (length prs) (fun i => @q2_of B (@ix B (p_q p) i) (@ix B (p_m p) i) (@ix B (p_sigma p) i) (@ix B (p_epsilon_k p) i))). unfold mk1. rewrite map_length, seq_length, (n_prs L prs bin). exact Hi. }
      rewrite Hd in I. cbn in I. destruct I as [I | []]. congruence.
    Qed.
    Let w := Wi X t 5 a * Qu2 X a.
    Lemma qu_pos : 0 <= Qu2 X a. Proof. apply moment_nonneg; apply pa. Qed.
    Lemma wq_pos : 0 <= w. Proof. apply Rmult_le_pos; [apply Wpos | apply qu_pos]. Qed.
    Lemma qu_rp : rp 21 (@nmul B (@nmul B (@nmul B (@nrecip B t) (@npowi B (@ix B (p_sigma p) a) 5)) (@ix B (p_epsilon_k p) a)) (@ix B (p_q2 p) a)) w.
    Proof.
      pose proof (q2_rp a Ha) as R1. rewrite (ixb L (p_epsilon_k p)), (ixb L (p_sigma p)). set (x := @ix B _ a) in *. clearbody x. cbn [nmul nrecip npowi BNum]. change (nth a (p_sigma p) 0) with (Sg X a). set (s := Sg X a). change (bpowi s 5) with (rnd (s * rnd (s * rnd (s * rnd (s * s))))). unfold w, Wi. fold s. replace (Ep X a / t * s ^ 5 * Qu2 X a) with (/ t * (s * (s * (s * (s * s)))) * Ep X a * Qu2 X a) by (unfold Rdiv; ring).
      apply (rp_rnd 20), (rp_mul 7 13); [ | exact R1]. apply (rp_rnd 6), (rp_mul 6 0); [ | apply rp_refl]. apply (rp_rnd 5), (rp_mul 1 4); [apply (rp_rnd 0), rp_refl | ].
      apply (rp_rnd 3), (rp_mul 0 3); [apply rp_refl | ]. apply (rp_rnd 2), (rp_mul 0 2); [apply rp_refl | ]. apply (rp_rnd 1), (rp_mul 0 1); [apply rp_refl | ]. apply (rp_rnd 0), rp_refl.
    Qed.
    Lemma qq2_single k J : (k * Sum i < N X, Sum j < N X, rho i * rho j * Wi X t 5 i * Wi X t 5 j / Sij X i j ^ 7 * Qu2 X i * Qu2 X j * J i j) = k * (rho a * rho a * w * w * J a a * / Sg X a ^ 7).
    Proof.
      change (N X) with n. rewrite (Sum_single n a) by (auto; intros i Hi Ni; apply rsum_zero; intros j _; rewrite (other_qu i Hi Ni); ring). rewrite (Sum_single n a) by (auto; intros j Hj Nj; rewrite (other_qu j Hj Nj); ring). rewrite Sij_eq. unfold w, Rdiv. ring.
    Qed.
    Lemma qq3_single k J : (k * Sum i < N X, Sum j < N X, Sum l < N X, rho i * rho j * rho l * Wi X t 5 i * Wi X t 5 j * Wi X t 5 l / (Sij X i j * Sij X i l * Sij X j l) ^ 3 * Qu2 X i * Qu2 X j * Qu2 X l * J i j l) = k * (rho a * rho a * rho a * w * w * w * J a a a * / (Sg X a ^ 3) ^ 3).
    Proof.
      change (N X) with n. rewrite (Sum_single n a) by (auto; intros i Hi Ni; apply rsum_zero; intros j _; apply rsum_zero; intros l _; rewrite (other_qu i Hi Ni); ring). rewrite (Sum_single n a) by (auto; intros j Hj Nj; apply rsum_zero; intros l _; rewrite (other_qu j Hj Nj); ring). rewrite (Sum_single n a) by (auto; intros j Hj Nj; rewrite (other_qu j Hj Nj); ring). rewrite Sij_eq. unfold w, Rdiv.
      replace (Sg X a * Sg X a * Sg X a) with (Sg X a ^ 3) by ring. ring.
    Qed.
    Let is7_er : er1 20 (/ @npowi B (@ix2 B (p_sigma_ij p) a a) 7) (/ Sg X a ^ 7) (/ Sg X a ^ 7).
    Proof.
      apply rp_er1; [left; apply Rinv_0_lt_compat, pow_lt, pa | apply rp_inv]. pose proof sg_rp as G. set (x := @ix2 B _ a a) in *. set (s := Sg X a) in *. cbn [npowi BNum]. change (bpowi x 7) with (rnd (x * rnd (x * rnd (x * rnd (x * rnd (x * rnd (x * x))))))). replace (s ^ 7) with (s * (s * (s * (s * (s * (s * s)))))) by ring.
      apply (rp_rnd 19), (rp_mul 2 17); auto. apply (rp_rnd 16), (rp_mul 2 14); auto. apply (rp_rnd 13), (rp_mul 2 11); auto. apply (rp_rnd 10), (rp_mul 2 8); auto. apply (rp_rnd 7), (rp_mul 2 5); auto. apply (rp_rnd 4), (rp_mul 2 2); auto.
    Qed.
    Let is9_er : er1 26 (/ @npowi B (@npowi B (@ix2 B (p_sigma_ij p) a a) 3) 3) (/ (Sg X a ^ 3) ^ 3) (/ (Sg X a ^ 3) ^ 3).
    Proof.
      apply rp_er1; [left; apply Rinv_0_lt_compat, pow_lt, pow_lt, pa | apply rp_inv]. pose proof s3_rp as G. set (x := @npowi B (@ix2 B _ a a) 3) in *. set (s := Sg X a ^ 3) in *. cbn [npowi BNum]. change (bpowi x 3) with (rnd (x * rnd (x * x))). replace (s ^ 3) with (s * (s * s)) by ring.
      apply (rp_rnd 25), (rp_mul 8 17); auto. apply (rp_rnd 16), (rp_mul 8 8); auto.
    Qed.
    Let lit_er : er1 1 (@nlit B 0.5625) (9 / 16) (9 / 16).
    Proof. cbn [nlit BNum]. replace (Rlit 0.5625) with (9 / 16) by (unfold Rlit; cbn; lra). apply er1_rnd, er1_c. lra. Qed.
    Lemma qphi2_er : er1 (4 * (27 + n) + 99) (@quad_phi2 B p t (s_rho st) E) (qq2 X t rho) (qq2_scale X t rho).
    Proof.
      pose proof (pair_er L eta E m m e _ (27 + n) 0 eta_pos E_rp Pm (rp_refl m) e_pos e_rp AQ BQ ltac:(cbn; lia)) as J. replace (4 * (27 + n) + 4 * 0 + 25)%nat with (4 * (27 + n) + 25)%nat in J by lia. pose proof qu_rp as Rm. pose proof is7_er as Ri. pose proof lit_er as Rl.
      unfold qq2, qq2_scale. rewrite !qq2_single. unfold J2, J2_scale. rewrite m2_eq. fold eta. fold e.
      unfold quad_phi2. cbv zeta. change (p_nquadpole p) with (length (p_quadpole_comp p)). rewrite Hd. cbn [length]. unfold tri2. cbn [seq flat_map map above Nat.sub app ixn nth]. rewrite mcap_eq. unfold nsubs. cbn [fold_left].
      set (mu := @nmul B (@nmul B _ (@ix B (p_epsilon_k p) a)) _) in *. set (j := @pair_integral_ij B _ _ _ _ _ _) in *. set (s7 := @npowi B _ 7) in *. set (J0 := rsum _ _) in *. set (J1 := rsum (seq 0 (length AQ)) (fun l => (cm_scale _ _ _ + _) * _)) in *. pose proof r_rp as Rr. set (r := @ix B (s_rho st) a) in *. set (li := @nlit B 0.5625) in *. clearbody mu j s7 J0 J1 r li. rewrite (lit0 L). cbn [nsub nmul ndiv npi BNum].
      rewrite al3, al4.
      replace (4 * (27 + n) + 99)%nat with (Datatypes.S (Datatypes.S (Datatypes.S (Datatypes.S (47 + (4 * (27 + n) + 25)) + 20)) + 3)) by lia. apply er1_rnd, er1_mul; [ | apply er1_rnd; apply (er1_mul 1 _ _ _ 1); [exact pi_er | exact Rl]]. apply er1_rnd, er1_sub; [apply er1_k with 0%nat; [lia | apply er1_c; lra] | ]. unfold Rdiv. apply er1_rnd, er1_mul; [ | exact Ri]. apply er1_rnd, er1_mul; [ | exact J].
      pose proof wq_pos. destruct pa as (_ & _ & _ & ?). apply rp_er1; [apply nn2; auto | ]. apply (rp_rnd 46), (rp_mul 25 21); [ | exact Rm]. apply (rp_rnd 24), (rp_mul 3 21); [ | exact Rm]. apply (rp_rnd 2), (rp_mul 1 1); exact Rr.
    Qed.
    Lemma qphi3_er : er1 (4 * (27 + n) + 123) (@quad_phi3 B p t (s_rho st) E) (qq3 X t rho) (qq3_scale X t rho).
    Proof.
      pose proof (triplet_er L eta E m m (27 + n) 0 eta_pos E_rp Pm (rp_refl m) CQ ltac:(cbn; lia)) as J. replace (4 * (27 + n) + 4 * 0 + 17)%nat with (4 * (27 + n) + 17)%nat in J by lia. pose proof qu_rp as Rm. pose proof is9_er as Ri. pose proof PI_RGT_0 as PP. pose proof lit_er as Rl.
      unfold qq3, qq3_scale. rewrite !qq3_single. unfold J3, J3_scale. rewrite m3_eq. fold eta.
      unfold quad_phi3. cbv zeta. change (p_nquadpole p) with (length (p_quadpole_comp p)). rewrite Hd. cbn [length]. unfold tri3. cbn [seq flat_map map above Nat.sub app ixn nth]. rewrite mcap_eq. unfold nsum. cbn [fold_left].
      set (mu := @nmul B (@nmul B _ (@ix B (p_epsilon_k p) a)) _) in *. set (j := @triplet_integral_ijk B _ _ _ _) in *. set (s9 := @npowi B (@npowi B _ 3) 3) in *. set (J0 := rsum _ _) in *. set (J1 := rsum (seq 0 (length CQ)) (fun l => cm_scale _ _ _ * _)) in *. pose proof r_rp as Rr. set (r := @ix B (s_rho st) a) in *. set (li := @nlit B 0.5625) in *. clearbody mu j s9 J0 J1 r li. rewrite (lit0 L). cbn [nadd nmul ndiv npi BNum].
      rewrite !al5.
      replace (4 * (27 + n) + 123)%nat with (Datatypes.S (Datatypes.S (Datatypes.S (Datatypes.S (71 + (4 * (27 + n) + 17)) + 26)) + 5)) by lia. apply er1_rnd, er1_mul.
      2: { apply er1_rnd. apply (er1_mul 3 _ _ _ 1); [apply er1_rnd; apply (er1_mul 1 _ _ _ 1); exact pi_er | exact Rl]. }
      apply er1_rnd, er1_add; [apply er1_k with 0%nat; [lia | apply er1_c; lra] | ]. unfold Rdiv. apply er1_rnd, er1_mul; [ | exact Ri]. apply er1_rnd, er1_mul; [ | exact J].
      pose proof wq_pos. destruct pa as (_ & _ & _ & ?). apply rp_er1; [apply nn3; auto | ]. apply (rp_rnd 70), (rp_mul 49 21); [ | exact Rm]. apply (rp_rnd 48), (rp_mul 27 21); [ | exact Rm]. apply (rp_rnd 26), (rp_mul 5 21); [ | exact Rm]. apply (rp_rnd 4), (rp_mul 3 1); [ | exact Rr]. apply (rp_rnd 2), (rp_mul 1 1); exact Rr.
    Qed.
  End Quad.
End Pol.

(** [K] roundings in both orders of the expansion, cancellation factor [c] *)
Lemma pade_final L K c x2 x3 y2 y3 s2 s3 v : 0 < v -> er1 K x2 y2 s2 -> er1 K x3 y3 s3 -> y2 <> y3 -> s2 + s3 <= INR c * Rabs (y2 - y3) ->
  (2 * INR K + 5 + INR c * (INR K + 1)) ^ 2 <= 2 ^ 51 ->
  Rabs (@pade (BNum L) x2 x3 v - v * pade2 y2 y3) <= (2 * INR K + 5 + INR c * (INR K + 1)) / 2 ^ 53 * (v * (s2 ^ 2 / Rabs (y2 - y3))).
Proof.
  intros Pv E2 E3 Ne Hc Hn. set (KK := (2 * K + 4 + c * (K + 1))%nat).
  assert (E1 : INR (c * (K + 1)) = INR c * (INR K + 1)) by (rewrite mult_INR, plus_INR; cbn [INR]; ring).
  assert (EKK : INR KK + 1 = 2 * INR K + 5 + INR c * (INR K + 1)) by (unfold KK; rewrite plus_INR, E1, plus_INR, mult_INR; replace (INR 2) with 2 by (cbn; lra); replace (INR 4) with 4 by (cbn; lra); ring).
  pose proof (pos_INR KK) as P0. assert (Hk : INR KK * INR KK <= 2 ^ 51). { eapply Rle_trans; [ | exact Hn]. rewrite <- EKK. assert (INR KK * INR KK <= (INR KK + 1) * (INR KK + 1)) by (apply Rmult_le_compat; lra). lra. }
  rewrite <- EKK. apply er1_final; [unfold KK; lia | exact Hk | ]. apply pade_er with s3; auto.
  assert (Eu : u = / 2 ^ 53) by reflexivity. rewrite Eu. pose proof (pos_INR (c * (K + 1))) as P1. assert (LK : INR (c * (K + 1)) <= INR KK) by (apply le_INR; unfold KK; lia). assert (INR (c * (K + 1)) * INR (c * (K + 1)) <= INR KK * INR KK) by (apply Rmult_le_compat; lra). lra.
Qed.
(** number of roundings along the longest path: [n] components, one of them polar, cancellation factor [c] *)
Definition polar_roundings (n c : nat) : R := 8 * INR n + 467 + INR c * (4 * INR n + 232).
Lemma polar_final L (prs : list (pure_record (BNum L))) v c x2 x3 y2 y3 s2 s3 : let n := length prs in 0 < v ->
  er1 (4 * (27 + n) + 123) x2 y2 s2 -> er1 (4 * (27 + n) + 123) x3 y3 s3 -> y2 <> y3 -> s2 + s3 <= INR c * Rabs (y2 - y3) -> polar_roundings n c ^ 2 <= 2 ^ 51 ->
  Rabs (@pade (BNum L) x2 x3 v - v * pade2 y2 y3) <= polar_roundings n c / 2 ^ 53 * (v * (s2 ^ 2 / Rabs (y2 - y3))).
Proof.
  intros n Pv E2 E3 Ne Hc Hn. set (K := (4 * (27 + n) + 123)%nat) in *.
  assert (EK : INR K = 4 * INR n + 231) by (unfold K; rewrite plus_INR, mult_INR, plus_INR; replace (INR 4) with 4 by (cbn; lra); replace (INR 27) with 27 by (cbn; lra); replace (INR 123) with 123 by (rewrite INR_IZR_INZ; reflexivity); ring).
  replace (polar_roundings n c) with (2 * INR K + 5 + INR c * (INR K + 1)) in * by (unfold polar_roundings; rewrite EK; ring). apply pade_final with s3; auto.
Qed.

(** The dipole contribution of a mixture with one dipolar component, computed with f64, deviates from the
    published one by at most 8 n + 467 + c (4 n + 232) units of roundoff of the size of the Pade approximant
    without cancellation, where the terms of both orders together are at most c times their difference;
    this includes the rounding of the reduced dipole moment. *)
Theorem C52_dipole L (prs : list (pure_record (BNum L))) bin t v moles a c : let p := @from_records_raw (BNum L) prs bin in let X := polar_fluid p in
  libm_ok L -> sphere_state p t v moles -> p_dipole_comp p = [a] -> 0 < Ep X a ->
  let rho := fun i => nth i moles 0 / v in let y2 := dd2 X t rho in let y3 := dd3 X t rho in let s2 := dd2_scale X t rho in
  y2 <> y3 -> s2 + dd3_scale X t rho <= INR c * Rabs (y2 - y3) -> polar_roundings (length prs) c ^ 2 <= 2 ^ 51 ->
  Rabs (@a_dipole (BNum L) p (@state_new (BNum L) t v moles) - v * f_dd X t rho) <= polar_roundings (length prs) c / 2 ^ 53 * (v * (s2 ^ 2 / Rabs (y2 - y3))).
Proof.
  intros p X HL S Hd _ rho y2 y3 s2 Ne Hc Hn. assert (Ha : (a < length (p_m p))%nat).
  { assert (I : In a (p_dipole_comp p)) by (rewrite Hd; left; auto). change (p_dipole_comp p) with (nonzero_comp (p_mu2 p)) in I. apply nonzero_comp_in in I as [I _]. unfold p in I at 1. cbn [from_records_raw p_mu2] in I. unfold mk1 in I. rewrite map_length, seq_length in I. rewrite (n_prs L prs bin) in I. exact I. }
  pose proof (n_prs L prs bin) as En. fold p in En. apply (polar_final L prs v c _ _ y2 y3 s2 (dd3_scale X t rho)); auto; [exact (ss_v _ _ _ _ S) | | ]; rewrite En.
  - eapply er1_k; [ | exact (phi2_er L HL prs bin t v moles S a Ha Hd)]. fold p. lia.
  - eapply er1_k; [ | exact (phi3_er L HL prs bin t v moles S a Ha Hd)]. fold p. lia.
Qed.
(** the same for the quadrupole contribution *)
Theorem C52_quadrupole L (prs : list (pure_record (BNum L))) bin t v moles a c : let p := @from_records_raw (BNum L) prs bin in let X := polar_fluid p in
  libm_ok L -> sphere_state p t v moles -> p_quadpole_comp p = [a] -> 0 < Ep X a ->
  let rho := fun i => nth i moles 0 / v in let y2 := qq2 X t rho in let y3 := qq3 X t rho in let s2 := qq2_scale X t rho in
  y2 <> y3 -> s2 + qq3_scale X t rho <= INR c * Rabs (y2 - y3) -> polar_roundings (length prs) c ^ 2 <= 2 ^ 51 ->
  Rabs (@a_quadrupole (BNum L) p (@state_new (BNum L) t v moles) - v * f_qq X t rho) <= polar_roundings (length prs) c / 2 ^ 53 * (v * (s2 ^ 2 / Rabs (y2 - y3))).
Proof.
  intros p X HL S Hd _ rho y2 y3 s2 Ne Hc Hn. assert (Ha : (a < length (p_m p))%nat).
  { assert (I : In a (p_quadpole_comp p)) by (rewrite Hd; left; auto). change (p_quadpole_comp p) with (nonzero_comp (p_q2 p)) in I. apply nonzero_comp_in in I as [I _]. unfold p in I at 1. cbn [from_records_raw p_q2] in I. unfold mk1 in I. rewrite map_length, seq_length in I. rewrite (n_prs L prs bin) in I. exact I. }
  pose proof (n_prs L prs bin) as En. fold p in En. apply (polar_final L prs v c _ _ y2 y3 s2 (qq3_scale X t rho)); auto; [exact (ss_v _ _ _ _ S) | | ]; rewrite En.
  - eapply er1_k; [ | exact (qphi2_er L HL prs bin t v moles S a Ha Hd)]. fold p. lia.
  - eapply er1_k; [ | exact (qphi3_er L HL prs bin t v moles S a Ha Hd)]. fold p. lia.
Qed.

(** a dipolar and quadrupolar sphere at 300 K with a packing fraction of about 0.2: at least six digits are correct *)
Definition b_polar L : pure_record (BNum L) :=
  @mkPure (BNum L) (mkIdent None None None None None None) 16 (@mkRec (BNum L) 1 3.5 150 (Some 1) (Some 2) None None None None None None None) None.
Example C52_polar_case : let L := exact_libm in let p := @from_records_raw (BNum L) [b_polar L] [[0]] in let st := @state_new (BNum L) 300 1000 [10] in
  let X := polar_fluid p in let rho := fun i => nth i [10] 0 / 1000 in
  sphere_state p 300 1000 [10] /\ p_dipole_comp p = [0%nat] /\ p_quadpole_comp p = [0%nat] /\
  Rabs (@a_dipole (BNum L) p st - 1000 * f_dd X 300 rho) <= / 10 ^ 6 * Rabs (1000 * f_dd X 300 rho) /\
  Rabs (@a_quadrupole (BNum L) p st - 1000 * f_qq X 300 rho) <= / 10 ^ 6 * Rabs (1000 * f_qq X 300 rho).
Proof.
  intros L p st X rho. assert (S : sphere_state p 300 1000 [10]).
  { constructor; try lra; try (cbn; auto; fail).
    - intros i Hi. cbn in Hi. destruct i as [ | i]; [ | lia]. cbn. lra.
    - exists 0%nat. cbn. split; [lia | lra]. }
  assert (Em : M X 0 = 1) by reflexivity. assert (Es : Sg X 0 = 3.5) by reflexivity. assert (Ee : Ep X 0 = 150) by reflexivity.
  set (k := Rlit 1e-19 / Rlit 1.380649e-23). assert (Hk : 7242 <= k <= 7243) by (unfold k; change (Rlit 1e-19) with (1 / 10000000000000000000); change (Rlit 1.380649e-23) with (1380649 / 100000000000000000000000000000); split; interval).
  assert (Emu : Mu2 X 0 = 1 / 6431.25 * k). { change (Mu2 X 0) with (1 ^ 2 / (1 * 3.5 ^ 3 * 150) * k). f_equal. lra. }
  assert (Equ : Qu2 X 0 = 4 / 78782.8125 * k). { change (Qu2 X 0) with (2 ^ 2 / (1 * 3.5 ^ 5 * 150) * k). f_equal. lra. }
  assert (NZ : forall j x y, 0 < y -> rp j x y -> @nonzero (BNum L) x = true).
  { intros j x y Py R. destruct (@nonzero (BNum L) x) eqn:Z; auto. pose proof (zero_rp L j x y R Z). lra. }
  clearbody k.
  assert (Dd : p_dipole_comp p = [0%nat]).
  { change (p_dipole_comp p) with (filter (fun i => @nonzero (BNum L) (@ix (BNum L) (p_mu2 p) i)) [0%nat]). cbn [filter]. rewrite (NZ 11%nat _ (Mu2 X 0)); auto; [rewrite Emu; lra | ]. exact (mu2_rp L [b_polar L] [[0]] 0%nat (Nat.lt_0_succ 0) 0%nat (Nat.lt_0_succ 0)). }
  assert (Dq : p_quadpole_comp p = [0%nat]).
  { change (p_quadpole_comp p) with (filter (fun i => @nonzero (BNum L) (@ix (BNum L) (p_q2 p) i)) [0%nat]). cbn [filter]. rewrite (NZ 13%nat _ (Qu2 X 0)); auto; [rewrite Equ; lra | ]. exact (q2_rp L [b_polar L] [[0]] 0%nat (Nat.lt_0_succ 0) 0%nat (Nat.lt_0_succ 0)). }
  split; [exact S | split; [exact Dd | split; [exact Dq | ]]].
  assert (ER : 0.15 <= Eta X 300 rho <= 0.25).
  { unfold Eta, Zeta, Di. change (N X) with 1%nat. cbn [seq rsum]. rewrite Em, Es, Ee. unfold rho. cbn [nth]. split; interval. }
  assert (R0 : rho 0%nat = 0.01) by (unfold rho; cbn [nth]; lra).
  assert (E2 : m2 X 0 0 = 1) by (unfold m2, mp; rewrite Em, Rmin_left by lra; apply sqrt_square; lra).
  assert (E3 : m3 X 0 0 0 = 1) by (unfold m3, mp; rewrite Em, Rmin_left by lra; apply Rcbrt_of_cube; lra).
  assert (EE : Eij0 X 0 0 / 300 = 0.5) by (unfold Eij0; rewrite Ee, sqrt_square; lra).
  assert (ES : Sij X 0 0 = 3.5) by (unfold Sij; rewrite Es; lra).
  assert (J2b : forall a b, J2 X 300 rho a b 0 0 = Sum l < length a, (cm a l 1 + cm b l 1 * 0.5) * Eta X 300 rho ^ l) by (intros; unfold J2; rewrite E2, EE; reflexivity).
  assert (J2s : forall a b, J2_scale X 300 rho a b 0 0 = Sum l < length a, (cm_scale a l 1 + cm_scale b l 1 * 0.5) * Eta X 300 rho ^ l) by (intros; unfold J2_scale; rewrite E2, EE; reflexivity).
  assert (J3b : forall c, J3 X 300 rho c 0 0 0 = Sum l < length c, cm c l 1 * Eta X 300 rho ^ l) by (intros; unfold J3; rewrite E3; reflexivity).
  assert (J3s : forall c, J3_scale X 300 rho c 0 0 0 = Sum l < length c, cm_scale c l 1 * Eta X 300 rho ^ l) by (intros; unfold J3_scale; rewrite E3; reflexivity).
  set (e := Eta X 300 rho) in *.
  assert (Gen : forall y2 y3 s2 s3 x, y2 - y3 < 0 -> 0 <= s2 -> s2 + s3 <= 400 * - (y2 - y3) -> s2 <= 200 * - y2 -> 
     (y2 <> y3 -> s2 + s3 <= INR 400 * Rabs (y2 - y3) -> polar_roundings 1 400 ^ 2 <= 2 ^ 51 -> Rabs (x - 1000 * pade2 y2 y3) <= polar_roundings 1 400 / 2 ^ 53 * (1000 * (s2 ^ 2 / Rabs (y2 - y3)))) ->
     Rabs (x - 1000 * pade2 y2 y3) <= / 10 ^ 6 * Rabs (1000 * pade2 y2 y3)).
  { intros y2 y3 s2 s3 x Hy Hs Hc H2 Hb. assert (I4 : INR 400 = 400) by (rewrite INR_IZR_INZ; reflexivity). rewrite (Rabs_left (y2 - y3)) in Hb by lra. unfold polar_roundings in Hb. rewrite I4 in Hb. cbn [INR] in Hb. specialize (Hb ltac:(lra) Hc ltac:(lra)).
    eapply Rle_trans; [exact Hb | ]. unfold pade2. replace (Rabs (1000 * (y2 ^ 2 / (y2 - y3)))) with (1000 * (y2 ^ 2 * / - (y2 - y3))).
    2: { symmetry. replace (1000 * (y2 ^ 2 / (y2 - y3))) with (- (1000 * (y2 ^ 2 * / - (y2 - y3)))) by (field; lra). rewrite Rabs_Ropp. apply Rabs_right, Rle_ge. apply Rmult_le_pos; [lra | ]. apply Rmult_le_pos; [apply pow2_ge_0 | left; apply Rinv_0_lt_compat; lra]. }
    unfold Rdiv at 2. set (i := / - (y2 - y3)). assert (Pi : 0 <= i) by (left; apply Rinv_0_lt_compat; lra). clearbody i.
    assert (Q : s2 ^ 2 <= 40000 * y2 ^ 2). { replace (40000 * y2 ^ 2) with ((200 * - y2) ^ 2) by ring. apply pow_incr. lra. }
    assert (Q2 : s2 ^ 2 * i <= 40000 * y2 ^ 2 * i) by (apply Rmult_le_compat_r; auto). assert (0 <= y2 ^ 2 * i) by (apply Rmult_le_pos; [apply pow2_ge_0 | auto]).
    set (z := y2 ^ 2 * i) in *. replace (40000 * y2 ^ 2 * i) with (40000 * z) in Q2 by (unfold z; ring). clearbody z. set (z2 := s2 ^ 2 * i) in *. clearbody z2. lra. }
  split.
  - apply (Gen (dd2 X 300 rho) (dd3 X 300 rho) (dd2_scale X 300 rho) (dd3_scale X 300 rho)); [ | | | | intros Q1 Q2 Q3; exact (C52_dipole L [b_polar L] [[0]] 300 1000 [10] 0 400 exact_libm_ok S Dd ltac:(change (0 < 150); lra) Q1 Q2 Q3)].
    all: clear Gen NZ Dd Dq S; unfold dd2, dd3, dd2_scale, dd3_scale, Wi; change (N X) with 1%nat; cbn [seq rsum]; rewrite ?J2b, ?J2s, ?J3b, ?J3s, ?ES, Emu, Ee, Es, R0; cbn [length AD BD CD seq rsum]; unfold cm, cm_scale, q1, q12, lit2, Rlit; cbn [nth AD BD CD Qnum Qden].
    + interval.
    + interval.
    + apply Rminus_le. interval with (i_bisect e, i_bisect k).
    + apply Rminus_le. interval with (i_bisect e, i_bisect k).
  - apply (Gen (qq2 X 300 rho) (qq3 X 300 rho) (qq2_scale X 300 rho) (qq3_scale X 300 rho)); [ | | | | intros Q1 Q2 Q3; exact (C52_quadrupole L [b_polar L] [[0]] 300 1000 [10] 0 400 exact_libm_ok S Dq ltac:(change (0 < 150); lra) Q1 Q2 Q3)].
    all: clear Gen NZ Dd Dq S; unfold qq2, qq3, qq2_scale, qq3_scale, Wi; change (N X) with 1%nat; cbn [seq rsum]; rewrite ?J2b, ?J2s, ?J3b, ?J3s, ?ES, Equ, Ee, Es, R0; cbn [length AQ BQ CQ seq rsum]; unfold cm, cm_scale, q1, q12, lit2, Rlit; cbn [nth AQ BQ CQ Qnum Qden].
    + interval.
    + interval.
    + apply Rminus_le. interval with (i_bisect e, i_bisect k).
    + apply Rminus_le. interval with (i_bisect e, i_bisect k).
Qed.
Print Assumptions C52_dipole.
Print Assumptions C52_quadrupole.
