(** C52: rounding of the dispersion contribution. *)
From Coq Require Import ZArith QArith Reals Lra Lia List Bool.
From Flocq Require Import Core Relative.
From Interval Require Import Tactic.
From Verif Require Import Num RNum RSum Tables M_Params M_Eos Spec P_Basic BNum F_Round F_Round2 F_Round3 P_RoundD P_RoundH.
Import ListNotations.
Local Open Scope R_scope.
Set Bullet Behavior "Strict Subproofs".
Notation length := List.length.

Lemma litZ L z : (Z.abs z < 2 ^ 53)%Z -> @nlit (BNum L) (z # 1) = IZR z.
Proof. intros H. cbn [nlit BNum]. replace (Rlit (z # 1)) with (IZR z) by (unfold Rlit; cbn; lra). apply rnd_id, f64_int, H. Qed.

(** magnitude of the power series: all signs positive *)
Definition series_scale (m eta : R) (c0 c1 c2 : list Q) : R :=
  Sum i < 7, (Rabs (lit c0 i) + (m + 1) / m * Rabs (lit c1 i) + (m + 1) / m * ((m + 2) / m) * Rabs (lit c2 i)) * eta ^ i.

(** cancellation in the inverse compressibility: at most a factor 21 *)
Lemma compressibility_scale m eta : 0 < m -> 0 <= eta < 1 ->
  1 + m * (8 * eta + 2 * eta ^ 2) / (1 - eta) ^ 4 + (1 + m) * (20 * eta + 27 * eta ^ 2 + 12 * eta ^ 3 + 2 * eta ^ 4) / ((1 - eta) * (2 - eta)) ^ 2 <= 21 * inv_compressibility m eta.
Proof.
  intros Hm He. unfold inv_compressibility. set (f := 1 - eta). set (g := 2 - eta). assert (Pf : 0 < f) by (unfold f; lra). assert (Pg : 0 < g) by (unfold g; lra).
  assert (Pk : forall j k, 0 <= eta ^ j * f ^ k) by (intros; apply Rmult_le_pos; apply pow_le; lra). 
  assert (I1 : 0 <= 21 * ((f * g) ^ 2 + (20 * eta - 27 * eta ^ 2 + 12 * eta ^ 3 - 2 * eta ^ 4)) - ((f * g) ^ 2 + (20 * eta + 27 * eta ^ 2 + 12 * eta ^ 3 + 2 * eta ^ 4))).
  { replace (21 * _ - _) with (80 * (eta ^ 0 * f ^ 4) + 480 * (eta ^ 1 * f ^ 3) + 626 * (eta ^ 2 * f ^ 2) + 252 * (eta ^ 3 * f ^ 1) + 2 * (eta ^ 4 * f ^ 0)) by (unfold f, g; ring).
    pose proof (Pk 0%nat 4%nat). pose proof (Pk 1%nat 3%nat). pose proof (Pk 2%nat 2%nat). pose proof (Pk 3%nat 1%nat). pose proof (Pk 4%nat 0%nat). lra. }
  assert (I2 : 0 <= 21 * ((8 - 2 * eta) * g ^ 2 - (20 - 27 * eta + 12 * eta ^ 2 - 2 * eta ^ 3) * f ^ 2) - ((8 + 2 * eta) * g ^ 2 + (20 + 27 * eta + 12 * eta ^ 2 + 2 * eta ^ 3) * f ^ 2)).
  { replace (21 * _ - _) with (200 * (eta ^ 0 * f ^ 5) + 1604 * (eta ^ 1 * f ^ 4) + 2968 * (eta ^ 2 * f ^ 3) + 2344 * (eta ^ 3 * f ^ 2) + 856 * (eta ^ 4 * f ^ 1) + 116 * (eta ^ 5 * f ^ 0)) by (unfold f, g; ring).
    pose proof (Pk 0%nat 5%nat). pose proof (Pk 1%nat 4%nat). pose proof (Pk 2%nat 3%nat). pose proof (Pk 3%nat 2%nat). pose proof (Pk 4%nat 1%nat). pose proof (Pk 5%nat 0%nat). lra. }
  set (P1 := 21 * ((f * g) ^ 2 + _) - _) in I1. set (P2 := 21 * ((8 - 2 * eta) * g ^ 2 - _) - _) in I2.
  assert (D1 : 0 <= P1 / (f * g) ^ 2) by (apply Rmult_le_pos; [auto | left; apply Rinv_0_lt_compat, pow_lt, Rmult_lt_0_compat; auto]).
  assert (D2 : 0 <= m * eta * (P2 / (f ^ 4 * g ^ 2))).
  { apply Rmult_le_pos; [apply Rmult_le_pos; lra | ]. apply Rmult_le_pos; [auto | left; apply Rinv_0_lt_compat, Rmult_lt_0_compat; apply pow_lt; auto]. }
  apply Rminus_le. match goal with |- ?x <= 0 => replace x with (- (P1 / (f * g) ^ 2 + m * eta * (P2 / (f ^ 4 * g ^ 2)))) end; [lra | ]. unfold P1, P2. clearbody f g. field. lra.
Qed.

Section Core.
  Variable L : libm.
  Variables eta m E Mm : R. Variables ke km : nat.
  Hypotheses (He : 0 <= eta < 1) (Hm : 0 < m).
  Let a := / (1 - eta).
  Hypothesis au : a * u <= / 2.
  Hypotheses (AE : rp ke E eta) (AM : rp km Mm m).
  Lemma a_1 : 1 <= a. Proof. unfold a. rewrite <- Rinv_1 at 1. apply Rinv_le_contravar; lra. Qed.
  Let a1 := a_1.
  Let ER := er a.
  Lemma e_c c : 0 <= c -> ER 0 c c c. Proof. intros H. unfold ER. eapply er_eq; [ | apply er_refl]. rewrite Rabs_right; lra. Qed.
  Lemma e_eta : ER ke E eta eta. Proof. eapply er_eq; [ | apply rp_er; eauto]. rewrite Rabs_right; lra. Qed.
  Lemma e_m : ER km Mm m m. Proof. eapply er_eq; [ | apply rp_er; eauto]. rewrite Rabs_right; lra. Qed.
  Lemma e_im : ER km (/ Mm) (/ m) (/ m). Proof. eapply er_eq; [ | apply rp_er; [auto | auto | apply rp_inv; eauto]]. rewrite Rabs_right; auto. apply Rle_ge, Rlt_le, Rinv_0_lt_compat, Hm. Qed.
  Lemma e_gap c : (1 <= c <= 2) -> ER (S ke) (rnd (E - c)) (- (c - eta)) (c - eta).
  Proof.
    intros Hc. apply er_rnd; auto. replace (E - c) with (- (c - E)) by ring. apply er_opp. apply er_gap; auto; [lra | ]. assert (1 - eta <= c - eta) by lra. apply Rle_trans with (a * (1 - eta)); [unfold a; rewrite Rinv_l; lra | ]. apply Rmult_le_compat_l; lra.
  Qed.
  Ltac er_mulr := apply er_rnd; try exact a1; try exact au; apply er_mul; try exact a1; try exact au.
  Ltac up t := eapply er_weaken; try exact a1; try exact au; [ | | t]; [lia | lra].
  Lemma er_k k k' x y M : (k <= k')%nat -> er a k x y M -> er a k' x y M.
  Proof. intros H. eapply er_weaken; try exact a1; try exact au; [auto | lra]. Qed.
  Ltac upk t := eapply er_k; [ | t]; lia.
  (** the power series *)
  Lemma e_pow i : ER (i * (ke + 1)) (@run_pow (BNum L) E i) (eta ^ i) (eta ^ i).
  Proof.
    induction i as [ | i IH].
    - cbn [run_pow pow Nat.mul]. unfold n1. rewrite (litZ L 1) by (cbn; lia). apply e_c. lra.
    - cbn [run_pow]. replace (eta ^ S i) with (eta ^ i * eta) by (cbn; ring). replace (S i * (ke + 1))%nat with (S (i * (ke + 1) + ke)) by lia. cbn [nmul BNum]. apply er_rnd; auto. apply er_mul; auto. apply e_eta.
  Qed.
  Lemma e_cst c i : ER 1 (@cst (BNum L) c i) (lit c i) (Rabs (lit c i)).
  Proof. unfold cst, lit. cbn [nlit BNum]. apply er_rnd; auto. apply er_refl. Qed.
  Lemma e_mm c : 0 <= c -> ER (2 * km + 2) (rnd (rnd (Mm - c) / Mm)) ((m - c) / m) ((m + c) / m).
  Proof.
    intros Hc. unfold Rdiv. replace (2 * km + 2)%nat with (S (S km + km)) by lia. er_mulr; [ | apply e_im]. apply er_rnd; auto. apply er_sub; [apply e_m | ]. up ltac:(apply e_c, Hc).
  Qed.
  Lemma e_series c0 c1 c2 : ER (4 * km + 6 * ke + 23) (@disp_series (BNum L) c0 c1 c2 Mm E)
    (Sum i < 7, (lit c0 i + (m - 1) / m * lit c1 i + (m - 1) / m * ((m - 2) / m) * lit c2 i) * eta ^ i) (series_scale m eta c0 c1 c2).
  Proof.
    unfold disp_series, series_scale. replace (4 * km + 6 * ke + 23)%nat with ((4 * km + 6 * ke + 16) + 7)%nat by lia. rewrite (litZ L 1), (litZ L 2) by (cbn; lia). apply nsumi_er; auto. intros i Hi.
    cbn [nmul nadd nsub ndiv BNum]. replace (4 * km + 6 * ke + 16)%nat with (S ((4 * km + 9) + 6 * (ke + 1)))%nat by lia. apply er_rnd; auto.
    replace (lit c0 i + (m - 1) / m * lit c1 i + (m - 1) / m * ((m - 2) / m) * lit c2 i) with ((m - 1) / m * ((m - 2) / m * lit c2 i + lit c1 i) + lit c0 i) by ring.
    replace (Rabs (lit c0 i) + (m + 1) / m * Rabs (lit c1 i) + (m + 1) / m * ((m + 2) / m) * Rabs (lit c2 i)) with ((m + 1) / m * ((m + 2) / m * Rabs (lit c2 i) + Rabs (lit c1 i)) + Rabs (lit c0 i)) by ring.
    apply er_mul; auto; [ | eapply er_weaken; try exact a1; try exact au; [ | | apply e_pow]; [ | lra]; apply Nat.mul_le_mono_r; lia].
    replace (4 * km + 9)%nat with (S (4 * km + 8)) by lia. apply er_rnd; auto. apply er_add; [ | up ltac:(apply e_cst)].
    replace (4 * km + 8)%nat with (S ((2 * km + 2) + (2 * km + 5))) by lia. er_mulr; [apply e_mm; lra | ].
    replace (2 * km + 5)%nat with (S (2 * km + 4)) by lia. apply er_rnd; auto. apply er_add; [ | up ltac:(apply e_cst)].
    replace (2 * km + 4)%nat with (S ((2 * km + 2) + 1)) by lia. er_mulr; [apply e_mm; lra | apply e_cst].
  Qed.
  (** the inverse compressibility *)
  Hypothesis Hk : 4 * (INR (21 * (8 * ke + km + 18)) * INR (21 * (8 * ke + km + 18))) * (a * u) <= 1.
  Lemma small_k k : (k <= 21 * (8 * ke + km + 18))%nat -> 4 * (INR k * INR k) * (a * u) <= 1.
  Proof.
    intros H. apply le_INR in H. pose proof (pos_INR k). eapply Rle_trans; [ | exact Hk]. apply Rmult_le_compat_r; [left; apply au0, a1 | ]. apply Rmult_le_compat_l; [lra | ]. apply Rmult_le_compat; auto.
  Qed.
  Lemma e_p2 : ER (2 * ke + 1) (@npowi (BNum L) E 2) (eta ^ 2) (eta ^ 2).
  Proof. cbn [npowi BNum bpowi]. replace (eta ^ 2) with (eta * eta) by ring. replace (2 * ke + 1)%nat with (S (ke + ke)) by lia. er_mulr; apply e_eta. Qed.
  Lemma e_p3 : ER (3 * ke + 2) (@npowi (BNum L) E 3) (eta ^ 3) (eta ^ 3).
  Proof. cbn [npowi BNum]. change (bpowi E 3) with (rnd (E * bpowi E 2)). replace (eta ^ 3) with (eta * eta ^ 2) by ring. replace (3 * ke + 2)%nat with (S (ke + (2 * ke + 1))) by lia. er_mulr; [apply e_eta | apply e_p2]. Qed.
  Lemma e_p4 : ER (4 * ke + 3) (@npowi (BNum L) E 4) (eta ^ 4) (eta ^ 4).
  Proof. cbn [npowi BNum]. change (bpowi E 4) with (rnd (E * bpowi E 3)). replace (eta ^ 4) with (eta * eta ^ 3) by ring. replace (4 * ke + 3)%nat with (S (ke + (3 * ke + 2))) by lia. er_mulr; [apply e_eta | apply e_p3]. Qed.
  Lemma e_den1 : ER (4 * ke + 8) (/ bpowi (rnd (E - 1)) 4) (/ (1 - eta) ^ 4) (/ (1 - eta) ^ 4).
  Proof.
    pose proof (e_gap 1 ltac:(lra)) as G. set (x := rnd (E - 1)) in *. clearbody x. assert (P : 0 < (1 - eta) ^ 4) by (apply pow_lt; lra).
    replace (/ (1 - eta) ^ 4) with (Rabs (/ (1 - eta) ^ 4)) at 2 by (apply Rabs_right, Rle_ge, Rlt_le, Rinv_0_lt_compat, P). replace (4 * ke + 8)%nat with (S (4 * ke + 7)) by lia. apply er_inv; auto; [lra | apply small_k; lia | ].
    rewrite (Rabs_right ((1 - eta) ^ 4)) by lra. replace (er a _ _ _ _) with (er a (4 * ke + 7) (bpowi x 4) (- (1 - eta) * (- (1 - eta) * (- (1 - eta) * - (1 - eta)))) ((1 - eta) * ((1 - eta) * ((1 - eta) * (1 - eta))))) by (f_equal; ring).
    change (bpowi x 4) with (rnd (x * rnd (x * rnd (x * x)))). replace (4 * ke + 7)%nat with (S (S ke + S (S ke + S (S ke + S ke)))) by lia. er_mulr; [exact G | ]. er_mulr; [exact G | ]. er_mulr; exact G.
  Qed.
  Lemma e_den2 : ER (4 * ke + 8) (/ bpowi (rnd (rnd (E - 1) * rnd (E - 2))) 2) (/ ((1 - eta) * (2 - eta)) ^ 2) (/ ((1 - eta) * (2 - eta)) ^ 2).
  Proof.
    pose proof (e_gap 1 ltac:(lra)) as G. pose proof (e_gap 2 ltac:(lra)) as G2. set (x := rnd (E - 1)) in *. set (y := rnd (E - 2)) in *. clearbody x y. assert (P : 0 < ((1 - eta) * (2 - eta)) ^ 2) by (apply pow_lt, Rmult_lt_0_compat; lra).
    replace (/ ((1 - eta) * (2 - eta)) ^ 2) with (Rabs (/ ((1 - eta) * (2 - eta)) ^ 2)) at 2 by (apply Rabs_right, Rle_ge, Rlt_le, Rinv_0_lt_compat, P). replace (4 * ke + 8)%nat with (S (4 * ke + 7)) by lia. apply er_inv; auto; [lra | apply small_k; lia | ].
    rewrite (Rabs_right (((1 - eta) * (2 - eta)) ^ 2)) by lra.
    replace (er a _ _ _ _) with (er a (4 * ke + 7) (bpowi (rnd (x * y)) 2) (- (1 - eta) * - (2 - eta) * (- (1 - eta) * - (2 - eta))) ((1 - eta) * (2 - eta) * ((1 - eta) * (2 - eta)))) by (f_equal; ring).
    cbn [bpowi]. replace (4 * ke + 7)%nat with (S (S (S ke + S ke) + S (S ke + S ke))) by lia. er_mulr; (er_mulr; [exact G | exact G2]).
  Qed.
  Lemma e_t1 : ER (6 * ke + km + 13) (rnd (rnd (Mm * rnd (rnd (E * 8) - rnd (@npowi (BNum L) E 2 * 2))) / bpowi (rnd (E - 1)) 4))
    (m * (8 * eta - 2 * eta ^ 2) / (1 - eta) ^ 4) (m * (8 * eta + 2 * eta ^ 2) / (1 - eta) ^ 4).
  Proof.
    unfold Rdiv. replace (6 * ke + km + 13)%nat with (S (S (km + S (S (2 * ke + 1))) + (4 * ke + 8)) + 0)%nat by lia. rewrite Nat.add_0_r. er_mulr; [ | apply e_den1]. er_mulr; [apply e_m | ]. apply er_rnd; auto.
    replace (8 * eta) with (eta * 8) by ring. replace (2 * eta ^ 2) with (eta ^ 2 * 2) by ring. apply er_sub.
    - up ltac:(er_mulr; [apply e_eta | apply (e_c 8); lra]).
    - up ltac:(er_mulr; [apply e_p2 | apply (e_c 2); lra]).
  Qed.
  Lemma e_t2 : ER (8 * ke + km + 16) (rnd (rnd (rnd (1 - Mm) * rnd (rnd (rnd (rnd (E * 20) - rnd (@npowi (BNum L) E 2 * 27)) + rnd (@npowi (BNum L) E 3 * 12)) - rnd (@npowi (BNum L) E 4 * 2))) / bpowi (rnd (rnd (E - 1) * rnd (E - 2))) 2))
    ((1 - m) * (20 * eta - 27 * eta ^ 2 + 12 * eta ^ 3 - 2 * eta ^ 4) / ((1 - eta) * (2 - eta)) ^ 2)
    ((1 + m) * (20 * eta + 27 * eta ^ 2 + 12 * eta ^ 3 + 2 * eta ^ 4) / ((1 - eta) * (2 - eta)) ^ 2).
  Proof.
    unfold Rdiv. replace (8 * ke + km + 16)%nat with (S (S (S km + S (4 * ke + 4)) + (4 * ke + 8)))%nat by lia. er_mulr; [ | apply e_den2]. er_mulr.
    { apply er_rnd; auto. apply er_sub; [up ltac:(apply (e_c 1); lra) | apply e_m]. }
    replace (20 * eta) with (eta * 20) by ring. replace (27 * eta ^ 2) with (eta ^ 2 * 27) by ring. replace (12 * eta ^ 3) with (eta ^ 3 * 12) by ring. replace (2 * eta ^ 4) with (eta ^ 4 * 2) by ring.
    apply er_rnd; auto. apply er_sub; [ | up ltac:(er_mulr; [apply e_p4 | apply (e_c 2); lra])].
    replace (4 * ke + 4)%nat with (S (4 * ke + 3)) by lia. apply er_rnd; try exact a1; try exact au. apply er_add; [ | upk ltac:(er_mulr; [apply e_p3 | apply (e_c 12); lra])].
    upk ltac:(apply (er_rnd a a1 au (2 * ke + 2)); apply er_sub; [upk ltac:(er_mulr; [apply e_eta | apply (e_c 20); lra]) | upk ltac:(er_mulr; [apply e_p2 | apply (e_c 27); lra])]).
  Qed.
  Lemma e_c1 : ER (21 * (8 * ke + km + 18) + 2) (@disp_c1 (BNum L) Mm E) (/ inv_compressibility m eta) (/ inv_compressibility m eta).
  Proof.
    pose proof (inv_compressibility_ge1 m eta Hm He) as T1. pose proof (compressibility_scale m eta Hm He) as T2. unfold disp_c1. rewrite (litZ L 8), (litZ L 2), (litZ L 1), (litZ L 20), (litZ L 27), (litZ L 12) by (cbn; lia).
    set (y := inv_compressibility m eta) in *. replace (/ y) with (Rabs (/ y)) at 2 by (apply Rabs_right, Rle_ge, Rlt_le, Rinv_0_lt_compat; lra).
    replace (21 * (8 * ke + km + 18) + 2)%nat with (S (S (21 * (8 * ke + km + 18)))) by lia. cbn [nrecip BNum]. apply er_rnd; auto. apply er_inv; auto; [lra | ].
    apply er_rel with (1 + m * (8 * eta + 2 * eta ^ 2) / (1 - eta) ^ 4 + (1 + m) * (20 * eta + 27 * eta ^ 2 + 12 * eta ^ 3 + 2 * eta ^ 4) / ((1 - eta) * (2 - eta)) ^ 2); auto.
    2: { rewrite (Rabs_right y) by lra. replace (INR 21) with 21 by (cbn; lra). exact T2. }
    pose proof e_t1 as H1. pose proof e_t2 as H2. unfold y, inv_compressibility. cbn [nmul nadd nsub ndiv npowi BNum] in *. 
    replace (8 * ke + km + 18)%nat with (S (S (8 * ke + km + 16))) by lia. apply er_rnd; auto.
    match goal with |- er a _ _ (1 + ?x + ?z) (1 + ?x' + ?z') => replace (1 + x + z) with (x + z + 1) by ring; replace (1 + x' + z') with (x' + z' + 1) by ring end.
    apply er_add; [ | up ltac:(apply (e_c 1); lra)]. apply er_rnd; auto. apply er_add; [up ltac:(exact H1) | exact H2].
  Qed.
End Core.

(** sums over pairs of components *)
Lemma flat_map_pairs {B} (f : nat -> nat -> B) l l' : flat_map (fun i => map (f i) l') l = map (fun ij => f (fst ij) (snd ij)) (list_prod l l').
Proof. induction l as [ | i l IH]; cbn; auto. rewrite map_app, map_map, IH. reflexivity. Qed.
Lemma rsum_pairs (f : nat -> nat -> R) l l' : rsum (list_prod l l') (fun ij => f (fst ij) (snd ij)) = rsum l (fun i => rsum l' (f i)).
Proof. induction l as [ | i l IH]; cbn; auto. rewrite rsum_app, IH, rsum_map. reflexivity. Qed.
Lemma npairs_rp L n (f g : nat -> nat -> R) k : (forall i j, (i < n)%nat -> (j < n)%nat -> rp k (f i j) (g i j) /\ 0 <= g i j) ->
  rp (k + n * n) (@nsum (BNum L) (flat_map (fun i => mk1 n (f i)) (seq 0 n))) (rsum (seq 0 n) (fun i => rsum (seq 0 n) (g i))).
Proof.
  intros H. unfold mk1. rewrite flat_map_pairs, <- rsum_pairs, nsum_bsum. replace (n * n)%nat with (length (list_prod (seq 0 n) (seq 0 n))) by (rewrite prod_length, !seq_length; auto).
  rewrite <- (Rplus_0_l (rsum _ _)). apply (bsum_rp (fun ij => f (fst ij) (snd ij)) (fun ij => g (fst ij) (snd ij)) k); [ | lia | lra | ].
  - intros [i j] Hij. apply in_prod_iff in Hij as [Hi Hj]. apply in_seq in Hi. apply in_seq in Hj. apply H; cbn; lia.
  - apply rp_weaken with 0%nat; [lia | apply rp_refl].
Qed.
Lemma rp_sqrt k x y : 0 <= y -> rp k x y -> rp k (sqrt x) (sqrt y).
Proof.
  intros Hy (q & [A B] & ->). destruct (o_pow k) as [P P1]. exists (sqrt q). split; [ | apply sqrt_mult; lra]. 
  assert (S1 : forall z, 0 < z <= 1 -> z <= sqrt z). { intros z Hz. rewrite <- (sqrt_square z) at 1 by lra. apply sqrt_le_1; try nra. }
  split.
  - apply Rle_trans with (sqrt (o ^ k)); [apply S1; lra | apply sqrt_le_1; lra].
  - apply Rle_trans with (sqrt (/ o ^ k)); [apply sqrt_le_1; try lra; left; apply Rinv_0_lt_compat; auto | ]. rewrite sqrt_inv. apply Rinv_le_contravar; [auto | apply S1; lra].
Qed.

(** the mixture described by parameters held as f64: spheres with dispersive attraction *)
Definition fluid {L} (p : params (BNum L)) : mixture :=
  mkMix (length (p_m p)) (fun i => nth i (p_m p) 0) (fun i => nth i (p_sigma p) 0) (fun i => nth i (p_epsilon_k p) 0)
    (fun _ => 0) (fun _ => 0) (fun _ => 0) (fun _ => 0) (fun _ => 0) (fun _ => 0) (fun i j => nth j (nth i (p_k_ij p) nil) 0).
(** sum of the absolute values of the terms of the dispersion contribution *)
Definition disp_scale (X : mixture) (t : R) (rho : nat -> R) : R :=
  let m := Mbar X rho in let eta := Eta X t rho in
  2 * PI * series_scale m eta A0 A1 A2 * mixsum X t rho 1 + PI * m * C1 X t rho * series_scale m eta B0 B1 B2 * mixsum X t rho 2.

Section HD.
  Variable L : libm. Hypothesis HL : libm_ok L.
  Variables (prs : list (pure_record (BNum L))) (bin : list (list R)) (t v : R) (moles : list R).
  Let p := @from_records_raw (BNum L) prs bin.
  Hypothesis S : sphere_state p t v moles.
  Let X := fluid p.
  Let n := length (p_m p).
  Hypothesis Hk : forall i j, (i < n)%nat -> (j < n)%nat -> Kij X i j <= 1.
  Let rho i := nth i moles 0 / v.
  Let eta := Eta X t rho.
  Let m := Mbar X rho.
  Let st := @state_new (BNum L) t v moles.
  Notation ixb := (ixb L).
  Lemma n_prs : length prs = n. Proof. unfold n, p. cbn. rewrite !map_length. reflexivity. Qed.
  Lemma par i : (i < n)%nat -> 0 < M X i /\ 0 < Sg X i /\ 0 <= Ep X i /\ 0 <= rho i.
  Proof. intros Hi. destruct (ss_par _ _ _ _ S i Hi) as (Pm & Ps & Pe & Pn). repeat split; auto. unfold rho. apply Rmult_le_pos; [auto | left; apply Rinv_0_lt_compat, (ss_v _ _ _ _ S)]. Qed.
  Lemma eta_rp : rp (27 + n) (@packing (BNum L) p t (s_rho st)) eta.
  Proof.
    unfold packing. cbv zeta. fold n. set (r := @seg_radius (BNum L) p t).
    assert (R6 : forall i, (i < n)%nat -> rp 6 (@ix (BNum L) r i) (Di X t i / 2)).
    { intros i Hi. unfold r, seg_radius. rewrite ixb. assert (L5 : @nlit (BNum L) 0.5 = / 2).
      { cbn [nlit BNum]. replace (Rlit 0.5) with (IZR 1 * bpow radix2 (-1)) by (unfold Rlit; cbn; lra). rewrite rnd_id; [cbn; lra | ]. exact (f64_Z 1 (-1) ltac:(lia)). }
      rewrite L5. assert (Z : 0 = @nmul (BNum L) 0 (/ 2)) by (cbn [nmul BNum]; rewrite Rmult_0_l, rnd_0; reflexivity). rewrite Z at 1. rewrite (map_nth (fun d => @nmul (BNum L) d (/ 2))). cbn [nmul BNum].
      apply (rp_rnd 5). unfold Rdiv. apply (rp_mul 5 0); [ | apply rp_refl]. rewrite <- ixb. exact (d_rp L HL p t v moles S i Hi). }
    unfold eta, Eta, Zeta. change (N X) with n. rewrite (litZ L 4) by (cbn; lia).
    replace (PI / 6 * rsum (seq 0 n) (fun i => rho i * M X i * Di X t i ^ 3)) with (rsum (seq 0 n) (fun i => rho i * M X i * (Di X t i / 2) * (Di X t i / 2) * (Di X t i / 2)) * 4 * (PI / 3)).
    2: { replace (rsum (seq 0 n) (fun i => rho i * M X i * Di X t i ^ 3)) with (8 * rsum (seq 0 n) (fun i => rho i * M X i * (Di X t i / 2) * (Di X t i / 2) * (Di X t i / 2))); [field | ]. rewrite <- rsum_scal. apply rsum_ext. intros i _. field. }
    cbn [nmul BNum]. replace (27 + n)%nat with (Datatypes.S (Datatypes.S ((23 + n) + 0) + 2)) by lia. apply rp_rnd, rp_mul.
    - apply rp_rnd, rp_mul; [ | apply rp_refl]. apply nsumi_rp. intros i Hi. pose proof (R6 i Hi) as D. pose proof (rho_rp L p t v moles S i Hi) as Rr. destruct (par i Hi) as (Pm & _ & _ & Pr). assert (Pd : 0 < Di X t i) by exact (d_pos L p t v moles S i Hi). split.
      + cbn [nmul BNum]. apply (rp_rnd 22), (rp_mul 16 6); auto. apply (rp_rnd 15), (rp_mul 9 6); auto. apply (rp_rnd 8), (rp_mul 2 6); auto. apply (rp_rnd 1), (rp_mul 1 0); [exact Rr | ]. rewrite ixb. apply rp_refl.
      + assert (Pd2 : 0 < Di X t i / 2) by (clear - Pd; lra). repeat (apply Rmult_le_pos; [ | apply Rlt_le; assumption]). exact Pr.
    - unfold frac_pi_3. rewrite (litZ L 3) by (cbn; lia). cbn [ndiv npi BNum]. apply (rp_rnd 1). unfold Rdiv. apply (rp_mul 1 0); [apply (rp_rnd 0), rp_refl | apply rp_refl].
  Qed.
  Lemma Rho_pos : 0 < Rho X rho /\ Rho X rho = rsum moles (fun x => x) / v.
  Proof.
    pose proof (total_pos L p t v moles S) as PT. pose proof (ss_v _ _ _ _ S) as Pv. destruct (ss_len _ _ _ _ S) as [_ Lm].
    assert (E : Rho X rho = rsum moles (fun x => x) / v). { unfold Rho, rho. change (N X) with n. unfold Rdiv. rewrite rsum_scal_r. f_equal. unfold n. rewrite <- Lm. rewrite (rsum_nth moles 0 (fun x => x)). reflexivity. }
    split; auto. rewrite E. apply Rdiv_lt_0_compat; auto.
  Qed.
  Lemma m_rp : rp (2 + 2 * n) (@mean_segments (BNum L) p (s_x st)) m.
  Proof.
    destruct Rho_pos as [PR ER]. pose proof (total_pos L p t v moles S) as PT. pose proof (ss_v _ _ _ _ S) as Pv. unfold mean_segments. fold n.
    replace m with (rsum (seq 0 n) (fun i => nth i moles 0 / rsum moles (fun x => x) * M X i)).
    - replace (2 + 2 * n)%nat with (Datatypes.S ((1 + n) + 0) + n)%nat by lia. apply nsumi_rp. intros i Hi. destruct (par i Hi) as (Pm & _ & _ & Pr). split.
      + cbn [nmul BNum]. apply rp_rnd, rp_mul; [exact (x_rp L p t v moles S i Hi) | rewrite ixb; apply rp_refl].
      + apply Rmult_le_pos; [ | lra]. apply Rmult_le_pos; [apply (ss_par _ _ _ _ S i Hi) | left; apply Rinv_0_lt_compat; auto].
    - unfold m, Mbar. rewrite ER. change (N X) with n. set (T := rsum moles _) in *. unfold Rdiv at 2. rewrite <- rsum_scal_r. apply rsum_ext. intros i _. unfold rho. field. lra.
  Qed.
  Lemma m_pos : 0 < m.
  Proof.
    destruct Rho_pos as [PR _]. unfold m, Mbar. apply Rdiv_lt_0_compat; auto. destruct (ss_mol _ _ _ _ S) as (i & Hi & Pi). change (N X) with n. fold n in Hi. apply (rsum_pos _ _ i).
    - intros j Hj. apply in_seq in Hj. destruct (par j) as (Pm & _ & _ & Pr); [lia | ]. apply Rmult_le_pos; lra.
    - apply in_seq. lia.
    - destruct (par i Hi) as (Pm & _). apply Rmult_lt_0_compat; auto. unfold rho. apply Rdiv_lt_0_compat; [auto | apply (ss_v _ _ _ _ S)].
  Qed.
  Lemma ix2b (l : list (list R)) i j : @ix2 (BNum L) l i j = nth j (nth i l nil) 0.
  Proof. unfold ix2. rewrite lit0. reflexivity. Qed.
  Lemma ix2_mk2_b (f : nat -> nat -> R) i j : (i < n)%nat -> (j < n)%nat -> @ix2 (BNum L) (mk2 n n f) i j = f i j.
  Proof.
    intros Hi Hj. rewrite ix2b. unfold mk2, mk1. rewrite (nth_indep _ nil (map (f 0%nat) (seq 0 n))) by (rewrite map_length, seq_length; auto). rewrite (map_nth (fun i => map (f i) (seq 0 n))), (nth_indep _ 0 (f (nth i (seq 0 n) 0%nat) 0%nat)) by (rewrite map_length, seq_length; auto).
    rewrite map_nth, !seq_nth by auto. reflexivity.
  Qed.
  Lemma eps_rp i j : (i < n)%nat -> (j < n)%nat -> rp 4 (@ix2 (BNum L) (p_epsilon_k_ij p) i j) (Eij X i j).
  Proof.
    intros Hi Hj. unfold p. cbn [from_records_raw p_epsilon_k_ij]. rewrite n_prs. rewrite ix2_mk2_b by auto. rewrite (litZ L 1) by (cbn; lia). rewrite !ixb, ix2b. cbn [nmul nsub nsqrt BNum]. unfold Eij, Eij0.
    apply (rp_rnd 3), (rp_mul 1 2); [apply (rp_rnd 0), rp_refl | ]. apply (rp_rnd 1), rp_sqrt; [apply Rmult_le_pos; apply par; auto | ]. apply (rp_rnd 0), rp_refl.
  Qed.
  Lemma sig_rp i j : (i < n)%nat -> (j < n)%nat -> rp 8 (@npowi (BNum L) (@ix2 (BNum L) (p_sigma_ij p) i j) 3) (Sij X i j ^ 3).
  Proof.
    intros Hi Hj. assert (G : rp 2 (@ix2 (BNum L) (p_sigma_ij p) i j) (Sij X i j)).
    { unfold p. cbn [from_records_raw p_sigma_ij]. rewrite n_prs. rewrite ix2_mk2_b by auto. rewrite !ixb. assert (L5 : @nlit (BNum L) 0.5 = / 2).
      { cbn [nlit BNum]. replace (Rlit 0.5) with (IZR 1 * bpow radix2 (-1)) by (unfold Rlit; cbn; lra). rewrite rnd_id; [cbn; lra | ]. exact (f64_Z 1 (-1) ltac:(lia)). }
      rewrite L5. unfold Sij. cbn [nmul nadd BNum]. unfold Rdiv. rewrite (Rmult_comm _ (/ 2)). apply (rp_rnd 1), (rp_mul 0 1); [apply rp_refl | ]. apply (rp_rnd 0), rp_refl. }
    set (x := @ix2 (BNum L) _ i j) in *. cbn [npowi BNum]. change (bpowi x 3) with (rnd (x * rnd (x * x))). replace (Sij X i j ^ 3) with (Sij X i j * (Sij X i j * Sij X i j)) by ring. apply (rp_rnd 7), (rp_mul 2 5); auto. apply (rp_rnd 4), (rp_mul 2 2); auto.
  Qed.
  Lemma Eij_nonneg i j : (i < n)%nat -> (j < n)%nat -> 0 <= Eij X i j / t.
  Proof. intros Hi Hj. specialize (Hk i j Hi Hj). unfold Eij, Eij0. apply Rmult_le_pos; [apply Rmult_le_pos; [lra | apply sqrt_pos] | left; apply Rinv_0_lt_compat, (ss_t _ _ _ _ S)]. Qed.
  Lemma Sij_pos i j : (i < n)%nat -> (j < n)%nat -> 0 < Sij X i j ^ 3.
  Proof. intros Hi Hj. apply pow_lt. unfold Sij. destruct (par i Hi) as (_ & ? & _). destruct (par j Hj) as (_ & ? & _). lra. Qed.
  Lemma ee_rp i j : (i < n)%nat -> (j < n)%nat -> rp 6 (rnd (rnd (/ t) * @ix2 (BNum L) (p_epsilon_k_ij p) i j)) (Eij X i j / t).
  Proof. intros Hi Hj. unfold Rdiv. rewrite (Rmult_comm (Eij X i j)). apply (rp_rnd 5), (rp_mul 1 4); [apply (rp_rnd 0), rp_refl | apply eps_rp; auto]. Qed.
  Lemma mix1_rp : rp (21 + n * n) (@rho1mix (BNum L) p t (s_rho st)) (mixsum X t rho 1).
  Proof.
    unfold rho1mix, mixsum. cbv zeta. fold n. change (N X) with n. apply npairs_rp. intros i j Hi Hj. destruct (par i Hi) as (Pm & _ & _ & Pr). destruct (par j Hj) as (Pm' & _ & _ & Pr').
    pose proof (Eij_nonneg i j Hi Hj) as PE. pose proof (Sij_pos i j Hi Hj) as PS. split.
    - rewrite pow_1. pose proof (sig_rp i j Hi Hj) as G. set (s := @npowi (BNum L) _ 3) in *. rewrite !(ixb (p_m p)). cbn [nmul nrecip BNum]. apply (rp_rnd 20), (rp_mul 12 8); auto. apply (rp_rnd 11), (rp_mul 5 6); [ | apply ee_rp; auto].
      apply (rp_rnd 4), (rp_mul 4 0); [ | apply rp_refl]. apply (rp_rnd 3), (rp_mul 3 0); [ | apply rp_refl]. apply (rp_rnd 2), (rp_mul 1 1); [exact (rho_rp L p t v moles S i Hi) | exact (rho_rp L p t v moles S j Hj)].
    - rewrite pow_1. apply Rmult_le_pos; [ | lra]. apply Rmult_le_pos; [ | auto]. apply Rmult_le_pos; [ | lra]. apply Rmult_le_pos; [ | lra]. apply Rmult_le_pos; auto.
  Qed.
  Lemma mix2_rp : rp (28 + n * n) (@rho2mix (BNum L) p t (s_rho st)) (mixsum X t rho 2).
  Proof.
    unfold rho2mix, mixsum. cbv zeta. fold n. change (N X) with n. apply npairs_rp. intros i j Hi Hj. destruct (par i Hi) as (Pm & _ & _ & Pr). destruct (par j Hj) as (Pm' & _ & _ & Pr').
    pose proof (Eij_nonneg i j Hi Hj) as PE. pose proof (Sij_pos i j Hi Hj) as PS. split.
    - pose proof (sig_rp i j Hi Hj) as G. set (s := @npowi (BNum L) _ 3) in *. rewrite !(ixb (p_m p)). cbn [nmul nrecip BNum].
      replace (rho i * rho j * M X i * M X j * (Eij X i j / t) ^ 2) with (rho i * rho j * M X i * M X j * (Eij X i j / t) * (Eij X i j / t)) by ring. apply (rp_rnd 27), (rp_mul 19 8); auto.
      apply (rp_rnd 18), (rp_mul 12 6); [ | apply ee_rp; auto]. apply (rp_rnd 11), (rp_mul 5 6); [ | apply ee_rp; auto].
      apply (rp_rnd 4), (rp_mul 4 0); [ | apply rp_refl]. apply (rp_rnd 3), (rp_mul 3 0); [ | apply rp_refl]. apply (rp_rnd 2), (rp_mul 1 1); [exact (rho_rp L p t v moles S i Hi) | exact (rho_rp L p t v moles S j Hj)].
    - apply Rmult_le_pos; [ | lra]. apply Rmult_le_pos; [ | apply pow2_ge_0]. apply Rmult_le_pos; [ | lra]. apply Rmult_le_pos; [ | lra]. apply Rmult_le_pos; auto.
  Qed.
  Lemma mixsum_nonneg k : 0 <= mixsum X t rho k.
  Proof.
    unfold mixsum. change (N X) with n. apply rsum_nonneg. intros i Hi. apply in_seq in Hi. apply rsum_nonneg. intros j Hj. apply in_seq in Hj. assert (Hi' : (i < n)%nat) by lia. assert (Hj' : (j < n)%nat) by lia.
    destruct (par i Hi') as (Pm & _ & _ & Pr). destruct (par j Hj') as (Pm' & _ & _ & Pr'). pose proof (Eij_nonneg i j Hi' Hj') as PE. pose proof (Sij_pos i j Hi' Hj') as PS.
    apply Rmult_le_pos; [ | lra]. apply Rmult_le_pos; [ | apply pow_le; auto]. apply Rmult_le_pos; [ | lra]. apply Rmult_le_pos; [ | lra]. apply Rmult_le_pos; auto.
  Qed.
  Hypothesis He : eta < 1.
  Let a := / (1 - eta).
  Hypothesis Hn : (INR n * INR n + 226 * INR n + 5189) * (INR n * INR n + 226 * INR n + 5189) <= 2 ^ 51 * (1 - eta).
  Let K := (n * n + 226 * n + (64 * 81 + 5))%nat.
  Lemma K_INR : INR K = INR n * INR n + 226 * INR n + 5189.
  Proof. unfold K. rewrite !plus_INR, !mult_INR. replace (INR 226) with 226 by (rewrite INR_IZR_INZ; reflexivity). replace (INR 64) with 64 by (rewrite INR_IZR_INZ; reflexivity). replace (INR 81) with 81 by (rewrite INR_IZR_INZ; reflexivity). replace (INR 5) with 5 by (rewrite INR_IZR_INZ; reflexivity). ring. Qed.
  Lemma K_small : 4 * (INR K * INR K) * (a * u) <= 1.
  Proof.
    rewrite K_INR. unfold a, u. apply Rle_trans with (4 * (2 ^ 51 * (1 - eta)) * (/ (1 - eta) * / 2 ^ 53)).
    - apply Rmult_le_compat_r; [ | lra]. apply Rmult_le_pos; left; apply Rinv_0_lt_compat; [lra | apply pow_lt; lra].
    - right. field. lra.
  Qed.
  Lemma eta_b : 0 <= eta < 1. Proof. split; auto. left. exact (z_pos L p t v moles S 3). Qed.
  Lemma k_small k : (k <= K)%nat -> 4 * (INR k * INR k) * (a * u) <= 1.
  Proof.
    intros H. apply le_INR in H. pose proof (pos_INR k). eapply Rle_trans; [ | exact K_small]. pose proof (a_1 eta eta_b) as A1. fold a in A1. pose proof (au0 a A1). apply Rmult_le_compat_r; [lra | ]. apply Rmult_le_compat_l; [lra | ]. apply Rmult_le_compat; auto.
  Qed.
  Lemma K_half : INR K * (a * u) <= / 20000 .
  Proof.
    pose proof K_small as H. assert (5189 <= INR K) by (rewrite K_INR; pose proof (pos_INR n); nra). pose proof (a_1 eta eta_b) as A1. fold a in A1. pose proof (au0 a A1) as P.
    assert (INR K * (a * u) * 5189 <= INR K * (a * u) * INR K) by (apply Rmult_le_compat_l; [apply Rmult_le_pos; lra | lra]). lra.
  Qed.
  Lemma au_half : a * u <= / 2.
  Proof. pose proof K_half as H. assert (5189 <= INR K) by (rewrite K_INR; pose proof (pos_INR n); nra). pose proof (a_1 eta eta_b) as A1. fold a in A1. pose proof (au0 a A1) as P. assert (5189 * (a * u) <= INR K * (a * u)) by (apply Rmult_le_compat_r; lra). lra. Qed.
  Lemma C1_inv : C1 X t rho = / inv_compressibility m eta.
  Proof. unfold C1, inv_compressibility. fold m eta. unfold Rdiv. rewrite Rmult_1_l. reflexivity. Qed.
  Lemma disp_er : er a (n * n + 226 * n + (64 * 81 + 4)) (@a_disp (BNum L) p st) (v * f_disp X t rho) (v * disp_scale X t rho).
  Proof.
    pose proof (a_1 eta eta_b) as a1. fold a in a1. pose proof au_half as au. pose proof m_pos as Pm. pose proof eta_b as Eb. pose proof eta_rp as AE. pose proof m_rp as AM. pose proof PI_RGT_0 as PP. pose proof (ss_v _ _ _ _ S) as Pv.
    unfold a_disp. cbv zeta. change (s_t st) with t. change (s_v st) with v. set (E := @packing (BNum L) p t (s_rho st)) in *. set (Mm := @mean_segments (BNum L) p (s_x st)) in *.
    pose proof (e_series L eta m E Mm _ _ Eb Pm au AE AM A0 A1 A2) as I1. pose proof (e_series L eta m E Mm _ _ Eb Pm au AE AM B0 B1 B2) as I2.
    pose proof (e_c1 L eta m E Mm _ _ Eb Pm au AE AM) as IC. fold a in I1, I2, IC. specialize (IC (k_small (21 * (8 * (27 + n) + (2 + 2 * n) + 18)) ltac:(unfold K; lia))).
    pose proof (rp_er a a1 au _ _ _ mix1_rp) as R1. pose proof (rp_er a a1 au _ _ _ mix2_rp) as R2. rewrite Rabs_right in R1, R2 by (apply Rle_ge, mixsum_nonneg).
    pose proof (rp_er a a1 au _ _ _ AM) as IM. rewrite (Rabs_right m) in IM by lra.
    assert (IP : er a 1 (rnd PI) PI PI). { apply er_rnd; auto. eapply er_eq; [ | apply er_refl]. apply Rabs_right. lra. }
    assert (IV : er a 0 v v v). { eapply er_eq; [ | apply er_refl]. apply Rabs_right. lra. }
    assert (I22 : er a 0 2 2 2). { eapply er_eq; [ | apply er_refl]. apply Rabs_right. lra. }
    rewrite (litZ L 2) by (cbn; lia). unfold f_disp, disp_scale. cbv zeta. unfold power_series. rewrite C1_inv. fold m eta. clearbody E Mm.
    set (S1 := series_scale m eta A0 A1 A2) in *. set (S2 := series_scale m eta B0 B1 B2) in *. set (Y1 := rsum (seq 0 7) _) in *. set (Y2 := rsum (seq 0 7) (fun i => (lit B0 i + _ + _) * _)) in *.
    set (c := / inv_compressibility m eta) in *. set (M1 := mixsum X t rho 1) in *. set (M2 := mixsum X t rho 2) in *.
    set (x1 := @disp_series (BNum L) A0 A1 A2 Mm E) in *. set (x2 := @disp_series (BNum L) B0 B1 B2 Mm E) in *. set (xc := @disp_c1 (BNum L) Mm E) in *. set (r1 := @rho1mix (BNum L) p t (s_rho st)) in *. set (r2 := @rho2mix (BNum L) p t (s_rho st)) in *.
    clearbody S1 S2 Y1 Y2 c M1 M2 x1 x2 xc r1 r2. change (car (BNum L)) with R in *.
    replace (v * (-2 * PI * Y1 * M1 - PI * m * c * Y2 * M2)) with (((- M1) * Y1 * 2 - M2 * m * c * Y2) * PI * v) by ring. replace (v * (2 * PI * S1 * M1 + PI * m * c * S2 * M2)) with ((M1 * S1 * 2 + M2 * m * c * S2) * PI * v) by ring.
    cbn [nmul nsub nopp npi BNum].
    replace (n * n + 226 * n + (64 * 81 + 4))%nat with (Datatypes.S (Datatypes.S (Datatypes.S (n * n + 226 * n + 64 * 81) + 1) + 0)) by lia.
    apply er_rnd; auto. apply er_mul; auto. apply er_rnd; auto. apply er_mul; auto. apply er_rnd; auto. apply er_sub.
    - eapply er_weaken with (k := Datatypes.S (Datatypes.S ((21 + n * n) + (4 * (2 + 2 * n) + 6 * (27 + n) + 23)) + 0)); auto; [lia | apply Rle_refl | ]. apply er_rnd; auto. apply er_mul; auto. apply er_rnd; auto. apply er_mul; auto. apply er_opp; auto.
    - eapply er_weaken with (k := Datatypes.S (Datatypes.S (Datatypes.S ((28 + n * n) + (2 + 2 * n)) + (21 * (8 * (27 + n) + (2 + 2 * n) + 18) + 2)) + (4 * (2 + 2 * n) + 6 * (27 + n) + 23))); auto; [lia | apply Rle_refl | ].
      apply er_rnd; auto. apply er_mul; auto. apply er_rnd; auto. apply er_mul; auto. apply er_rnd; auto. apply er_mul; auto.
  Qed.
  Lemma disp_final : Rabs (@a_disp (BNum L) p st - v * f_disp X t rho) <= INR K * (a * u) * (v * disp_scale X t rho).
  Proof.
    pose proof (a_1 eta eta_b) as a1. fold a in a1. pose proof au_half as au. pose proof disp_er as D. pose proof (er_M _ _ _ _ _ D) as PM. destruct D as [D _]. eapply Rle_trans; [exact D | ]. rewrite Rmult_comm. apply Rmult_le_compat_r; auto.
    set (k := (n * n + 226 * n + (64 * 81 + 4))%nat). assert (EK : INR K = INR k + 1) by (rewrite <- S_INR; f_equal; unfold K, k; lia).
    pose proof K_half as KH. pose proof K_small as KS. rewrite EK in *. pose proof (au0 a a1) as P. pose proof (pos_INR k) as K0. set (x := a * u) in *. assert (0 <= INR k * x) by (apply Rmult_le_pos; lra).
    eapply Rle_trans; [apply b_upper; auto; fold x; lra | ]. fold x. assert (INR k * x * (2 * (INR k * x)) <= x); [ | lra].
    replace (INR k * x * (2 * (INR k * x))) with (2 * (INR k * INR k) * x * x) by ring. rewrite <- (Rmult_1_l x) at 3. apply Rmult_le_compat_r; [lra | ]. assert (INR k * INR k <= (INR k + 1) * (INR k + 1)) by (apply Rmult_le_compat; lra).
    assert (INR k * INR k * x <= (INR k + 1) * (INR k + 1) * x) by (apply Rmult_le_compat_r; lra). assert (0 <= INR k * INR k * x) by (apply Rmult_le_pos; [apply Rmult_le_pos | ]; lra). lra.
  Qed.
End HD.

(** The dispersion contribution computed with f64 deviates from the published one by at most
    (n^2 + 226 n + 5189)/(1 - eta) units of roundoff of the sum of the absolute values of its terms,
    for n components at packing fraction eta; this includes the rounding of the combining rules. *)
Theorem C52_dispersion L (prs : list (pure_record (BNum L))) bin t v moles : let p := @from_records_raw (BNum L) prs bin in
  libm_ok L -> sphere_state p t v moles -> (forall i j, (i < length prs)%nat -> (j < length prs)%nat -> nth j (nth i bin nil) 0 <= 1) ->
  let n := INR (length prs) in let rho := fun i => nth i moles 0 / v in let eta := Eta (fluid p) t rho in
  eta < 1 -> (n ^ 2 + 226 * n + 5189) ^ 2 <= 2 ^ 51 * (1 - eta) ->
  Rabs (@a_disp (BNum L) p (@state_new (BNum L) t v moles) - v * f_disp (fluid p) t rho)
    <= (n ^ 2 + 226 * n + 5189) / (1 - eta) / 2 ^ 53 * (v * disp_scale (fluid p) t rho).
Proof.
  intros p HL S Hk n rho eta He Hn. pose proof (n_prs L prs bin) as E. fold p in E. unfold n in *. rewrite E in *.
  assert (Hn' : (INR (length (p_m p)) * INR (length (p_m p)) + 226 * INR (length (p_m p)) + 5189) * (INR (length (p_m p)) * INR (length (p_m p)) + 226 * INR (length (p_m p)) + 5189) <= 2 ^ 51 * (1 - eta)) by (eapply Rle_trans; [ | exact Hn]; right; ring).
  pose proof (disp_final L HL prs bin t v moles S Hk He Hn') as A. rewrite (K_INR L prs bin) in A. fold p in A. fold rho in A. fold eta in A. eapply Rle_trans; [exact A | ]. apply Req_le. f_equal.
  clearbody eta. set (k := INR (length (p_m p))). clearbody k. unfold u. field. lra.
Qed.

Example C52_dispersion_case : let L := exact_libm in let p := @from_records_raw (BNum L) [b_methane L] [[0]] in
  let a := @a_disp (BNum L) p (@state_new (BNum L) 300 1000 [10]) in let f := 1000 * f_disp (fluid p) 300 (fun i => nth i [10] 0 / 1000) in
  sphere_state p 300 1000 [10] /\ Rabs (a - f) <= / 10 ^ 10 * Rabs f /\ f < 0.
Proof.
  intros L p a f. set (rho := fun i => nth i [10] 0 / 1000) in *. assert (S : sphere_state p 300 1000 [10]).
  { constructor; try lra; try (cbn; auto; fail).
    - intros i Hi. cbn in Hi. destruct i as [ | i]; [ | lia]. cbn. lra.
    - exists 0%nat. cbn. split; [lia | lra]. }
  assert (EM : Mbar (fluid p) rho = 1).
  { unfold Mbar, Rho. cbn [N M fluid p from_records_raw p_m rsum seq length map nth b_methane]. change (@r_m (BNum L) (pr_model (b_methane L))) with 1. unfold rho. cbn [nth]. field. }
  assert (ER : 0.15 <= Eta (fluid p) 300 rho <= 0.25).
  { unfold Eta, Zeta, Di. cbn [N M Sg Ep fluid p from_records_raw p_m p_sigma p_epsilon_k rsum seq length map nth b_methane]. unfold rho. cbn [nth].
    change (@r_m (BNum L) (pr_model (b_methane L))) with 1. change (@r_sigma (BNum L) (pr_model (b_methane L))) with 3.5. change (@r_epsilon_k (BNum L) (pr_model (b_methane L))) with 150. split; interval. }
  assert (Mx : forall k, mixsum (fluid p) 300 rho k = 0.01 * 0.01 * (0.5 ^ k * 3.5 ^ 3)).
  { intros k. unfold mixsum, Eij, Eij0, Sij. cbn [N M Sg Ep Kij fluid p from_records_raw p_m p_sigma p_epsilon_k p_k_ij rsum seq length map nth b_methane]. unfold rho. cbn [nth].
    change (@r_m (BNum L) (pr_model (b_methane L))) with 1. change (@r_sigma (BNum L) (pr_model (b_methane L))) with 3.5. change (@r_epsilon_k (BNum L) (pr_model (b_methane L))) with 150.
    rewrite sqrt_square by lra. replace ((1 - 0) * 150 / 300) with 0.5 by lra. replace ((3.5 + 3.5) / 2) with 3.5 by lra. replace (10 / 1000) with 0.01 by lra. ring. }
  split; [exact S | ]. pose proof (C52_dispersion L [b_methane L] [[0]] 300 1000 [10] exact_libm_ok S) as B. cbv zeta in B. fold p in B. fold rho in B. fold a in B. fold f in B.
  change (INR (length [b_methane L])) with 1 in B. specialize (B ltac:(intros [ | i] [ | j] Hi Hj; cbn in *; try lra; lia) ltac:(lra) ltac:(lra)).
  pose proof PI_RGT_0 as PP.
  assert (Ha : 0.9 <= power_series (fluid p) 300 rho A0 A1 A2).
  { unfold power_series. rewrite EM. set (e := Eta _ _ _) in *. clearbody e. cbn [rsum seq]. unfold lit, Rlit. cbn [nth A0 A1 A2 Qnum Qden]. interval with (i_bisect e). }
  assert (Hb : 0 <= power_series (fluid p) 300 rho B0 B1 B2).
  { unfold power_series. rewrite EM. set (e := Eta _ _ _) in *. clearbody e. cbn [rsum seq]. unfold lit, Rlit. cbn [nth B0 B1 B2 Qnum Qden]. interval with (i_bisect e). }
  assert (Sa : 0 <= series_scale 1 (Eta (fluid p) 300 rho) A0 A1 A2 <= 10).
  { unfold series_scale. set (e := Eta _ _ _) in *. clearbody e. cbn [rsum seq]. unfold lit, Rlit. cbn [nth A0 A1 A2 Qnum Qden]. split; interval. }
  assert (Sb : 0 <= series_scale 1 (Eta (fluid p) 300 rho) B0 B1 B2 <= 20).
  { unfold series_scale. set (e := Eta _ _ _) in *. clearbody e. cbn [rsum seq]. unfold lit, Rlit. cbn [nth B0 B1 B2 Qnum Qden]. split; interval. }
  assert (Hc : 0 <= C1 (fluid p) 300 rho <= 1).
  { unfold C1. rewrite EM. set (e := Eta _ _ _) in *. clearbody e. pose proof (inv_compressibility_ge1 1 e ltac:(lra) ltac:(lra)) as I. unfold inv_compressibility in I. set (y := 1 + _ + _) in *. clearbody y. unfold Rdiv. rewrite Rmult_1_l. split; [left; apply Rinv_0_lt_compat; lra | ]. rewrite <- Rinv_1. apply Rinv_le_contravar; lra. }
  unfold disp_scale in B. cbv zeta in B. unfold f, f_disp in *. rewrite !Mx, EM in *. set (e := Eta (fluid p) 300 rho) in *.
  set (pa := power_series _ _ _ A0 A1 A2) in *. set (pb := power_series _ _ _ B0 B1 B2) in *. set (sa := series_scale 1 e A0 A1 A2) in *. set (sb := series_scale 1 e B0 B1 B2) in *. set (c := C1 _ _ _) in *. clearbody e pa pb sa sb c a.
  assert (G1 : 0 <= c * pb) by (apply Rmult_le_pos; lra). assert (G2 : 0 <= c * sb <= 1 * 20) by (split; [apply Rmult_le_pos; lra | apply Rmult_le_compat; lra]).
  assert (Q1 : 0 <= PI * (c * pb)) by (apply Rmult_le_pos; lra). assert (Q2 : PI * 0.9 <= PI * pa) by (apply Rmult_le_compat_l; lra). assert (Q3 : PI * sa <= PI * 10) by (apply Rmult_le_compat_l; lra). assert (Q4 : PI * (c * sb) <= PI * 20) by (apply Rmult_le_compat_l; lra).
  set (g := 1000 * _) in B at 1. assert (Hg : g <= - (3.8 * PI)) by (unfold g; lra). fold g. rewrite (Rabs_left g) by lra. split; [ | lra].
  eapply Rle_trans; [exact B | ]. assert (I : 0 <= / (1 - e) <= / 0.75) by (split; [left; apply Rinv_0_lt_compat; lra | apply Rinv_le_contravar; lra]).
  set (sc := 1000 * (2 * PI * sa * _ + _)). assert (Hs : sc <= 65 * PI) by (unfold sc; lra). assert (Hs0 : 0 <= sc). { unfold sc. assert (0 <= PI * sa) by (apply Rmult_le_pos; lra). assert (0 <= PI * (c * sb)) by (apply Rmult_le_pos; lra). lra. }
  clearbody sc g. apply Rle_trans with ((1 ^ 2 + 226 * 1 + 5189) * / 0.75 * / 2 ^ 53 * (65 * PI)); [ | lra]. unfold Rdiv. apply Rmult_le_compat; try lra.
Qed.
Print Assumptions C52_dispersion.
