(** C52: rounding of the association strength, and the association of several components against
    the exact strengths. *)
From Coq Require Import ZArith QArith Reals Lra Lia List Bool Arith.
From Flocq Require Import Core Relative.
From Verif Require Import Num RNum RSum Tables M_Params M_Eos Spec F_Params P_Basic F_MassAction F_MassAction2 F_Newton F_Gauss F_NewtonR F_Cross BNum F_Round F_Round2 F_Round3 P_RoundH P_RoundA P_RoundP P_RoundQ P_RoundX P_Converge P_Assoc2.
Import ListNotations.
Local Open Scope R_scope.
Set Bullet Behavior "Strict Subproofs".
Notation length := List.length.

(* ------------------------------------------------------------------ conditioning of exp(x) - 1 *)

Lemma expm1_up x q : 0 <= x -> 1 <= q -> exp (x * q) - 1 <= q * exp (x * (q - 1)) * (exp x - 1).
Proof.
  intros Hx Hq. assert (Px : 0 < exp x) by apply exp_pos. assert (Pd : 0 < exp (x * (q - 1))) by apply exp_pos.
  assert (E : exp (x * q) = exp x * exp (x * (q - 1))) by (rewrite <- exp_plus; f_equal; ring).
  assert (A1 : 1 + x <= exp x) by apply exp_ineq1_le.
  assert (A2 : 1 - x * (q - 1) <= / exp (x * (q - 1))) by (rewrite <- exp_Ropp; pose proof (exp_ineq1_le (- (x * (q - 1)))); lra).
  set (a := exp x) in *. set (d := exp (x * (q - 1))) in *. rewrite E. clearbody a d.
  assert (B1 : (q - 1) * (1 + x) <= (q - 1) * a) by (apply Rmult_le_compat_l; lra).
  assert (B2 : d * (1 - x * (q - 1)) <= 1) by (apply Rle_trans with (d * / d); [apply Rmult_le_compat_l; lra | right; field; lra]).
  assert (B3 : d * ((q - 1) * (1 + x)) <= d * ((q - 1) * a)) by (apply Rmult_le_compat_l; lra).
  apply Rminus_le. replace (a * d - 1 - q * d * (a - 1)) with ((d * (1 - x * (q - 1)) - 1) + (d * ((q - 1) * (1 + x)) - d * ((q - 1) * a))) by ring. lra.
Qed.

Lemma expm1_factor x q c : 0 <= x -> 1 <= q <= 1 + c -> c <= / 100 -> x * c <= / 100 -> q * exp (x * (q - 1)) <= 1 + 1.04 * c * (1 + x).
Proof.
  intros Hx Hq Hc Hxc. assert (C0 : 0 <= c) by lra. assert (X0 : 0 <= x * c) by (apply Rmult_le_pos; auto).
  assert (E : exp (x * (q - 1)) <= 1 + 1.02 * (x * c)).
  { apply Rle_trans with (exp (x * c)).
    - assert (x * (q - 1) <= x * c) by (apply Rmult_le_compat_l; lra). destruct H as [H | ->]; [left; apply exp_increasing; auto | lra].
    - pose proof (exp_ineq1_le (- (x * c))) as H. rewrite exp_Ropp in H. pose proof (exp_pos (x * c)) as P. set (e := exp (x * c)) in *. clearbody e.
      assert (H2 : e * (1 + - (x * c)) <= 1) by (apply Rle_trans with (e * / e); [apply Rmult_le_compat_l; lra | right; field; lra]).
      set (y := x * c) in *. clearbody y. apply (Rmult_le_reg_r (1 - y)); [lra | ]. apply Rle_trans with 1; [lra | ].
      replace ((1 + 1.02 * y) * (1 - y)) with (1 + y * (0.02 - 1.02 * y)) by lra. assert (0 <= y * (0.02 - 1.02 * y)) by (apply Rmult_le_pos; lra). lra. }
  apply Rle_trans with ((1 + c) * (1 + 1.02 * (x * c))).
  - apply Rmult_le_compat; try lra. left. apply exp_pos.
  - assert (c * (x * c) <= / 100 * (x * c)) by (apply Rmult_le_compat_r; auto). replace (1.04 * c * (1 + x)) with (1.04 * c + 1.04 * (x * c)) by lra. lra.
Qed.

(** exp(y) - 1 for an argument known up to the relative error [c] *)
Lemma expm1_cond x q c : 0 <= x -> 0 < q -> q <= 1 + c -> / q <= 1 + c -> c <= / 100 -> x * c <= / 100 -> acc (1.04 * c * (1 + x)) (exp (x * q) - 1) (exp x - 1).
Proof.
  intros Hx Hq H1 H2 Hc Hxc. assert (Ex : 0 <= exp x - 1) by (pose proof (exp_ineq1_le x); lra).
  assert (Exq : 0 <= exp (x * q) - 1) by (pose proof (exp_ineq1_le (x * q)); assert (0 <= x * q) by (apply Rmult_le_pos; lra); lra).
  assert (C0 : 0 <= c). { destruct (Rle_dec 1 q); [lra | ]. assert (1 <= / q) by (rewrite <- Rinv_1 at 1; apply Rinv_le_contravar; lra). lra. }
  assert (T0 : 0 <= 1.04 * c * (1 + x)) by (apply Rmult_le_pos; lra).
  apply within_acc; [exact T0 | ]. unfold within. rewrite (Rabs_pos_eq (exp x - 1)) by auto. destruct (Rle_dec 1 q) as [Q | Q].
  - assert (M : exp x <= exp (x * q)) by (assert (x * 1 <= x * q) by (apply Rmult_le_compat_l; lra); destruct (Req_dec (x * q) x) as [-> | Nx]; [lra | left; apply exp_increasing; lra]).
    rewrite Rabs_pos_eq by lra. pose proof (expm1_up x q Hx Q) as U. pose proof (expm1_factor x q c Hx (conj Q H1) Hc Hxc) as F.
    assert (q * exp (x * (q - 1)) * (exp x - 1) <= (1 + 1.04 * c * (1 + x)) * (exp x - 1)) by (apply Rmult_le_compat_r; auto). lra.
  - assert (Q' : q <= 1) by lra. assert (M : exp (x * q) <= exp x) by (assert (x * q <= x * 1) by (apply Rmult_le_compat_l; lra); destruct (Req_dec (x * q) x) as [-> | Nx]; [lra | left; apply exp_increasing; lra]).
    rewrite Rabs_left1 by lra. assert (X1 : 0 <= x * q) by (apply Rmult_le_pos; lra). assert (Q1 : 1 <= / q) by (rewrite <- Rinv_1 at 1; apply Rinv_le_contravar; lra).
    pose proof (expm1_up (x * q) (/ q) X1 Q1) as U. assert (Xc : x * q * c <= x * c) by (apply Rmult_le_compat_r; auto; assert (x * q <= x * 1) by (apply Rmult_le_compat_l; lra); lra).
    pose proof (expm1_factor (x * q) (/ q) c X1 (conj Q1 H2) Hc ltac:(lra)) as F. replace (x * q * / q) with x in U by (field; lra).
    assert (G : 1.04 * c * (1 + x * q) <= 1.04 * c * (1 + x)) by (apply Rmult_le_compat_l; [lra | assert (x * q <= x * 1) by (apply Rmult_le_compat_l; lra); lra]).
    set (f := / q * exp (x * q * (/ q - 1))) in *. set (e := exp x - 1) in *. set (e' := exp (x * q) - 1) in *. set (g := 1.04 * c * (1 + x)) in *.
    assert (f * e' <= (1 + g) * e') by (apply Rmult_le_compat_r; lra). assert (g * e' <= g * e) by (apply Rmult_le_compat_l; unfold e, e'; lra). lra.
Qed.

(* ------------------------------------------------------------------ the association strength *)

(** Association strength of the sites of components i and j: contact value of the pair distribution
    times segment volume times association volume times Mayer factor; association volume and energy
    of the pair as held by the parameters. *)
Definition pair_strength (X : mixture) (kappa eps : nat -> nat -> R) (t : R) (rho : nat -> R) (i j : nat) : R :=
  Gij X t rho i j * Sij X i j ^ 3 * kappa i j * (exp (eps i j / t) - 1).
Definition pair_volume {L} (p : params (BNum L)) (i j : nat) : R := nth j (nth i (p_kappa_aibj p) nil) 0.
Definition pair_energy {L} (p : params (BNum L)) (i j : nat) : R := nth j (nth i (p_epsilon_k_aibj p) nil) 0.
(** relative error of the strength for [n] components, packing fraction [eta], reduced energy [x] *)
Definition strength_error (n : nat) (eta x : R) : R := 10 * ((INR n + 30) * u / (1 - eta)) + 7 * u * (1 + x).

Section Strength.
  Variable L : libm. Hypothesis HL : libm_ok L.
  Variables (p : params (BNum L)) (t v : R) (moles : list R).
  Hypothesis S : sphere_state p t v moles.
  Let X := spheres p.
  Let n := length (p_m p).
  Let rho i := nth i moles 0 / v.
  Let st := @state_new (BNum L) t v moles.
  Let eta := Eta X t rho.
  Hypothesis He : eta < 1.
  Hypothesis Hn : INR n + 30 <= 9 * 10 ^ 6 * (1 - eta).
  Let r := @seg_radius (BNum L) p t.
  Let n2 := @assoc_n2 (BNum L) p t (s_rho st).
  Let n3 := @packing (BNum L) p t (s_rho st).
  Let n3i := @nrecip (BNum L) (@nadd (BNum L) (@nopp (BNum L) n3) (@nlit (BNum L) 1%Q)).
  Notation ixb := (ixb L).

  Lemma half_lit : @nlit (BNum L) 0.5 = / 2.
  Proof. cbn [nlit BNum]. replace (Rlit 0.5) with (IZR 1 * bpow radix2 (-1)) by (unfold Rlit; cbn; lra). rewrite rnd_id; [cbn; lra | ]. exact (f64_Z 1 (-1) ltac:(lia)). Qed.
  Lemma r_rp i : (i < n)%nat -> rp 6 (@ix (BNum L) r i) (Di X t i / 2).
  Proof.
    intros Hi. unfold r, seg_radius. rewrite ixb, half_lit. assert (Z : 0 = @nmul (BNum L) 0 (/ 2)) by (cbn [nmul BNum]; rewrite Rmult_0_l, rnd_0; reflexivity). rewrite Z at 1. rewrite (map_nth (fun d => @nmul (BNum L) d (/ 2))). cbn [nmul BNum].
    apply (rp_rnd 5). unfold Rdiv. apply (rp_mul 5 0); [ | apply rp_refl]. rewrite <- ixb. exact (d_rp L HL p t v moles S i Hi).
  Qed.
  Lemma spar i : (i < n)%nat -> 0 < M X i /\ 0 < Sg X i /\ 0 <= rho i /\ 0 < Di X t i.
  Proof. intros Hi. destruct (pars L p t v moles S i Hi) as (Pm & Pr & Pd). destruct (ss_par _ _ _ _ S i Hi) as (_ & Ps & _). repeat split; auto. Qed.
  Lemma n3_rp : rp (27 + n) n3 eta.
  Proof.
    unfold n3, packing. cbv zeta. fold n. fold r. unfold eta, Eta, Zeta. change (N X) with n. rewrite (litZ L 4) by (cbn; lia).
    replace (PI / 6 * rsum (seq 0 n) (fun i => rho i * M X i * Di X t i ^ 3)) with (rsum (seq 0 n) (fun i => rho i * M X i * (Di X t i / 2) * (Di X t i / 2) * (Di X t i / 2)) * 4 * (PI / 3)).
    2: { replace (rsum (seq 0 n) (fun i => rho i * M X i * Di X t i ^ 3)) with (8 * rsum (seq 0 n) (fun i => rho i * M X i * (Di X t i / 2) * (Di X t i / 2) * (Di X t i / 2))); [field | ]. rewrite <- rsum_scal. apply rsum_ext. intros i _. field. }
    cbn [nmul BNum]. replace (27 + n)%nat with (Datatypes.S (Datatypes.S ((23 + n) + 0) + 2)) by lia. apply rp_rnd, rp_mul.
    - apply rp_rnd, rp_mul; [ | apply rp_refl]. apply nsumi_rp. intros i Hi. pose proof (r_rp i Hi) as D. pose proof (rho_rp L p t v moles S i Hi) as Rr. destruct (spar i Hi) as (Pm & _ & Pr & Pd). split.
      + cbn [nmul BNum]. apply (rp_rnd 22), (rp_mul 16 6); auto. apply (rp_rnd 15), (rp_mul 9 6); auto. apply (rp_rnd 8), (rp_mul 2 6); auto. apply (rp_rnd 1), (rp_mul 1 0); [exact Rr | ]. rewrite ixb. apply rp_refl.
      + assert (Pd2 : 0 < Di X t i / 2) by (clear - Pd; lra). repeat (apply Rmult_le_pos; [ | apply Rlt_le; assumption]). exact Pr.
    - unfold frac_pi_3. rewrite (litZ L 3) by (cbn; lia). cbn [ndiv npi BNum]. apply (rp_rnd 1). unfold Rdiv. apply (rp_mul 1 0); [apply (rp_rnd 0), rp_refl | apply rp_refl].
  Qed.
  Lemma n2_rp : rp (20 + n) n2 (6 * Zeta X t rho 2).
  Proof.
    unfold n2, assoc_n2. cbv zeta. fold n. fold r. unfold Zeta. change (N X) with n. rewrite (litZ L 4) by (cbn; lia).
    replace (6 * (PI / 6 * rsum (seq 0 n) (fun i => rho i * M X i * Di X t i ^ 2))) with (rsum (seq 0 n) (fun i => rho i * M X i * (Di X t i / 2) * (Di X t i / 2)) * 4 * PI).
    2: { replace (rsum (seq 0 n) (fun i => rho i * M X i * Di X t i ^ 2)) with (4 * rsum (seq 0 n) (fun i => rho i * M X i * (Di X t i / 2) * (Di X t i / 2))); [field | ]. rewrite <- rsum_scal. apply rsum_ext. intros i _. field. }
    cbn [nmul npi BNum]. apply rp_weaken with (Datatypes.S (Datatypes.S ((16 + n) + 0) + 1)); [lia | ]. apply rp_rnd, rp_mul.
    - apply rp_rnd, rp_mul; [ | apply rp_refl]. apply nsumi_rp. intros i Hi. pose proof (r_rp i Hi) as D. pose proof (rho_rp L p t v moles S i Hi) as Rr. destruct (spar i Hi) as (Pm & _ & Pr & Pd). split.
      + cbn [nmul BNum]. apply (rp_rnd 15), (rp_mul 9 6); auto. apply (rp_rnd 8), (rp_mul 2 6); auto. apply (rp_rnd 1), (rp_mul 1 0); [exact Rr | ]. rewrite ixb. apply rp_refl.
      + assert (Pd2 : 0 < Di X t i / 2) by (clear - Pd; lra). repeat (apply Rmult_le_pos; [ | apply Rlt_le; assumption]). exact Pr.
    - apply (rp_rnd 0), rp_refl.
  Qed.
  Let w := (INR n + 30) * u / (1 - eta).
  Lemma eta_pos : 0 < eta. Proof. exact (z_pos L p t v moles S 3). Qed.
  Lemma sw_b : 0 < w <= / 10 ^ 9.
  Proof.
    pose proof u_pos as U0. pose proof (pos_INR n) as N0. split; [apply Rdiv_lt_0_compat; [apply Rmult_lt_0_compat; lra | lra] | ]. unfold w. apply (Rmult_le_reg_r (1 - eta)); [lra | ]. replace ((INR n + 30) * u / (1 - eta) * (1 - eta)) with ((INR n + 30) * u) by (field; lra).
    apply Rle_trans with (9 * 10 ^ 6 * (1 - eta) * u); [apply Rmult_le_compat_r; lra | ]. replace (9 * 10 ^ 6 * (1 - eta) * u) with (9 * 10 ^ 6 * u * (1 - eta)) by ring. apply Rmult_le_compat_r; [lra | ]. unfold u. lra.
  Qed.
  Lemma sw_eq : w * (1 - eta) = (INR n + 30) * u. Proof. unfold w. field. lra. Qed.
  Lemma sw_n : (INR n + 30) * u <= w.
  Proof. pose proof sw_b. pose proof eta_pos. rewrite <- sw_eq. assert (w * (1 - eta) <= w * 1) by (apply Rmult_le_compat_l; lra). lra. Qed.
  Lemma sw_u : u <= w / 30.
  Proof. pose proof sw_n. pose proof u_pos. assert (0 <= INR n * u) by (apply Rmult_le_pos; [apply pos_INR | lra]). lra. Qed.
  Lemma sw_20 : u <= w / 20. Proof. pose proof sw_u. pose proof sw_b. lra. Qed.
  (** factors counted in roundings, as relative errors *)
  Lemma rp_small k x y : (k <= 28 + n)%nat -> rp k x y -> acc ((INR k + 1) * u) x y.
  Proof.
    intros Hk H. pose proof u_pos as U0. pose proof (pos_INR n) as N0. pose proof (pos_INR k) as K0. pose proof eta_pos.
    assert (K : INR k <= INR n + 28). { apply le_INR in Hk. rewrite plus_INR in Hk. replace (INR 28) with 28 in Hk by (simpl; lra). lra. }
    assert (B : INR k <= 9 * 10 ^ 6) by lra. assert (Bu : INR k * u <= 9 * 10 ^ 6 * u) by (apply Rmult_le_compat_r; lra).
    assert (Bs : 9 * 10 ^ 6 * u <= / 10 ^ 8) by (unfold u; lra).
    eapply acc_weaken; [ | apply (rp_acc k); [lra | exact H]]. assert (INR k * (INR k * u) <= 9 * 10 ^ 6 * (9 * 10 ^ 6 * u)) by (apply Rmult_le_compat; try lra; apply Rmult_le_pos; lra).
    assert (9 * 10 ^ 6 * (9 * 10 ^ 6 * u) <= / 10) by (unfold u; lra).
    assert (INR k * (INR k * u) * u <= / 10 * u) by (apply Rmult_le_compat_r; lra). lra.
  Qed.
  Lemma rp_w k x y : (k <= 28 + n)%nat -> rp k x y -> acc (1 * w) x y.
  Proof.
    intros Hk H. apply acc_weaken with ((INR k + 1) * u); [ | apply rp_small; auto]. pose proof sw_n. apply Rle_trans with ((INR n + 30) * u); [ | lra]. apply Rmult_le_compat_r; [left; apply u_pos | ].
    apply le_INR in Hk. rewrite plus_INR in Hk. replace (INR 28) with 28 in Hk by (simpl; lra). lra.
  Qed.
  Let Rn := W_rnd w sw_b sw_20.
  Let Mr := W_mulr w sw_b sw_20.
  Let Ir := W_invr w sw_b sw_20.
  Let Ml := W_mul w sw_b.
  Lemma n3i_acc : acc (1.13 * w) n3i (/ (1 - eta)).
  Proof.
    unfold n3i. rewrite (litZ L 1) by (cbn; lia). cbn [nrecip nadd nopp BNum]. replace 1.13 with (1.06 + 0.07) by lra. apply Ir; [lra | lra | ]. replace 1.06 with (1 + 0.06) by lra. apply Rn; [lra | ].
    pose proof eta_pos as E0. assert (A : acc (w * (1 - eta)) n3 eta).
    { rewrite sw_eq. eapply acc_weaken; [ | apply (rp_small (27 + n)); [lia | apply n3_rp]]. rewrite plus_INR. replace (INR 27) with 27 by (simpl; lra). apply Rmult_le_compat_r; [left; apply u_pos | lra]. }
    destruct A as (e & Hd & ->). exists (- (eta * e / (1 - eta))). split; [ | field; lra]. rewrite Rabs_Ropp. unfold Rdiv. rewrite !Rabs_mult, (Rabs_right eta), (Rabs_right (/ (1 - eta))) by (try apply Rle_ge, Rlt_le, Rinv_0_lt_compat; lra).
    apply Rle_trans with (1 * (w * (1 - eta)) * / (1 - eta)); [ | right; field; lra]. apply Rmult_le_compat_r; [left; apply Rinv_0_lt_compat; lra | ]. apply Rmult_le_compat; try lra. apply Rabs_pos.
  Qed.
  Section Pair.
  Variables i j : nat.
  Hypotheses (Hi : (i < n)%nat) (Hj : (j < n)%nat).
  Let D := Di X t i * Di X t j / (Di X t i + Di X t j).
  Let z2 := Zeta X t rho 2.
  Let kk := 6 * D * z2 / (1 - eta).
  Let kb := @nmul (BNum L) (@ndiv (BNum L) (@nmul (BNum L) (@ix (BNum L) r i) (@ix (BNum L) r j)) (@nadd (BNum L) (@ix (BNum L) r i) (@ix (BNum L) r j))) (@nmul (BNum L) (@nmul (BNum L) n2 n3i) (@nlit (BNum L) 2)).
  Lemma kb_acc : acc (3.34 * w) kb kk.
  Proof.
    destruct (spar i Hi) as (_ & _ & _ & Pi). destruct (spar j Hj) as (_ & _ & _ & Pj). pose proof (r_rp i Hi) as Ri. pose proof (r_rp j Hj) as Rj.
    unfold kb, kk. rewrite (litZ L 2) by (cbn; lia). cbn [nmul ndiv nadd BNum].
    replace (6 * D * z2 / (1 - eta)) with (D / 2 * (6 * z2 * / (1 - eta) * 2)) by (field; lra).
    replace 3.34 with (1 + 2.27 + 0.07) by lra. apply Mr; try lra.
    - apply (rp_w 21); [lia | ]. replace (D / 2) with (Di X t i / 2 * (Di X t j / 2) / (Di X t i / 2 + Di X t j / 2)) by (unfold D; field; lra).
      unfold Rdiv at 1 4. apply (rp_rnd 20), (rp_mul 13 7); [apply (rp_rnd 12), (rp_mul 6 6); auto | ]. apply rp_inv, (rp_rnd 6), rp_add; auto; lra.
    - replace 2.27 with (2.20 + 0 + 0.07) by lra. apply Mr; try lra; [ | apply W_self]. replace 2.20 with (1 + 1.13 + 0.07) by lra. apply Mr; try lra; [ | apply n3i_acc]. apply (rp_w (20 + n)); [lia | apply n2_rp].
  Qed.
  Lemma kk_pos : 0 <= kk.
  Proof.
    destruct (spar i Hi) as (_ & _ & _ & Pi). destruct (spar j Hj) as (_ & _ & _ & Pj). assert (0 < z2) by exact (z_pos L p t v moles S 2).
    unfold kk. apply Rmult_le_pos; [ | left; apply Rinv_0_lt_compat; lra]. apply Rmult_le_pos; [ | lra]. apply Rmult_le_pos; [lra | ]. apply Rmult_le_pos; [apply Rmult_le_pos; lra | left; apply Rinv_0_lt_compat; lra].
  Qed.
  Lemma contact_acc : acc (8.28 * w) (@nmul (BNum L) n3i (@nadd (BNum L) (@nmul (BNum L) (@nmul (BNum L) kb (@n1 (BNum L))) (@nadd (BNum L) (@ndiv (BNum L) kb (@nlit (BNum L) 18)) (@nlit (BNum L) 0.5))) (@nlit (BNum L) 1)))
    (Gij X t rho i j).
  Proof.
    pose proof kb_acc as K. pose proof kk_pos as K0. destruct (spar i Hi) as (_ & _ & _ & Pi). destruct (spar j Hj) as (_ & _ & _ & Pj).
    unfold n1. rewrite (litZ L 18), (litZ L 1), half_lit by (cbn; lia). cbn [nmul ndiv nadd BNum].
    replace (Gij X t rho i j) with (/ (1 - eta) * (kk * 1 * (kk / 18 + / 2) + 1)).
    2: { unfold Gij, kk, D, z2, eta, Eta. change (Zeta X t rho 3) with eta. field. split; lra. }
    assert (Ks : 0 <= kk / 18) by lra.
    replace 8.28 with (1.13 + 7.08 + 0.07) by lra. apply Mr; try lra; [apply n3i_acc | ]. replace 7.08 with (7.02 + 0.06) by lra. apply Rn; [lra | ]. apply acc_add; [ | lra | | apply W_weaken with 0; [exact sw_b | lra | apply W_self]].
    { rewrite Rmult_1_r. apply Rmult_le_pos; lra. }
    replace 7.02 with (3.41 + 3.54 + 0.07) by lra. apply Mr; try lra.
    - replace 3.41 with (3.34 + 0 + 0.07) by lra. apply Mr; try lra; [exact K | apply W_self].
    - replace 3.54 with (3.48 + 0.06) by lra. apply Rn; [lra | ]. apply acc_add; [lra | lra | | apply W_weaken with 0; [exact sw_b | lra | apply W_self]].
      apply W_weaken with 3.41; [exact sw_b | lra | ]. replace 3.41 with (3.34 + 0 + 0.07) by lra. unfold Rdiv. apply Mr; try lra; [exact K | apply W_self].
  Qed.
  Lemma contact_pos : 0 < Gij X t rho i j.
  Proof.
    pose proof kk_pos as K0. destruct (spar i Hi) as (_ & _ & _ & Pi). destruct (spar j Hj) as (_ & _ & _ & Pj).
    replace (Gij X t rho i j) with (/ (1 - eta) * (kk * (kk / 18 + / 2) + 1)).
    2: { unfold Gij, kk, D, z2, eta, Eta. change (Zeta X t rho 3) with eta. field. split; lra. }
    apply Rmult_lt_0_compat; [apply Rinv_0_lt_compat; lra | ]. assert (0 <= kk * (kk / 18 + / 2)) by (apply Rmult_le_pos; lra). lra.
  Qed.
  Lemma contact_diameter : 0 <= Sij X i j ^ 3.
  Proof. destruct (spar i Hi) as (_ & Pi & _). destruct (spar j Hj) as (_ & Pj & _). apply pow_le. unfold Sij. lra. Qed.
  Let eps := pair_energy p i j.
  Hypothesis Hke : 0 <= eps.
  Hypothesis Hx : eps / t <= 10 ^ 12.
  Lemma x_pos : 0 <= eps / t. Proof. apply Rmult_le_pos; auto. left. apply Rinv_0_lt_compat, (ss_t _ _ _ _ S). Qed.
  Lemma mayer_acc : acc (6 * u * (1 + eps / t)) (@nexpm1 (BNum L) (@nmul (BNum L) (@nrecip (BNum L) t) (@ix2 (BNum L) (p_epsilon_k_aibj p) i j))) (exp (eps / t) - 1).
  Proof.
    pose proof x_pos as X0. pose proof u_pos as U0. pose proof u_small as U1. rewrite ix2_b. change (nth j (nth i (p_epsilon_k_aibj p) nil) 0) with eps. cbn [nexpm1 nmul nrecip BNum].
    assert (A : rp 2 (rnd (rnd (/ t) * eps)) (eps / t)). { unfold Rdiv. rewrite (Rmult_comm eps). apply (rp_rnd 1), (rp_mul 1 0); [apply (rp_rnd 0), rp_refl | apply rp_refl]. }
    destruct A as (q & [Q1 Q2] & ->). set (x := eps / t) in *. clearbody x. assert (O : 1 - 2 * u <= o ^ 2) by (pose proof (o_pow_lower 2) as O; simpl (INR 2) in O; lra).
    assert (Oi : / o ^ 2 <= 1 + 3 * u).
    { apply Rle_trans with (/ (1 - 2 * u)); [apply Rinv_le_contravar; lra | ]. apply (Rmult_le_reg_r (1 - 2 * u)); [lra | ]. rewrite Rinv_l by lra. assert (u * u <= u * / 10 ^ 15) by (apply Rmult_le_compat_l; lra). lra. }
    assert (Pq : 0 < q) by lra. assert (Qi : / q <= / o ^ 2) by (apply Rinv_le_contravar; lra).
    assert (Xu : x * (3 * u) <= / 100). { apply Rle_trans with (10 ^ 12 * (3 * / 10 ^ 15)); [apply Rmult_le_compat; lra | lra]. }
    pose proof (expm1_cond x q (3 * u) X0 Pq ltac:(lra) ltac:(lra) ltac:(lra) Xu) as C.
    destruct HL as (_ & HE & _). specialize (HE (x * q)). apply within_acc in HE; [ | lra]. pose proof (acc_rel_trans _ _ _ _ _ HE C) as T.
    eapply acc_weaken; [ | exact T]. replace (/ 2 ^ 52) with (2 * u) by (unfold u; lra). assert (0 <= u * x) by (apply Rmult_le_pos; lra).
    assert (2 * u * (1.04 * (3 * u) * (1 + x)) <= / 10 ^ 3 * (u * (1 + x))).
    { replace (2 * u * (1.04 * (3 * u) * (1 + x))) with (6.24 * u * (u * (1 + x))) by lra. apply Rmult_le_compat_r; [apply Rmult_le_pos; lra | lra]. }
    lra.
  Qed.
  Theorem strength_acc : acc (strength_error n eta (eps / t)) (@association_strength (BNum L) p t r n2 n3i (@n1 (BNum L)) i j) (pair_strength X (pair_volume p) (pair_energy p) t rho i j).
  Proof.
    pose proof x_pos as X0. pose proof u_pos as U0. pose proof u_small as U1. unfold association_strength, pair_strength. cbv zeta. fold kb.
    assert (A : acc (9.42 * w) (@nmul (BNum L) (@nmul (BNum L) (@nmul (BNum L) n3i (@nadd (BNum L) (@nmul (BNum L) (@nmul (BNum L) kb (@n1 (BNum L))) (@nadd (BNum L) (@ndiv (BNum L) kb (@nlit (BNum L) 18)) (@nlit (BNum L) 0.5))) (@nlit (BNum L) 1)))
      (@npowi (BNum L) (@nmul (BNum L) (@nlit (BNum L) 0.5) (@nadd (BNum L) (@ix (BNum L) (p_sigma p) i) (@ix (BNum L) (p_sigma p) j))) 3)) (@ix2 (BNum L) (p_kappa_aibj p) i j))
      (Gij X t rho i j * Sij X i j ^ 3 * pair_volume p i j)).
    { pose proof contact_acc as C. set (g := @nmul (BNum L) n3i _) in *. clearbody g. rewrite ix2_b. change (nth j (nth i (p_kappa_aibj p) nil) 0) with (pair_volume p i j).
      assert (Sr : rp 8 (@npowi (BNum L) (@nmul (BNum L) (@nlit (BNum L) 0.5) (@nadd (BNum L) (@ix (BNum L) (p_sigma p) i) (@ix (BNum L) (p_sigma p) j))) 3) (Sij X i j ^ 3)).
      { assert (G : rp 2 (@nmul (BNum L) (@nlit (BNum L) 0.5) (@nadd (BNum L) (@ix (BNum L) (p_sigma p) i) (@ix (BNum L) (p_sigma p) j))) (Sij X i j)).
        { rewrite half_lit, !ixb. unfold Sij. cbn [nmul nadd BNum]. unfold Rdiv. rewrite (Rmult_comm _ (/ 2)). apply (rp_rnd 1), (rp_mul 0 1); [apply rp_refl | ]. apply (rp_rnd 0), rp_refl. }
        set (x := @nmul (BNum L) _ _) in *. cbn [npowi BNum]. change (bpowi x 3) with (rnd (x * rnd (x * x))). replace (Sij X i j ^ 3) with (Sij X i j * (Sij X i j * Sij X i j)) by ring. apply (rp_rnd 7), (rp_mul 2 5); auto. apply (rp_rnd 4), (rp_mul 2 2); auto. }
      set (s3 := @npowi (BNum L) _ 3) in *. clearbody s3. cbn [nmul BNum]. replace 9.42 with (9.35 + 0 + 0.07) by lra. apply Mr; try lra; [ | apply W_self]. replace 9.35 with (8.28 + 1 + 0.07) by lra. apply Mr; try lra; [exact C | ]. apply (rp_w 8); [lia | exact Sr]. }
    pose proof mayer_acc as E. set (a := @nmul (BNum L) (@nmul (BNum L) (@nmul (BNum L) n3i _) _) _) in *. set (e := @nexpm1 (BNum L) _) in *. clearbody a e. cbn [nmul BNum].
    eapply acc_weaken; [ | apply acc_rnd, acc_mul; [exact A | exact E]]. unfold strength_error. fold w. pose proof sw_b as [W0 W1]. pose proof sw_u as WU. set (x := eps / t) in *. clearbody x.
    assert (Xu : u * (1 + x) <= 1.1 / 10 ^ 3). { apply Rle_trans with (/ 10 ^ 15 * (1.1 * 10 ^ 12)); [apply Rmult_le_compat; lra | lra]. }
    assert (P : 0 <= u * (1 + x)) by (apply Rmult_le_pos; lra). set (y := u * (1 + x)) in *. replace (6 * u * (1 + x)) with (6 * y) by (unfold y; ring). replace (7 * u * (1 + x)) with (7 * y) by (unfold y; ring).
    assert (w * y <= / 10 ^ 9 * y) by (apply Rmult_le_compat_r; lra).
    assert (B : (9.42 * w + 6 * y + 9.42 * w * (6 * y)) * u <= 1 * u) by (apply Rmult_le_compat_r; lra). lra.
  Qed.
  End Pair.
End Strength.

(* ------------------------------------------------------------------ sensitivity of the law of mass action *)

Section Perturb.
  Variables (n : nat) (na nb : nat -> R).
  Hypothesis Hab : forall j, (j < n)%nat -> 0 <= na j /\ 0 <= nb j.
  Definition coef (d : nat -> nat -> R) (den : nat -> R) (k l : nat) : R :=
    if Nat.ltb k n then (if Nat.ltb l n then 0 else den (l - n)%nat * nb (l - n)%nat * d k (l - n)%nat)
    else (if Nat.ltb l n then den l * na l * d (k - n)%nat l else 0).
  Lemma coef_nn d den : (forall i j, (i < n)%nat -> (j < n)%nat -> 0 <= den j * d i j) -> forall k l, (k < n + n)%nat -> (l < n + n)%nat -> 0 <= coef d den k l.
  Proof.
    intros H k l Hk Hl. unfold coef. destruct (Nat.ltb_spec k n), (Nat.ltb_spec l n); try lra.
    - replace (den (l - n)%nat * nb (l - n)%nat * d k (l - n)%nat) with (nb (l - n)%nat * (den (l - n)%nat * d k (l - n)%nat)) by ring. apply Rmult_le_pos; [apply Hab | apply H]; lia.
    - replace (den l * na l * d (k - n)%nat l) with (na l * (den l * d (k - n)%nat l)) by ring. apply Rmult_le_pos; [apply Hab | apply H]; lia.
  Qed.
  Lemma coef_row d den (z : list R) i : (i < n)%nat ->
    row (n + n) (coef d den) (fun l => nth l z 0) i = bonds_a n d nb den z i /\ row (n + n) (coef d den) (fun l => nth l z 0) (n + i) = bonds_b n d na den z i.
  Proof.
    intros Hi. unfold row. rewrite !Sum_app_nn. split.
    - rewrite (rsum_zero (seq 0 n)), Rplus_0_l.
      2: { intros l Hl. apply seq_in in Hl. unfold coef. destruct (Nat.ltb_spec i n), (Nat.ltb_spec l n); try lia. ring. }
      apply Sum_ext. intros j Hj. unfold coef, fb. destruct (Nat.ltb_spec i n), (Nat.ltb_spec (n + j) n); try lia. replace (n + j - n)%nat with j by lia. ring.
    - rewrite (rsum_zero (seq 0 n) (fun j => coef d den (n + i) (n + j) * nth (n + j) z 0)), Rplus_0_r.
      2: { intros l Hl. apply seq_in in Hl. unfold coef. destruct (Nat.ltb_spec (n + i) n), (Nat.ltb_spec (n + l) n); try lia. ring. }
      apply Sum_ext. intros j Hj. unfold coef, fa. destruct (Nat.ltb_spec (n + i) n), (Nat.ltb_spec j n); try lia. replace (n + i - n)%nat with i by lia. ring.
  Qed.
  Lemma law_solves d den z : site_law n d na nb den z -> solves (n + n) (coef d den) (fun l => nth l z 0).
  Proof.
    intros (_ & P & Q). unfold solves. apply from_halves. intros i Hi. destruct (P i Hi) as [P1 P2]. destruct (Q i Hi) as [Q1 Q2]. destruct (coef_row d den z i Hi) as [-> ->]. auto.
  Qed.
  Variables (d d' : nat -> nat -> R) (den den' : nat -> R) (e s : R) (z z' : list R).
  Hypothesis Hd : forall i j, (i < n)%nat -> (j < n)%nat -> 0 <= den j * d i j /\ 0 <= den' j * d' i j /\ Rabs (den' j * d' i j - den j * d i j) <= e * (den j * d i j).
  Hypotheses (He : 0 <= e) (Hs : 0 < s) (Hes : e / s < 1).
  Hypothesis Hz : site_law n d na nb den z.
  Hypothesis Hz' : site_law n d' na nb den' z'.
  Hypothesis Hzs : forall l, (l < n + n)%nat -> s <= nth l z 0.
  Lemma coef_close k l : (k < n + n)%nat -> (l < n + n)%nat -> Rabs (coef d den k l - coef d' den' k l) <= e * coef d den k l.
  Proof.
    intros Hk Hl. unfold coef. destruct (Nat.ltb_spec k n), (Nat.ltb_spec l n); try (rewrite Rminus_eq_0, Rabs_R0; lra).
    - set (j := (l - n)%nat). destruct (Hd k j) as (_ & _ & A); [auto | lia | ]. destruct (Hab j) as [_ B]; [lia | ].
      replace (den j * nb j * d k j - den' j * nb j * d' k j) with (- (nb j * (den' j * d' k j - den j * d k j))) by ring. rewrite Rabs_Ropp, Rabs_mult, (Rabs_pos_eq (nb j)) by auto.
      replace (e * (den j * nb j * d k j)) with (nb j * (e * (den j * d k j))) by ring. apply Rmult_le_compat_l; auto.
    - set (i := (k - n)%nat). destruct (Hd i l) as (_ & _ & A); [lia | auto | ]. destruct (Hab l) as [B _]; [auto | ].
      replace (den l * na l * d i l - den' l * na l * d' i l) with (- (na l * (den' l * d' i l - den l * d i l))) by ring. rewrite Rabs_Ropp, Rabs_mult, (Rabs_pos_eq (na l)) by auto.
      replace (e * (den l * na l * d i l)) with (na l * (e * (den l * d i l))) by ring. apply Rmult_le_compat_l; auto.
  Qed.
  (** two laws of mass action with close coefficients have close solutions *)
  Theorem law_perturb l : (l < n + n)%nat -> 0 < nth l z' 0 /\ nth l z' 0 <= / (1 - e / s) * nth l z 0 /\ nth l z 0 <= / (1 - e / s) * nth l z' 0.
  Proof.
    intros Hl. pose proof (law_solves d den z Hz) as Sz. pose proof (law_solves d' den' z' Hz') as Sz'.
    assert (P' : forall k l, (k < n + n)%nat -> (l < n + n)%nat -> 0 <= coef d' den' k l) by (apply coef_nn; intros; apply Hd; auto).
    assert (P : forall k l, (k < n + n)%nat -> (l < n + n)%nat -> 0 <= coef d den k l) by (apply coef_nn; intros; apply Hd; auto).
    assert (E0 : 0 <= e / s) by (apply Rmult_le_pos; [auto | left; apply Rinv_0_lt_compat; auto]).
    split; [apply Sz'; auto | ]. apply and_comm.
    apply (residual_accuracy (n + n) (coef d' den') P' (fun l => nth l z 0) (fun l => nth l z' 0) (e / s) (conj E0 Hes) Sz'); auto.
    - intros k Hk. apply Sz. auto.
    - intros k Hk. pose (x := fun l => nth l z 0). change (solves (n + n) (coef d den) x) in Sz. change (Rabs (/ x k - (1 + row (n + n) (coef d' den') x k)) <= e / s). assert (Hxs : s <= x k) by (apply Hzs; auto). clearbody x. destruct (Sz k Hk) as [Pk Ek].
      assert (Q : / x k = 1 + row (n + n) (coef d den) x k) by (apply (Rmult_eq_reg_l (x k)); [rewrite Rinv_r; lra | lra]).
      rewrite Q. replace (1 + row (n + n) (coef d den) x k - (1 + row (n + n) (coef d' den') x k)) with (row (n + n) (coef d den) x k - row (n + n) (coef d' den') x k) by ring.
      apply Rle_trans with (e * row (n + n) (coef d den) x k).
      + unfold row. rewrite <- rsum_minus, <- rsum_scal. eapply Rle_trans; [apply rsum_abs | ]. apply rsum_le. intros m Hm. apply seq_in in Hm. destruct (Sz m Hm) as [Pm _].
        replace (coef d den k m * x m - coef d' den' k m * x m) with ((coef d den k m - coef d' den' k m) * x m) by ring. rewrite Rabs_mult, (Rabs_pos_eq (x m)) by lra. rewrite <- Rmult_assoc. apply Rmult_le_compat_r; [lra | apply coef_close; auto].
      + unfold Rdiv. apply Rmult_le_compat_l; auto. assert (/ x k <= / s) by (apply Rinv_le_contravar; auto). lra.
  Qed.
End Perturb.

Lemma fx_size x : 0 < x <= 1 -> Rabs (fx x) <= Rabs (ln x) + 1 / 2.
Proof. intros H. unfold fx. replace (ln x - x / 2 + 1 / 2) with (ln x + (1 - x) / 2) by lra. eapply Rle_trans; [apply Rabs_triang | ]. rewrite (Rabs_pos_eq ((1 - x) / 2)) by lra. lra. Qed.

(** energies of close densities and fractions *)
Lemma site_energy_close n (na nb den den' : nat -> R) (z z' : list R) q e : 1 <= q -> (forall j, (j < n)%nat -> 0 <= na j /\ 0 <= nb j /\ 0 <= den j /\ 0 <= den' j /\ Rabs (den' j - den j) <= e * den j) ->
  (forall l, (l < n + n)%nat -> 0 < nth l z 0 <= 1) ->
  (forall l, (l < n + n)%nat -> 0 < nth l z' 0 /\ nth l z' 0 <= q * nth l z 0 /\ nth l z 0 <= q * nth l z' 0) ->
  Rabs (site_energy n na nb den' z' - site_energy n na nb den z)
  <= 3 / 2 * (q - 1) * (Sum i < n, den' i * (na i + nb i)) + e * (Sum i < n, den i * (na i * (Rabs (ln (fa z i)) + 1 / 2) + nb i * (Rabs (ln (fb n z i)) + 1 / 2))).
Proof.
  intros Hq Hn Hz Hc. unfold site_energy. rewrite <- rsum_minus, <- !rsum_scal, <- rsum_plus. eapply Rle_trans; [apply rsum_abs | ]. apply rsum_le. intros i Hi. apply seq_in in Hi.
  destruct (Hn i Hi) as (A0 & B0 & D0 & D1 & D2).
  destruct (Hc i) as (X1 & X2 & X3); [lia | ]. destruct (Hc (n + i)%nat) as (Y1 & Y2 & Y3); [lia | ]. pose proof (Hz i ltac:(lia)) as Z1. pose proof (Hz (n + i)%nat ltac:(lia)) as Z2.
  pose proof (fx_close _ _ q Hq Z1 X1 X2 X3) as F1. pose proof (fx_close _ _ q Hq Z2 Y1 Y2 Y3) as F2. pose proof (fx_size _ Z1) as G1. pose proof (fx_size _ Z2) as G2. unfold fa, fb.
  change fxR with fx in F1, F2. set (x := fx (nth i z 0)) in *. set (x' := fx (nth i z' 0)) in *. set (w := fx (nth (n + i) z 0)) in *. set (w' := fx (nth (n + i) z' 0)) in *.
  set (Lx := Rabs (ln (nth i z 0))) in *. set (Lw := Rabs (ln (nth (n + i) z 0))) in *.
  replace (den' i * (na i * x' + nb i * w') - den i * (na i * x + nb i * w)) with (den' i * (na i * (x' - x) + nb i * (w' - w)) + (den' i - den i) * (na i * x + nb i * w)) by ring.
  eapply Rle_trans; [apply Rabs_triang | ]. rewrite !Rabs_mult. apply Rplus_le_compat.
  - rewrite (Rabs_pos_eq (den' i)) by auto. replace (3 / 2 * (q - 1) * (den' i * (na i + nb i))) with (den' i * (na i * (3 / 2 * (q - 1)) + nb i * (3 / 2 * (q - 1)))) by ring. apply Rmult_le_compat_l; auto.
    eapply Rle_trans; [apply Rabs_triang | ]. rewrite !Rabs_mult, (Rabs_pos_eq (na i)), (Rabs_pos_eq (nb i)) by auto. apply Rplus_le_compat; apply Rmult_le_compat_l; auto.
  - replace (e * (den i * (na i * (Lx + 1 / 2) + nb i * (Lw + 1 / 2)))) with (e * den i * (na i * (Lx + 1 / 2) + nb i * (Lw + 1 / 2))) by ring. apply Rmult_le_compat; [apply Rabs_pos | apply Rabs_pos | auto | ].
    eapply Rle_trans; [apply Rabs_triang | ]. rewrite !Rabs_mult, (Rabs_pos_eq (na i)), (Rabs_pos_eq (nb i)) by auto. apply Rplus_le_compat; apply Rmult_le_compat_l; auto.
Qed.

(* ------------------------------------------------------------------ the contribution as a whole *)

(** Association strength as computed in f64 against the exact value. *)
Theorem C52_association_strength L (p : params (BNum L)) t v moles i j : libm_ok L -> sphere_state p t v moles ->
  let X := spheres p in let rho k := nth k moles 0 / v in let eta := Eta X t rho in let n := length (p_m p) in
  let st := @state_new (BNum L) t v moles in
  eta < 1 -> INR n + 30 <= 9 * 10 ^ 6 * (1 - eta) -> (i < n)%nat -> (j < n)%nat ->
  0 <= pair_energy p i j -> pair_energy p i j / t <= 10 ^ 12 ->
  let exact := pair_strength X (pair_volume p) (pair_energy p) t rho i j in
  Rabs (@association_strength (BNum L) p t (@seg_radius (BNum L) p t) (@assoc_n2 (BNum L) p t (s_rho st))
     (@nrecip (BNum L) (@nadd (BNum L) (@nopp (BNum L) (@packing (BNum L) p t (s_rho st))) (@nlit (BNum L) 1%Q))) (@n1 (BNum L)) i j - exact)
  <= (10 * (INR n + 30) / (1 - eta) + 7 * (1 + pair_energy p i j / t)) / 2 ^ 53 * Rabs exact.
Proof.
  intros HL S X rho eta n st He Hn Hi Hj Hk Hx exact. pose proof (strength_acc L HL p t v moles S He Hn i j Hi Hj Hk Hx) as A. apply acc_within in A. unfold within in A.
  eapply Rle_trans; [exact A | ]. right. unfold strength_error, u, exact, eta, n, rho, X. unfold Rdiv. ring.
Qed.

Section Contribution.
  Variables (L : libm) (lu : list (list R) -> list R -> option (list R)) (c : R) (p : params (BNum L)) (t v : R) (moles : list R).
  Hypothesis HL : libm_ok L.
  Hypothesis S : sphere_state p t v moles.
  Notation X := (spheres p).
  Notation n := (p_nassoc p).
  Notation N := (length (p_m p)).
  Let rho i := nth i moles 0 / v.
  Let eta := Eta X t rho.
  Let st := @state_new (BNum L) t v moles.
  Notation comp := (compb L p).
  Notation sa := (sab L p).
  Notation sb := (sbb L p).
  (** densities and strengths of the associating components, exact *)
  Let den i := rho (comp i).
  Let str i j := pair_strength X (pair_volume p) (pair_energy p) t rho (comp i) (comp j).
  Variable xmax : R.
  Hypothesis He : eta < 1.
  Hypothesis HN : INR N + 30 <= 9 * 10 ^ 6 * (1 - eta).
  Hypothesis Hlu : lu_stable c lu.
  Hypothesis Hc : 0 <= c.
  Hypothesis Hn : INR n <= 10 ^ 6.
  Hypothesis Hcomp : forall i, (i < n)%nat -> (comp i < N)%nat.
  Hypothesis Hpar : forall i j, (i < n)%nat -> (j < n)%nat -> 0 <= pair_volume p (comp i) (comp j) /\ 0 <= pair_energy p (comp i) (comp j) /\ pair_energy p (comp i) (comp j) / t <= xmax.
  Hypothesis Hxm : 0 <= xmax <= 10 ^ 12.
  Hypothesis Hsites : forall i, (i < n)%nat -> 0 <= sa i /\ 0 <= sb i.
  Let r := @seg_radius (BNum L) p t.
  Let n2 := @assoc_n2 (BNum L) p t (s_rho st).
  Let n3i := @nrecip (BNum L) (@nadd (BNum L) (@nopp (BNum L) (@packing (BNum L) p t (s_rho st))) (@nlit (BNum L) 1%Q)).
  Let strf := strb L p t r n2 n3i (@n1 (BNum L)).
  Let denf := denb L p (s_rho st).
  (** relative error of the coefficients of the law of mass action *)
  Definition law_error : R := strength_error N eta xmax + 3 * u.

  Lemma xt_le i j : (i < n)%nat -> (j < n)%nat -> 0 <= pair_energy p (comp i) (comp j) / t <= xmax.
  Proof. intros Hi Hj. destruct (Hpar i j Hi Hj) as (_ & A & B). split; auto. apply Rmult_le_pos; auto. left. apply Rinv_0_lt_compat, (ss_t _ _ _ _ S). Qed.
  Lemma str_nn i j : (i < n)%nat -> (j < n)%nat -> 0 <= str i j.
  Proof.
    intros Hi Hj. pose proof (xt_le i j Hi Hj) as [A _]. destruct (Hpar i j Hi Hj) as (K0 & _). unfold str, pair_strength.
    apply Rmult_le_pos; [apply Rmult_le_pos; [apply Rmult_le_pos | exact K0] | pose proof (exp_ineq1_le (pair_energy p (comp i) (comp j) / t)); lra].
    - left. apply (contact_pos L p t v moles S He _ _ (Hcomp i Hi) (Hcomp j Hj)).
    - apply (contact_diameter L p t v moles S _ _ (Hcomp i Hi) (Hcomp j Hj)).
  Qed.
  Lemma str_err_b : 0 <= strength_error N eta xmax <= 0.01.
  Proof.
    pose proof (sw_b L p t v moles He HN) as [W0 W1]. pose proof u_pos as U0. pose proof u_small as U1. fold rho in W0, W1. fold eta in W0, W1. unfold strength_error. set (w := (INR N + 30) * u / (1 - eta)) in *. clearbody w.
    assert (P : 0 <= u * (1 + xmax)) by (apply Rmult_le_pos; lra). assert (u * (1 + xmax) <= / 10 ^ 15 * (1.1 * 10 ^ 12)) by (apply Rmult_le_compat; lra). lra.
  Qed.
  Lemma str_close i j : (i < n)%nat -> (j < n)%nat -> acc (strength_error N eta xmax) (strf i j) (str i j).
  Proof.
    intros Hi Hj. destruct (Hpar i j Hi Hj) as (_ & A & B). eapply acc_weaken; [ | apply (strength_acc L HL p t v moles S He HN _ _ (Hcomp i Hi) (Hcomp j Hj) A); lra].
    fold rho. fold eta. unfold strength_error. pose proof u_pos. assert (7 * u * (1 + pair_energy p (comp i) (comp j) / t) <= 7 * u * (1 + xmax)) by (apply Rmult_le_compat_l; lra). lra.
  Qed.
  Lemma den_nn i : (i < n)%nat -> 0 <= den i.
  Proof. intros Hi. destruct (spar L p t v moles S _ (Hcomp i Hi)) as (_ & _ & A & _). exact A. Qed.
  Lemma den_close i : (i < n)%nat -> acc (2 * u) (denf i) (den i).
  Proof.
    intros Hi. pose proof (rho_rp L p t v moles S _ (Hcomp i Hi)) as A. rewrite ixb in A. apply (rp_small L p t v moles S He HN 1) in A; [ | lia]. simpl (INR 1) in A. eapply acc_weaken; [ | exact A]. pose proof u_pos. lra.
  Qed.
  Lemma acc_nn e x y : e <= 1 -> 0 <= y -> acc e x y -> 0 <= x.
  Proof. intros H Hy (d & Hd & ->). apply Rabs_le_inv in Hd. apply Rmult_le_pos; lra. Qed.
  Lemma strf_nn i j : (i < n)%nat -> (j < n)%nat -> 0 <= strf i j.
  Proof. intros Hi Hj. pose proof str_err_b. apply (acc_nn (strength_error N eta xmax) _ (str i j)); [lra | apply str_nn; auto | apply str_close; auto]. Qed.
  Lemma denf_nn i : (i < n)%nat -> 0 <= denf i.
  Proof. intros Hi. pose proof u_small. apply (acc_nn (2 * u) _ (den i)); [lra | apply den_nn; auto | apply den_close; auto]. Qed.
  Lemma coef_err i j : (i < n)%nat -> (j < n)%nat -> Rabs (denf j * strf i j - den j * str i j) <= law_error * (den j * str i j).
  Proof.
    intros Hi Hj. pose proof (acc_mul _ _ _ _ _ _ (den_close j Hj) (str_close i j Hi Hj)) as A. apply acc_within in A. unfold within in A. rewrite (Rabs_pos_eq (den j * str i j)) in A by (apply Rmult_le_pos; [apply den_nn | apply str_nn]; auto).
    eapply Rle_trans; [exact A | ]. apply Rmult_le_compat_r; [apply Rmult_le_pos; [apply den_nn | apply str_nn]; auto | ]. unfold law_error. pose proof str_err_b as [E0 E1]. pose proof u_pos. set (e := strength_error N eta xmax) in *. clearbody e.
    assert (2 * u * e <= 2 * u * 0.01) by (apply Rmult_le_compat_l; lra). lra.
  Qed.

  (** With several associating components: if the contribution is evaluated, the result differs from
      the exact energy, that of the fractions solving the law of mass action with the exact
      strengths and densities, by at most the bound below. *)
  Theorem C52_cross_contribution max_iter tol A : (0 < max_iter)%nat -> 0 < tol <= 0.19 -> @nltb (BNum L) (@nsum (BNum L) (s_rho st)) f_eps = false ->
    @a_cross_assoc (BNum L) lu max_iter tol p st = Some A ->
    exists k (y : nat -> list R), (k < max_iter)%nat /\ y O = repeat (rnd 0.2) (2 * n) /\
      forall s z, 0 < s -> (forall l, (l < 2 * n)%nat -> s <= nth l (y k) 0 /\ s <= nth l z 0) -> (c + eqn_error n) * (/ s + 1 / 2) <= 1 / 10 ->
        site_law n str sa sb den z ->
        let q := / (1 - (11.6 * tol ^ 2 + 20 * c * tol + 9.6 * eqn_error n) / s) in
        let q' := / (1 - law_error / s) in
        (11.6 * tol ^ 2 + 20 * c * tol + 9.6 * eqn_error n) / s < 1 -> law_error / s < 1 ->
        (forall l, (l < 2 * n)%nat -> 0 < nth l (y (Datatypes.S k)) 0 /\ nth l (y (Datatypes.S k)) 0 <= q * q' * nth l z 0 /\ nth l z 0 <= q * q' * nth l (y (Datatypes.S k)) 0) /\
        Rabs (A - v * site_energy n sa sb den z)
        <= v * (1.51 * ((q - 1) + (q' - 1)) * (Sum i < n, den i * (sa i + sb i))
           + (INR n + 13) / 2 ^ 53 * (Sum i < n, den i * (sa i * (Rabs (ln (fa z i)) + 2 * q + q') + sb i * (Rabs (ln (fb n z i)) + 2 * q + q')))).
  Proof.
    intros Hm Ht Hd H. unfold a_cross_assoc in H. cbn [s_t s_v s_rho st state_new] in H. change (map (fun m => @ndiv (BNum L) m v) moles) with (s_rho st) in H.
    fold r n2 n3i in H. destruct (@cross_association (BNum L) lu p t (s_rho st) r n2 n3i (@n1 (BNum L)) max_iter tol None) as [[a | er] x0'] eqn:E; cbn [fst] in H; [ | discriminate]. injection H as <-.
    pose proof u_pos as U0. pose proof u_small as U1. pose proof (ss_v _ _ _ _ S) as Pv.
    assert (Hnn : forall i, (i < n)%nat -> 0 <= sa i /\ 0 <= sb i /\ 0 <= denf i) by (intros i Hi; destruct (Hsites i Hi); repeat split; auto; apply denf_nn; auto).
    destruct (C52_cross_association L lu c p t (s_rho st) r n2 n3i (@n1 (BNum L)) HL Hlu Hc Hn strf_nn Hnn max_iter tol None a x0' Hm Ht Hd) as (k & y & Hk & Y0 & _ & B); auto.
    { unfold first_guess_b. apply repeat_length. }
    exists k, y. split; [exact Hk | ]. split; [exact Y0 | ]. intros s z Hs Hx Hes Hz q q' Th Th'.
    destruct (C14_exists_unique n strf sa sb denf strf_nn Hnn) as (z' & Hz' & Z1' & _).
    destruct (B s z' Hs (fun l Hl => proj1 (Hx l Hl)) Hes Hz' Th) as (Q1 & Q2 & Q3). fold q in Q1, Q2, Q3. clear B.
    assert (E0 : 0 <= law_error) by (unfold law_error; pose proof str_err_b; lra).
    assert (T0 : 0 <= law_error / s) by (apply Rmult_le_pos; [auto | left; apply Rinv_0_lt_compat; auto]).
    assert (Q1' : 1 <= q') by (unfold q'; rewrite <- Rinv_1 at 1; apply Rinv_le_contravar; lra).
    assert (Pb : forall l, (l < n + n)%nat -> 0 < nth l z' 0 /\ nth l z' 0 <= q' * nth l z 0 /\ nth l z 0 <= q' * nth l z' 0).
    { intros l Hl. apply (law_perturb n sa sb Hsites str strf den denf law_error s z z'); auto.
      - intros i j Hi Hj. split; [apply Rmult_le_pos; [apply den_nn | apply str_nn]; auto | ]. split; [apply Rmult_le_pos; [apply denf_nn | apply strf_nn]; auto | apply coef_err; auto].
      - intros m Hm'. apply Hx. lia. }
    assert (Z1 : forall l, (l < n + n)%nat -> 0 < nth l z 0 <= 1).
    { intros l Hl. pose proof (law_solves n sa sb str den z Hz) as Sz. split; [apply Sz; auto | ]. apply (solves_le1 (n + n) (coef n sa sb str den)) with (x := fun l => nth l z 0); auto.
      apply coef_nn; [exact Hsites | ]. intros i j Hi Hj. apply Rmult_le_pos; [apply den_nn | apply str_nn]; auto. }
    split.
    - intros l Hl. destruct (Q2 l Hl) as (A1 & A2 & A3). destruct (Pb l ltac:(lia)) as (B1 & B2 & B3). split; [exact A1 | ]. rewrite !Rmult_assoc. split.
      + eapply Rle_trans; [exact A2 | ]. apply Rmult_le_compat_l; lra.
      + eapply Rle_trans; [exact B3 | ]. rewrite <- Rmult_assoc, (Rmult_comm q q'), Rmult_assoc. apply Rmult_le_compat_l; lra.
    - set (S1 := Sum i < n, den i * (sa i + sb i)). set (S2 := Sum i < n, den i * (sa i * (Rabs (ln (fa z i)) + 2 * q + q') + sb i * (Rabs (ln (fb n z i)) + 2 * q + q'))).
      set (F := site_energy n sa sb den z). set (F' := site_energy n sa sb denf z') in *.
      assert (Dd : forall i, (i < n)%nat -> denf i <= (1 + 2 * u) * den i /\ Rabs (denf i - den i) <= 2 * u * den i).
      { intros i Hi. pose proof (den_close i Hi) as C. apply acc_within in C. unfold within in C. rewrite (Rabs_pos_eq (den i)) in C by (apply den_nn; auto). split; auto. apply Rabs_le_inv in C. lra. }
      assert (S1p : 0 <= S1). { apply rsum_nonneg. intros i Hi. apply seq_in in Hi. destruct (Hsites i Hi). apply Rmult_le_pos; [apply den_nn; auto | lra]. }
      assert (S1' : (Sum i < n, denf i * (sa i + sb i)) <= (1 + 2 * u) * S1).
      { unfold S1. rewrite <- rsum_scal. apply rsum_le. intros i Hi. apply seq_in in Hi. destruct (Hsites i Hi). destruct (Dd i Hi) as [C _]. rewrite <- Rmult_assoc. apply Rmult_le_compat_r; lra. }
      assert (Mp : forall i, (i < n)%nat -> 0 <= sa i * (Rabs (ln (fa z i)) + 2 * q + q') + sb i * (Rabs (ln (fb n z i)) + 2 * q + q')).
      { intros i Hi. destruct (Hsites i Hi). pose proof (Rabs_pos (ln (fa z i))). pose proof (Rabs_pos (ln (fb n z i))). apply Rplus_le_le_0_compat; apply Rmult_le_pos; auto; lra. }
      assert (S2p : 0 <= S2). { apply rsum_nonneg. intros i Hi. apply seq_in in Hi. apply Rmult_le_pos; [apply den_nn; auto | auto]. }
      assert (S2' : (Sum i < n, denf i * (sa i * (Rabs (ln (fa z' i)) + 2 * q) + sb i * (Rabs (ln (fb n z' i)) + 2 * q))) <= (1 + 2 * u) * S2).
      { unfold S2. rewrite <- rsum_scal. apply rsum_le. intros i Hi. apply seq_in in Hi. destruct (Hsites i Hi) as [A0 B0]. destruct (Dd i Hi) as [C _]. rewrite <- Rmult_assoc.
        apply Rle_trans with (denf i * (sa i * (Rabs (ln (fa z i)) + 2 * q + q') + sb i * (Rabs (ln (fb n z i)) + 2 * q + q'))); [ | apply Rmult_le_compat_r; auto].
        apply Rmult_le_compat_l; [apply denf_nn; auto | ]. unfold fa, fb. destruct (Pb i ltac:(lia)) as (B1 & B2 & B3). destruct (Pb (n + i)%nat ltac:(lia)) as (C1 & C2 & C3).
        pose proof (ln_ratio _ _ q' B1 (proj1 (Z1 i ltac:(lia))) Q1' B2 B3). pose proof (ln_ratio _ _ q' C1 (proj1 (Z1 (n + i)%nat ltac:(lia))) Q1' C2 C3).
        apply Rplus_le_compat; apply Rmult_le_compat_l; auto; lra. }
      assert (S3' : (Sum i < n, den i * (sa i * (Rabs (ln (fa z i)) + 1 / 2) + sb i * (Rabs (ln (fb n z i)) + 1 / 2))) <= S2).
      { apply rsum_le. intros i Hi. apply seq_in in Hi. destruct (Hsites i Hi) as [A0 B0]. apply Rmult_le_compat_l; [apply den_nn; auto | ]. apply Rplus_le_compat; apply Rmult_le_compat_l; auto; lra. }
      assert (Fs : Rabs F <= S2).
      { eapply Rle_trans; [ | exact S3']. unfold F, site_energy. eapply Rle_trans; [apply rsum_abs | ]. apply rsum_le. intros i Hi. apply seq_in in Hi. destruct (Hsites i Hi) as [A0 B0]. rewrite Rabs_mult, (Rabs_pos_eq (den i)) by (apply den_nn; auto). apply Rmult_le_compat_l; [apply den_nn; auto | ].
        eapply Rle_trans; [apply Rabs_triang | ]. rewrite !Rabs_mult, (Rabs_pos_eq (sa i)), (Rabs_pos_eq (sb i)) by auto. apply Rplus_le_compat; apply Rmult_le_compat_l; auto; apply fx_size; apply Z1; lia. }
      pose proof (site_energy_close n sa sb den denf z z' q' (2 * u) Q1') as C. fold F F' in C.
      assert (C' : Rabs (F' - F) <= 3 / 2 * (q' - 1) * ((1 + 2 * u) * S1) + 2 * u * S2).
      { eapply Rle_trans; [apply C; auto | ].
        - intros i Hi. destruct (Hsites i Hi). repeat split; auto; [apply den_nn; auto | apply denf_nn; auto | apply Dd; auto].
        - apply Rplus_le_compat; apply Rmult_le_compat_l; auto; lra. }
      clear C. assert (NN : 0 <= INR n) by apply pos_INR.
      assert (D' : Rabs (a - F') <= 3 / 2 * (q - 1) * ((1 + 2 * u) * S1) + (INR n + 9) * u * ((1 + 2 * u) * S2)).
      { eapply Rle_trans; [exact Q3 | ]. unfold Rdiv at 3. fold u. apply Rplus_le_compat; apply Rmult_le_compat_l; auto; [lra | apply Rmult_le_pos; lra]. }
      assert (G : Rabs (a - F) <= 3 / 2 * (1 + 2 * u) * ((q - 1) + (q' - 1)) * S1 + ((INR n + 9) * (1 + 2 * u) + 2) * u * S2).
      { replace (a - F) with ((a - F') + (F' - F)) by ring. eapply Rle_trans; [apply Rabs_triang | ]. lra. }
      assert (Rv : Rabs (@nmul (BNum L) a v - v * F) <= v * ((1 + u) * Rabs (a - F) + u * Rabs F)).
      { cbn [nmul BNum]. destruct (rnd_err (a * v)) as (dd & Hdd & ->). replace (a * v * (1 + dd) - v * F) with (v * ((a - F) * (1 + dd) + F * dd)) by ring. rewrite Rabs_mult, (Rabs_pos_eq v) by lra. apply Rmult_le_compat_l; [lra | ].
        eapply Rle_trans; [apply Rabs_triang | ]. rewrite !Rabs_mult. rewrite (Rmult_comm (Rabs (a - F))), (Rmult_comm (Rabs F)). apply Rabs_le_inv in Hdd as Hd2. rewrite (Rabs_pos_eq (1 + dd)) by lra. apply Rplus_le_compat; apply Rmult_le_compat_r; try apply Rabs_pos; lra. }
      eapply Rle_trans; [exact Rv | ]. apply Rmult_le_compat_l; [lra | ]. unfold Rdiv. fold u.
      apply Rle_trans with ((1 + u) * (3 / 2 * (1 + 2 * u) * ((q - 1) + (q' - 1)) * S1 + ((INR n + 9) * (1 + 2 * u) + 2) * u * S2) + u * S2).
      { apply Rplus_le_compat; apply Rmult_le_compat_l; lra. }
      set (Qs := (q - 1 + (q' - 1)) * S1). assert (Qp : 0 <= Qs) by (apply Rmult_le_pos; [lra | auto]).
      replace ((1 + u) * (3 / 2 * (1 + 2 * u) * ((q - 1) + (q' - 1)) * S1 + ((INR n + 9) * (1 + 2 * u) + 2) * u * S2) + u * S2) with ((1 + u) * (3 / 2 * (1 + 2 * u)) * Qs + ((1 + u) * ((INR n + 9) * (1 + 2 * u) + 2) + 1) * (u * S2)) by (unfold Qs; ring).
      replace (1.51 * (q - 1 + (q' - 1)) * S1) with (1.51 * Qs) by (unfold Qs; ring). rewrite (Rmult_assoc (INR n + 13)).
      assert (uu : u * u <= / 10 ^ 15 * u) by (apply Rmult_le_compat_r; lra). assert (nu : INR n * u <= 10 ^ 6 * / 10 ^ 15) by (apply Rmult_le_compat; lra). assert (nuu : INR n * u * u <= 10 ^ 6 * / 10 ^ 15 * u) by (apply Rmult_le_compat_r; lra).
      apply Rplus_le_compat; apply Rmult_le_compat_r; [auto | lra | apply Rmult_le_pos; lra | lra].
  Qed.
End Contribution.

(* ------------------------------------------------------------------ acceptance of a point close to the root *)

Lemma Sum_pick n m (v : nat -> R) c : (m < n)%nat -> (Sum l < n, (if Nat.eqb m l then c else 0) * v l) = c * v m.
Proof.
  induction n as [ | n IH]; [lia | ]. intros Hm. rewrite Sum_S. destruct (Nat.eq_dec m n) as [-> | Ne].
  - rewrite Nat.eqb_refl. rewrite rsum_zero; [ring | ]. intros l Hl. apply seq_in in Hl. destruct (Nat.eqb_spec n l); [lia | ring].
  - rewrite IH by lia. destruct (Nat.eqb_spec m n); [lia | ring].
Qed.

Section Accept.
  Variables (L : libm) (n : nat) (delta : list (list R)) (na nb rho : list R).
  Hypothesis Cd : forall i j, (i < n)%nat -> (j < n)%nat -> 0 <= nth j (nth i delta nil) 0.
  Hypothesis Cn : forall j, (j < n)%nat -> 0 <= nth j na 0 /\ 0 <= nth j nb 0 /\ 0 <= nth j rho 0.
  Variables (lu : list (list R) -> list R -> option (list R)) (tol s dl : R).
  Hypothesis Hlu : forall N h g, square N h -> length g = N -> nonsingular N h -> lu h g <> None.
  Hypothesis Hs : 0 < s.
  Hypothesis Hdl : 0 <= dl <= 1.
  Hypothesis Hn : INR n <= 10 ^ 6.
  Let e := eqn_error n.
  Let D := Dm n delta na nb rho.
  Hypothesis Hes : e * (/ s + 1) <= 1 / 10.
  Hypothesis Ht : 2.3 * INR n * (dl + e / s) < tol.
  Theorem accept_near x : length x = (n + n)%nat -> (forall k, (k < n + n)%nat -> s <= nth k x 0) ->
    (forall k, (k < n + n)%nat -> Rabs (/ nth k x 0 - (1 + row (n + n) D (fun l => nth l x 0) k)) <= dl) ->
    exists x', @newton_step (BNum L) lu n delta na nb rho tol x = Ok (x', true).
  Proof.
    intros Lz Hz Hr. assert (Px : forall k, (k < n + n)%nat -> 0 < nth k x 0) by (intros k Hk; specialize (Hz k Hk); lra).
    pose proof (ca_hess_square (K := BNum L) n delta na nb rho x) as Sq. pose proof (ca_grad_length (K := BNum L) n delta na nb rho x) as Lg.
    pose proof (grad_k L n delta na nb rho Cd Cn x Lz Px) as HG. pose proof (hess_k L n delta na nb rho Cd Cn x Lz Px) as HH.
    unfold newton_step. set (g := @ca_grad (BNum L) n delta na nb rho x) in *. set (hs := @ca_hess (BNum L) n delta na nb rho x) in *.
    pose proof (e_u n) as Eu. fold e in Eu. pose proof u_pos as U0. pose proof u_small as U1. pose proof (Hn5 n Hn) as N5. assert (He : 0 < e) by lra.
    assert (S0 : 0 < / s) by (apply Rinv_0_lt_compat; auto). assert (Es : 0 < e * / s) by (apply Rmult_lt_0_compat; lra).
    assert (HD : forall k l, (k < n + n)%nat -> (l < n + n)%nat -> 0 <= D k l) by (apply Dm_nonneg; [intros i j Hi Hj; rewrite ix2_r; auto | auto]).
    fold D in HG, HH. set (B := fun k => 1 + row (n + n) D (fun l => nth l x 0) k).
    assert (Ix : forall k, (k < n + n)%nat -> 0 < / nth k x 0 <= / s) by (intros k Hk; split; [apply Rinv_0_lt_compat; auto | apply Rinv_le_contravar; auto]).
    assert (Bb : forall k, (k < n + n)%nat -> 1 <= B k <= / nth k x 0 + dl).
    { intros k Hk. specialize (Hr k Hk). fold (B k) in Hr. apply Rabs_le_inv in Hr. split; [ | lra]. unfold B. assert (0 <= row (n + n) D (fun l => nth l x 0) k); [ | lra]. apply row_nonneg; auto. intros l Hl. left. auto. }
    assert (Ns : nonsingular (n + n) hs).
    { intros v Hv k0 Hk0. destruct (exists_max (n + n) (fun k => Rabs (v k) / nth k x 0)) as (m & Hm & Mx); [lia | ]. set (Y := Rabs (v m) / nth m x 0) in *. pose proof (Px m Hm) as Pm.
      assert (Y0 : 0 <= Y) by (apply Rmult_le_pos; [apply Rabs_pos | left; apply Rinv_0_lt_compat; auto]).
      assert (Vl : forall l, (l < n + n)%nat -> Rabs (v l) <= Y * nth l x 0).
      { intros l Hl. specialize (Mx l Hl). cbv beta in Mx. pose proof (Px l Hl). apply (Rmult_le_reg_r (/ nth l x 0)); [apply Rinv_0_lt_compat; auto | ]. rewrite Rmult_assoc, Rinv_r by lra. unfold Rdiv in Mx. lra. }
      assert (Vm : Rabs (v m) = Y * nth m x 0) by (unfold Y; field; lra).
      set (h := fun l => (if Nat.eqb m l then B m * / nth m x 0 else 0) + D m l).
      assert (Hp : forall l, (l < n + n)%nat -> 0 <= h l). { intros l Hl. unfold h. pose proof (HD m l Hm Hl). destruct (Nat.eqb m l); [ | lra]. destruct (Bb m Hm). destruct (Ix m Hm). assert (0 <= B m * / nth m x 0) by (apply Rmult_le_pos; lra). lra. }
      assert (Hh : forall l, (l < n + n)%nat -> Rabs (- nth l (nth m hs nil) 0 - h l) <= e * h l).
      { intros l Hl. destruct (HH m l Hm Hl) as (H0 & E0 & R0). rewrite E0, Ropp_involutive. apply (rp_eqn n (n + 5)); auto. }
      set (rw := Sum l < n + n, D m l * Rabs (v l)).
      assert (R1 : rw <= Y * (B m - 1)).
      { unfold rw, B, row. replace (1 + rsum (seq 0 (n + n)) (fun l => D m l * nth l x 0) - 1) with (rsum (seq 0 (n + n)) (fun l => D m l * nth l x 0)) by ring. rewrite <- rsum_scal. apply rsum_le. intros l Hl. apply seq_in in Hl.
        replace (Y * (D m l * nth l x 0)) with (D m l * (Y * nth l x 0)) by ring. apply Rmult_le_compat_l; auto. }
      assert (Sh : (Sum l < n + n, h l * v l) = B m * / nth m x 0 * v m + Sum l < n + n, D m l * v l).
      { unfold h. rewrite (rsum_ext (seq 0 (n + n)) _ (fun l => (if Nat.eqb m l then B m * / nth m x 0 else 0) * v l + D m l * v l)) by (intros; ring). rewrite rsum_plus. f_equal. apply Sum_pick; auto. }
      assert (Sa : (Sum l < n + n, h l * Rabs (v l)) = B m * / nth m x 0 * Rabs (v m) + rw).
      { unfold h, rw. rewrite (rsum_ext (seq 0 (n + n)) _ (fun l => (if Nat.eqb m l then B m * / nth m x 0 else 0) * Rabs (v l) + D m l * Rabs (v l))) by (intros; ring). rewrite rsum_plus. f_equal. apply (Sum_pick (n + n) m (fun l => Rabs (v l)) (B m * / nth m x 0)); auto. }
      assert (Ez : Rabs (Sum l < n + n, h l * v l) <= e * (Sum l < n + n, h l * Rabs (v l))).
      { pose proof (Hv m Hm) as V. unfold mat_vec in V. replace (Sum l < n + n, h l * v l) with (Sum l < n + n, - ((- nth l (nth m hs nil) 0 - h l) * v l)).
        2: { rewrite (rsum_ext (seq 0 (n + n)) _ (fun l => @ix2 RNum hs m l * v l + h l * v l)) by (intros l _; change (@ix2 RNum hs m l) with (nth l (nth m hs nil) 0); clear; generalize (nth l (nth m hs nil) 0); intros w; ring). rewrite rsum_plus, V. rewrite Rplus_0_l. reflexivity. }
        eapply Rle_trans; [apply rsum_abs | ]. rewrite <- rsum_scal. apply rsum_le. intros l Hl. apply seq_in in Hl. rewrite Rabs_Ropp, Rabs_mult, <- Rmult_assoc. apply Rmult_le_compat_r; [apply Rabs_pos | apply Hh; auto]. }
      rewrite Sh, Sa, Vm in Ez. assert (Qm : B m * / nth m x 0 * (Y * nth m x 0) = B m * Y) by (field; lra). rewrite Qm in Ez.
      assert (Rr : Rabs (Sum l < n + n, D m l * v l) <= rw). { eapply Rle_trans; [apply rsum_abs | ]. apply rsum_le. intros l Hl. apply seq_in in Hl. rewrite Rabs_mult, (Rabs_pos_eq (D m l)) by auto. lra. }
      assert (Lh : Rabs (B m * / nth m x 0 * v m) = B m * Y). { destruct (Bb m Hm) as [B1 _]. destruct (Ix m Hm) as [I1 _]. rewrite !Rabs_mult, (Rabs_pos_eq (B m)), (Rabs_pos_eq (/ nth m x 0)), Vm by lra. field. lra. }
      assert (Fin : B m * Y <= e * (B m * Y + rw) + rw).
      { rewrite <- Lh at 1. replace (B m * / nth m x 0 * v m) with ((B m * / nth m x 0 * v m + Sum l < n + n, D m l * v l) + - (Sum l < n + n, D m l * v l)) by ring. eapply Rle_trans; [apply Rabs_triang | ]. rewrite Rabs_Ropp. lra. }
      assert (e * rw <= e * (Y * (B m - 1))) by (apply Rmult_le_compat_l; lra). destruct (Bb m Hm) as [B1 B2]. destruct (Ix m Hm) as [_ I2].
      assert (Eb : e * B m <= 1 / 10) by (apply Rle_trans with (e * (/ s + 1)); [apply Rmult_le_compat_l; lra | auto]).
      assert (Yz : Y * (1 - 2 * (e * B m)) <= 0). { assert (0 <= e * Y) by (apply Rmult_le_pos; lra). replace (Y * (1 - 2 * (e * B m))) with (Y - 2 * (e * (B m * Y))) by ring. replace (e * (Y * (B m - 1))) with (e * (B m * Y) - e * Y) in * by ring. lra. }
      assert (Y = 0). { destruct (Rle_lt_or_eq_dec 0 Y Y0) as [Yp | <-]; auto. exfalso. assert (0 < Y * (1 - 2 * (e * B m))) by (apply Rmult_lt_0_compat; lra). lra. }
      specialize (Vl k0 Hk0). rewrite H0, Rmult_0_l in Vl. pose proof (Rabs_pos (v k0)). destruct (Req_dec (v k0) 0) as [ | Nz]; auto. apply Rabs_pos_lt in Nz. lra. }
    pose proof (Hlu (n + n)%nat hs g Sq Lg Ns) as HL. destruct (lu hs g) as [dx | ]; [ | congruence]. eexists. apply (f_equal Ok). apply (f_equal2 pair); [reflexivity | ].
    cbn [nltb BNum]. apply Rltb_true. change (length (g : list R) = (n + n)%nat) in Lg.
    assert (Gb : forall k, (k < length (g : list R))%nat -> Rabs (nth k g 0) <= 1.12 * (dl + e / s)).
    { rewrite Lg. intros k Hk. destruct (HG k Hk) as [E1 R1]. rewrite E1. cbv beta. fold (B k) in R1. destruct (Ix k Hk) as [I0 Is]. destruct (Bb k Hk) as [B1 B2].
      apply (rp_eqn n (n + 4)) in R1; [ | auto | lia | lra]. fold e in R1. specialize (Hr k Hk). fold (B k) in Hr. set (b := Bhat L n delta na nb rho x k) in *. set (w := / nth k x 0) in *. set (bk := B k) in *. clearbody b w bk.
      destruct (rnd_err w) as (d & Hd & ->). destruct (rnd_err (w * (1 + d) - b)) as (d2 & Hd2 & ->).
      assert (A1 : Rabs (w * (1 + d) - b) <= 1.1 * (dl + e / s)).
      { replace (w * (1 + d) - b) with (w * d + ((w - bk) + - (b - bk))) by ring. eapply Rle_trans; [apply Rabs_triang | ]. rewrite Rabs_mult, (Rabs_pos_eq w) by lra.
        assert (w * Rabs d <= / s * (0.1 * e)) by (apply Rmult_le_compat; try apply Rabs_pos; lra).
        assert (Rabs (w - bk + - (b - bk)) <= dl + e * bk) by (eapply Rle_trans; [apply Rabs_triang | ]; rewrite Rabs_Ropp; lra).
        assert (e * bk <= e * (/ s + dl)) by (apply Rmult_le_compat_l; lra). assert (e * dl <= 0.1 * dl) by (apply Rmult_le_compat_r; lra). unfold Rdiv. lra. }
      rewrite Rabs_mult. apply Rabs_le_inv in Hd2. rewrite (Rabs_pos_eq (1 + d2)) by lra.
      apply Rle_trans with (1.1 * (dl + e / s) * 1.01); [apply Rmult_le_compat; [apply Rabs_pos | lra | auto | lra] | ]. unfold Rdiv. lra. }
    eapply Rle_lt_trans; [ | exact Ht]. eapply Rle_trans; [apply (norm_b_upper L g (1.12 * (dl + e / s))); [rewrite Lg, plus_INR; lra | exact Gb | unfold Rdiv; lra] | ].
    rewrite Lg, plus_INR. pose proof (pos_INR n). assert (0 <= INR n * (dl + e / s)) by (apply Rmult_le_pos; unfold Rdiv; lra).
    replace (1.01 * ((INR n + INR n) * (1.12 * (dl + e / s)))) with (1.01 * 2.24 * (INR n * (dl + e / s))) by lra. replace (2.3 * INR n * (dl + e / s)) with (2.3 * (INR n * (dl + e / s))) by ring. lra.
  Qed.
End Accept.

Section Accepted.
  Variables (L : libm) (lu : list (list R) -> list R -> option (list R)) (p : params (BNum L)) (t : R) (rho r : list R) (n2 n3i xi : R).
  Notation n := (p_nassoc p).
  Notation strb := (strb L p t r n2 n3i xi).
  Notation sab := (sab L p).
  Notation sbb := (sbb L p).
  Notation denb := (denb L p rho).
  Hypothesis Hlu : forall N h g, square N h -> length g = N -> nonsingular N h -> lu h g <> None.
  Hypothesis Hn : INR n <= 10 ^ 6.
  Hypothesis Hstr : forall i j, (i < n)%nat -> (j < n)%nat -> 0 <= strb i j.
  Hypothesis Hnn : forall i, (i < n)%nat -> 0 <= sab i /\ 0 <= sbb i /\ 0 <= denb i.
  (** the start is accepted if it solves the law of mass action up to [dl] *)
  Theorem C52_cross_accept max_iter tol s dl x0 : (0 < max_iter)%nat -> @nltb (BNum L) (@nsum (BNum L) rho) f_eps = false ->
    let z := first_guess_b L p x0 in
    length z = (2 * n)%nat -> 0 < s -> (forall l, (l < 2 * n)%nat -> s <= nth l z 0) -> 0 <= dl <= 1 ->
    (forall i, (i < n)%nat -> Rabs (/ fa z i - (1 + bonds_a n strb sbb denb z i)) <= dl /\ Rabs (/ fb n z i - (1 + bonds_b n strb sab denb z i)) <= dl) ->
    eqn_error n * (/ s + 1) <= 1 / 10 -> 2.3 * INR n * (dl + eqn_error n / s) < tol ->
    exists a x', @cross_association (BNum L) lu p t rho r n2 n3i xi max_iter tol x0 = (Ok a, x').
  Proof.
    intros Hm Hd z Lz Hs Hx Hdl Hr Hes Ht. unfold cross_association. rewrite Hd. cbv zeta.
    replace (map (map (@nre (BNum L))) (ca_delta p t r n2 n3i xi)) with (ca_delta p t r n2 n3i xi).
    2: { symmetry. rewrite <- (map_id (ca_delta p t r n2 n3i xi)) at 2. apply map_ext. intros w. apply map_id. }
    replace (map (@nre (BNum L)) (ca_sel p rho)) with (ca_sel p rho) by (symmetry; apply map_id).
    set (delta := ca_delta p t r n2 n3i xi) in *. set (na := ca_sel p (p_na p)) in *. set (nb := ca_sel p (p_nb p)) in *. set (rhoa := ca_sel p rho) in *.
    assert (Es : forall i j, (i < n)%nat -> (j < n)%nat -> nth j (nth i delta nil) 0 = strb i j).
    { intros i j Hi Hj. unfold delta, ca_delta. rewrite <- (ix2_b L). rewrite ix2_mk2 by auto. reflexivity. }
    assert (Ea : forall i, (i < n)%nat -> nth i na 0 = sab i) by (intros i Hi; unfold na, ca_sel; rewrite <- (ix_b L), ix_mk1 by auto; rewrite ix_b; reflexivity).
    assert (Eb : forall i, (i < n)%nat -> nth i nb 0 = sbb i) by (intros i Hi; unfold nb, ca_sel; rewrite <- (ix_b L), ix_mk1 by auto; rewrite ix_b; reflexivity).
    assert (Er : forall i, (i < n)%nat -> nth i rhoa 0 = denb i) by (intros i Hi; unfold rhoa, ca_sel; rewrite <- (ix_b L), ix_mk1 by auto; rewrite ix_b; reflexivity).
    assert (Cd : forall i j, (i < n)%nat -> (j < n)%nat -> 0 <= nth j (nth i delta nil) 0) by (intros i j Hi Hj; rewrite Es by auto; auto).
    assert (Cn : forall j, (j < n)%nat -> 0 <= nth j na 0 /\ 0 <= nth j nb 0 /\ 0 <= nth j rhoa 0) by (intros j Hj; rewrite Ea, Eb, Er by auto; auto).
    destruct (accept_near L n delta na nb rhoa Cd Cn lu tol s dl Hlu Hs Hdl Hn Hes Ht z) as [x' E]; [lia | intros k Hk; apply Hx; lia | | ].
    { apply (from_halves n (fun k => Rabs (/ nth k z 0 - (1 + row (n + n) (Dm n delta na nb rhoa) (fun l => nth l z 0) k)) <= dl)). intros i Hi. destruct (Hr i Hi) as [R1 R2].
      fold (sites n delta na nb rhoa). rewrite sites_a, sites_b by auto.
      replace (bonds_a n (fun i j => @ix2 RNum delta i j) (fun i => @ix RNum nb i) (fun i => @ix RNum rhoa i) z i) with (bonds_a n strb sbb denb z i).
      2: { apply Sum_ext. intros j Hj. rewrite !ix_r, ix2_r, Es, Eb, Er by auto. reflexivity. }
      replace (bonds_b n (fun i j => @ix2 RNum delta i j) (fun i => @ix RNum na i) (fun i => @ix RNum rhoa i) z i) with (bonds_b n strb sab denb z i).
      2: { apply Sum_ext. intros j Hj. rewrite !ix_r, ix2_r, Es, Ea, Er by auto. reflexivity. }
      split; [exact R1 | exact R2]. }
    destruct max_iter as [ | m]; [lia | ]. cbn [newton_loop].
    match goal with |- context [newton_step lu n delta na nb rhoa tol ?w] => replace w with z end.
    2: { unfold z, first_guess_b. destruct x0; reflexivity. }
    rewrite E. cbn [newton_deriv nderiv BNum]. eexists _, _. reflexivity.
  Qed.
End Accepted.

(** one component of hard spheres with one site of each kind, whose strength is close to 20 *)
Definition near_assoc (k : R) : params BE := @mkParams BE nil [1] [1] [0] nil nil nil nil nil nil [1] [1] [[k]] [[1 / 2]] nil nil nil nil
  0 0 1 nil nil [0%nat] None None None nil nil None.
Lemma near_state k : sphere_state (near_assoc k) 1 1 [1].
Proof.
  constructor; try lra.
  - cbn. auto.
  - cbn [near_assoc p_m p_sigma p_epsilon_k length]. intros [ | i] Hi; [ | lia]. cbn. lra.
  - exists 0%nat. cbn. split; [lia | lra].
Qed.
Lemma near_eta k : Eta (spheres (near_assoc k)) 1 (fun i => nth i [1] 0 / 1) <= 1 / 2.
Proof.
  unfold Eta, Zeta, Di. cbn [spheres near_assoc p_m p_sigma p_epsilon_k length N M Sg Ep seq rsum nth]. replace (-3 * 0 / 1) with 0 by lra. rewrite exp_0.
  pose proof PI_4. pose proof PI_RGT_0. replace (1 / 1 * 1 * (1 * (1 - 0.12 * 1)) ^ 3 + 0) with 0.681472 by lra. lra.
Qed.
Example C52_contribution_case : exists k A, 0 < k /\
  @a_cross_assoc BE gauss_f64 1 (/ 10 ^ 10) (near_assoc k) (@state_new BE 1 1 [1]) = Some A /\ Rabs (A - 2 * (ln 0.2 + 0.4)) <= / 10 ^ 10.
Proof.
  pose proof exact_libm_ok as LO. pose proof u_pos as U0. pose proof u_small as U1.
  set (rho := fun i => nth i [1] 0 / 1). set (g := Gij (spheres (near_assoc 0)) 1 rho 0 0 * Sij (spheres (near_assoc 0)) 0 0 ^ 3 * (exp (1 / 2 / 1) - 1)).
  assert (He : forall k, Eta (spheres (near_assoc k)) 1 rho < 1) by (intros k; pose proof (near_eta k) as E; fold rho in E; lra).
  assert (Gp : 0 < g).
  { unfold g. assert (0 < exp (1 / 2 / 1) - 1) by (pose proof (exp_ineq1_le (1 / 2 / 1)); lra). apply Rmult_lt_0_compat; [apply Rmult_lt_0_compat | auto].
    - apply (contact_pos exact_libm (near_assoc 0) 1 1 [1] (near_state 0) (He 0) 0 0); cbn; lia.
    - unfold Sij. cbn [spheres near_assoc p_sigma Sg nth]. replace ((1 + 1) / 2) with 1 by lra. lra. }
  set (k := 20 / g). set (p := near_assoc k).
  assert (Str : pair_strength (spheres p) (pair_volume p) (pair_energy p) 1 rho 0 0 = 20).
  { unfold pair_strength, pair_volume, pair_energy. cbn [p near_assoc p_kappa_aibj p_epsilon_k_aibj nth].
    change (Gij (spheres p) 1 rho 0 0) with (Gij (spheres (near_assoc 0)) 1 rho 0 0). change (Sij (spheres p) 0 0) with (Sij (spheres (near_assoc 0)) 0 0).
    transitivity (g * k); [unfold g; ring | unfold k; field; lra]. }
  assert (Kp : 0 < k) by (apply Rdiv_lt_0_compat; lra).
  assert (Sp : sphere_state p 1 1 [1]) by apply near_state.
  assert (HN : INR (length (p_m p)) + 30 <= 9 * 10 ^ 6 * (1 - Eta (spheres p) 1 rho)) by (pose proof (near_eta k) as E; fold rho in E; fold p in E; cbn [p near_assoc p_m length INR]; lra).
  assert (Hcomp : forall i, (i < p_nassoc p)%nat -> (compb exact_libm p i < length (p_m p))%nat) by (cbn; intros [ | i] Hi; cbn; lia).
  assert (Hpar : forall i j, (i < p_nassoc p)%nat -> (j < p_nassoc p)%nat -> 0 <= pair_volume p (compb exact_libm p i) (compb exact_libm p j) /\ 0 <= pair_energy p (compb exact_libm p i) (compb exact_libm p j) /\ pair_energy p (compb exact_libm p i) (compb exact_libm p j) / 1 <= 1 / 2).
  { cbn [p near_assoc p_nassoc]. intros [ | i] [ | j] Hi Hj; try lia. unfold pair_volume, pair_energy, compb, p. cbn [near_assoc p_assoc_comp p_kappa_aibj p_epsilon_k_aibj nth]. repeat split; lra. }
  assert (Hsites : forall i, (i < p_nassoc p)%nat -> 0 <= sab exact_libm p i /\ 0 <= sbb exact_libm p i) by (cbn [p near_assoc p_nassoc]; intros [ | i] Hi; [ | lia]; unfold sab, sbb, compb; cbn; split; lra).
  assert (Hn : INR (p_nassoc p) <= 10 ^ 6) by (cbn; lra).
  set (st := @state_new BE 1 1 [1]).
  set (r := @seg_radius BE p 1). set (n2 := @assoc_n2 BE p 1 (s_rho st)).
  set (n3i := @nrecip BE (@nadd BE (@nopp BE (@packing BE p 1 (s_rho st))) (@nlit BE 1%Q))).
  pose proof (strf_nn exact_libm p 1 1 [1] LO Sp (1 / 2) (He k) HN Hcomp Hpar ltac:(lra)) as Sn. fold r st in Sn. fold n2 n3i in Sn.
  assert (Sc : acc (strength_error (length (p_m p)) (Eta (spheres p) 1 rho) (1 / 2)) (strb exact_libm p 1 r n2 n3i (@n1 BE) 0 0) (pair_strength (spheres p) (pair_volume p) (pair_energy p) 1 rho 0 0))
    by exact (str_close exact_libm p 1 1 [1] LO Sp (1 / 2) (He k) HN Hcomp Hpar ltac:(lra) 0%nat 0%nat ltac:(cbn; lia) ltac:(cbn; lia)).
  rewrite Str in Sc.
  assert (Rs : s_rho st = [1]) by (unfold st, state_new; cbn [s_rho map]; f_equal; cbn [ndiv BE BNum]; replace (1 / 1) with 1 by lra; apply rnd_1).
  assert (V0 : sab exact_libm p 0 = 1 /\ sbb exact_libm p 0 = 1 /\ denb exact_libm p (s_rho st) 0 = 1) by (unfold sab, sbb, denb, compb; rewrite Rs; cbn; auto). destruct V0 as (Va & Vb & Vr).
  assert (Se : strength_error (length (p_m p)) (Eta (spheres p) 1 rho) (1 / 2) <= 700 * u).
  { pose proof (near_eta k) as E. fold rho in E. fold p in E. unfold strength_error. cbn [p near_assoc p_m length INR]. set (et := Eta _ _ _) in *. assert (I : / (1 - et) <= 2) by (replace 2 with (/ (1 / 2)) by lra; apply Rinv_le_contravar; lra).
    unfold Rdiv at 1. assert ((1 + 30) * u * / (1 - et) <= (1 + 30) * u * 2) by (apply Rmult_le_compat_l; lra). lra. }
  assert (Hnn : forall i, (i < p_nassoc p)%nat -> 0 <= sab exact_libm p i /\ 0 <= sbb exact_libm p i /\ 0 <= denb exact_libm p (s_rho st) i).
  { intros i Hi. destruct (Hsites i Hi). repeat split; auto. change (i < 1)%nat in Hi. destruct i as [ | i]; [ | lia]. lra. }
  assert (Hd : @nltb BE (@nsum BE (s_rho st)) f_eps = false).
  { rewrite Rs. unfold BE. rewrite nsum_bsum. cbn [bsum fold_left]. rewrite Rplus_0_l, rnd_1. cbn [nltb BNum]. apply Rltb_false. unfold f_eps. cbn [nlit BNum]. rewrite <- rnd_1. apply rnd_le. unfold Rlit. cbn. lra. }
  assert (X0 : exists e0, Rabs e0 <= u /\ rnd 0.2 = 0.2 * (1 + e0)) by apply rnd_err. destruct X0 as (e0 & E0 & Ex). apply Rabs_le_inv in E0.
  assert (Xi : Rabs (/ rnd 0.2 - 5) <= 6 * u).
  { rewrite Ex. replace (/ (0.2 * (1 + e0)) - 5) with (- (5 * e0) * / (1 + e0)) by (replace 0.2 with (/ 5) by lra; field; lra). rewrite Rabs_mult, Rabs_Ropp. assert (I : 0 < / (1 + e0) <= 1.1) by (split; [apply Rinv_0_lt_compat; lra | replace 1.1 with (/ (/ 1.1)) by lra; apply Rinv_le_contravar; lra]).
    rewrite (Rabs_pos_eq (/ (1 + e0))) by lra. apply Rle_trans with (5 * u * 1.1); [ | lra]. apply Rmult_le_compat; try apply Rabs_pos; try lra. apply Rabs_le. lra. }
  assert (Ee : eqn_error 1 = 12 * u) by (unfold eqn_error; cbn; lra).
  set (d := strb exact_libm p 1 r n2 n3i (@n1 BE)) in *.
  assert (Dx : Rabs (d 0%nat 0%nat * rnd 0.2 - 4) <= 3000 * u).
  { destruct Sc as (dd & Hdd & Sd). change (d 0%nat 0%nat = 20 * (1 + dd)) in Sd. rewrite Sd, Ex. apply Rabs_le_inv in Hdd.
    replace (20 * (1 + dd) * (0.2 * (1 + e0)) - 4) with (4 * (dd * (1 + e0)) + 4 * e0) by lra. assert (M : Rabs (dd * (1 + e0)) <= 700 * u * 1.01) by (rewrite Rabs_mult; apply Rmult_le_compat; try apply Rabs_pos; apply Rabs_le; lra).
    apply Rabs_le_inv in M. apply Rabs_le. lra. }
  destruct (C52_cross_accept exact_libm gauss_f64 p 1 (s_rho st) r n2 n3i (@n1 BE) gauss_f64_complete Hn Sn Hnn 1 (/ 10 ^ 10) 0.19 (/ 10 ^ 11) None) as (a & x' & E); auto; try lra.
  { change (first_guess_b exact_libm p None) with [rnd 0.2; rnd 0.2]. change (2 * p_nassoc p)%nat with 2%nat. intros [ | [ | l]] Hl; try lia; cbn [nth]; rewrite Ex; lra. }
  { change (first_guess_b exact_libm p None) with [rnd 0.2; rnd 0.2]. change (p_nassoc p) with 1%nat. intros [ | i] Hi; [ | lia]. unfold fa, fb, bonds_a, bonds_b. cbn [seq rsum]. unfold fa, fb. cbn [Nat.add nth]. rewrite Va, Vb, Vr. fold d.
    apply Rabs_le_inv in Xi. apply Rabs_le_inv in Dx. split; apply Rabs_le; lra. }
  { change (p_nassoc p) with 1%nat. rewrite Ee. lra. }
  { change (p_nassoc p) with 1%nat. rewrite Ee. cbn [INR]. lra. }
  assert (EA : @a_cross_assoc BE gauss_f64 1 (/ 10 ^ 10) p st = Some (@nmul BE a 1)) by exact (f_equal (fun w => match fst w with Ok a => Some (@nmul BE a 1) | Err _ => None end) E).
  exists k, (@nmul BE a 1). split; [exact Kp | ]. split; [exact EA | ].
  destruct (C52_cross_contribution exact_libm gauss_f64 (2 * u) p 1 1 [1] LO Sp (1 / 2) (He k) HN gauss_f64_stable ltac:(lra) Hn Hcomp Hpar ltac:(lra) Hsites 1 (/ 10 ^ 10) (@nmul BE a 1)) as (kk & y & Hk & Y0 & B); [lia | split; lra | exact Hd | exact EA | ].
  assert (K0 : kk = O) by lia. subst kk. set (A := @nmul BE a 1) in *. change R in (type of A). clearbody A.
  assert (Le : 0 <= law_error exact_libm p 1 1 [1] (1 / 2) <= 703 * u).
  { assert (E1 : law_error exact_libm p 1 1 [1] (1 / 2) = strength_error (length (p_m p)) (Eta (spheres p) 1 rho) (1 / 2) + 3 * u) by reflexivity. rewrite E1. split; [ | lra].
    apply Rplus_le_le_0_compat; [ | lra]. unfold strength_error. apply Rplus_le_le_0_compat; [ | lra]. apply Rmult_le_pos; [lra | ]. pose proof (He k) as E2. fold p in E2. apply Rmult_le_pos; [ | left; apply Rinv_0_lt_compat; lra]. apply Rmult_le_pos; [cbn; lra | lra]. }
  destruct (B 0.19 [0.2; 0.2]) as [_ B2]; clear B; try lra.
  { rewrite Y0. change (2 * p_nassoc p)%nat with 2%nat. intros [ | [ | l]] Hl; try lia; cbn [repeat nth]; rewrite Ex; lra. }
  { change (p_nassoc p) with 1%nat. rewrite Ee. lra. }
  { split; [reflexivity | ]. split; [intros [ | [ | l]] Hl; cbn in Hl |- *; try lia; lra | ]. change (p_nassoc p) with 1%nat. intros [ | i] Hi; [ | lia]. unfold fa, fb, bonds_a, bonds_b. cbn [seq rsum]. unfold fa, fb. cbn [Nat.add nth].
    repeat match goal with |- context [pair_strength ?a ?b ?c ?d ?e ?f ?g] => replace (pair_strength a b c d e f g) with 20 by (symmetry; exact Str) end.
    change (compb exact_libm p 0) with 0%nat. unfold BE in Va, Vb. rewrite Va, Vb. cbn [nth]. split; lra. }
  { change (p_nassoc p) with 1%nat. rewrite Ee. apply Rmult_lt_reg_r with 0.19; lra. }
  assert (Q : forall e, 0 <= e <= 4000 * u -> 1 <= / (1 - e) <= 1 + 4100 * u).
  { intros e Hee. split; [rewrite <- Rinv_1 at 1; apply Rinv_le_contravar; lra | ]. apply Rmult_le_reg_r with (1 - e); [lra | ]. rewrite Rinv_l by lra. assert (4100 * u * e <= 4100 * u * / 10 ^ 3) by (apply Rmult_le_compat_l; lra). lra. }
  change (p_nassoc p) with 1%nat in B2. set (q := / (1 - (11.6 * (/ 10 ^ 10) ^ 2 + 20 * (2 * u) * / 10 ^ 10 + 9.6 * eqn_error 1) / 0.19)) in *. set (q' := / (1 - law_error exact_libm p 1 1 [1] (1 / 2) / 0.19)) in *.
  assert (Q1 : 1 <= q <= 1 + 2 * / 10 ^ 12).
  { unfold q. rewrite Ee. set (e := (11.6 * (/ 10 ^ 10) ^ 2 + 20 * (2 * u) * / 10 ^ 10 + 9.6 * (12 * u)) / 0.19). assert (He0 : 0 <= e <= / 10 ^ 12) by (unfold e; lra). clearbody e.
    split; [rewrite <- Rinv_1 at 1; apply Rinv_le_contravar; lra | ]. apply Rmult_le_reg_r with (1 - e); [lra | ]. rewrite Rinv_l by lra. assert (2 * / 10 ^ 12 * e <= 2 * / 10 ^ 12 * / 10 ^ 3) by (apply Rmult_le_compat_l; lra). lra. }
  assert (Q2 : 1 <= q' <= 1 + 4100 * u) by (apply Q; lra). clearbody q q'.
  unfold site_energy in B2. cbn [seq rsum] in B2. unfold fa, fb in B2. cbn [Nat.add nth INR] in B2. unfold fx in B2. change (compb exact_libm p 0) with 0%nat in B2. unfold BE in Va, Vb. rewrite Va, Vb in B2. cbn [nth] in B2.
  assert (Ll : Rabs (ln 0.2) <= 4).
  { assert (ln 0.2 < 0) by (rewrite <- ln_1; apply ln_increasing; lra). rewrite Rabs_left by auto. replace 0.2 with (/ 5) by lra. rewrite ln_Rinv by lra. rewrite Ropp_involutive. pose proof (exp_ineq1_le 4). rewrite <- (ln_exp 4). destruct (Req_dec 5 (exp 4)) as [-> | ]; [lra | ]. left. apply ln_increasing; lra. }
  set (l := ln 0.2) in *. clearbody l. set (al := Rabs l) in *. clearbody al. match type of B2 with Rabs ?w <= _ => replace (A - 2 * (l + 0.4)) with w by lra end.
  eapply Rle_trans; [exact B2 | ]. lra.
Qed.
Print Assumptions C52_association_strength.
Print Assumptions C52_cross_contribution.
Print Assumptions C52_cross_accept.
