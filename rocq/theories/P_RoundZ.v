(** C52: rounding of the association contribution of one associating component with equal numbers of
    sites of both kinds. *)
From Coq Require Import ZArith QArith Reals Lra Lia List Bool Arith.
From Flocq Require Import Core Relative.
From Verif Require Import Num RNum RSum Tables M_Params M_Eos Spec F_Params P_Basic F_NewtonR BNum F_Round F_Round2 F_Round3 P_Round P_RoundH P_RoundP P_RoundX P_RoundY.
Import ListNotations.
Local Open Scope R_scope.
Set Bullet Behavior "Strict Subproofs".
Notation length := List.length.

Section Fractions.
  Variables (L : libm) (d n X : R).
  Let x := @assoc_site_frac_ab (BNum L) d n n.
  (** the second fraction, from the balance of bonds *)
  Let y := rnd (rnd (rnd (x - 1) * rnd (n / n)) + 1).
  Hypothesis Hd : 0 < d.
  Hypothesis Hn : 1 <= n <= 16.
  Hypothesis HX : unbonded (d * n) X.
  Lemma unbonded_le1 : 0 < X <= 1.
  Proof. destruct HX as [P E]. assert (0 < d * n) by (apply Rmult_lt_0_compat; lra). split; auto. assert (0 <= X * (d * n * X)) by (apply Rmult_le_pos; [ | apply Rmult_le_pos]; lra). lra. Qed.
  Lemma first_fraction : Rabs (x - X) <= (9 + Rmin (/ (d * n)) (2 ^ 26) + 2 / X) * u * X.
  Proof.
    pose proof u_pos as U0. destruct unbonded_le1 as [X0 X1]. assert (Q0 : 0 < d * n) by (apply Rmult_lt_0_compat; lra). assert (I0 : 0 < / (d * n)) by (apply Rinv_0_lt_compat; auto).
    assert (P26 : 0 < / 2 ^ 26) by lra.
    destruct (Rle_lt_dec d (/ 2 ^ 26)) as [Lo | Hi].
    - pose proof (C52_low_density L d n X ltac:(lra) ltac:(lra) HX) as A. fold x in A. eapply Rle_trans; [exact A | ]. replace (/ 2 ^ 52) with (2 * u) by (unfold u; lra).
      replace ((9 + Rmin (/ (d * n)) (2 ^ 26) + 2 / X) * u * X) with ((9 + Rmin (/ (d * n)) (2 ^ 26)) * u * X + 2 * u) by (field; lra).
      assert (0 <= Rmin (/ (d * n)) (2 ^ 26)) by (apply Rmin_glb; lra). assert (0 <= (9 + Rmin (/ (d * n)) (2 ^ 26)) * u * X) by (repeat apply Rmult_le_pos; lra). lra.
    - pose proof (C52_equal_sites L d n X Hi ltac:(lra) HX) as A. fold x in A. eapply Rle_trans; [exact A | ].
      assert (M : Rmin (/ (d * n)) (2 ^ 26) = / (d * n)).
      { apply Rmin_left. replace (2 ^ 26) with (/ / 2 ^ 26) by (rewrite Rinv_inv; auto). apply Rinv_le_contravar; [lra | ]. apply Rle_trans with (d * 1); [lra | ]. apply Rmult_le_compat_l; lra. }
      rewrite M. change ((9 + / (d * n)) / 2 ^ 53) with ((9 + / (d * n)) * u). assert (0 <= 2 / X * u * X) by (replace (2 / X * u * X) with (2 * u) by (field; lra); lra). lra.
  Qed.
  Lemma second_fraction : Rabs (y - x) <= 2.1 * u.
  Proof.
    pose proof u_pos as U0. pose proof u_small as U1. pose proof (C52_fraction_range L d n Hd Hn) as R. fold x in R.
    assert (E : y = rnd (rnd (x - 1) + 1)).
    { unfold y. replace (n / n) with 1 by (field; lra). rewrite rnd_1, Rmult_1_r, (rnd_id (rnd (x - 1))) by apply f64_rnd. reflexivity. }
    rewrite E. destruct (rnd_err (x - 1)) as (a & Ha & ->). destruct (rnd_err ((x - 1) * (1 + a) + 1)) as (b & Hb & ->).
    replace (((x - 1) * (1 + a) + 1) * (1 + b) - x) with ((x - 1) * a + x * b + (x - 1) * (a * b)) by ring.
    assert (A1 : Rabs ((x - 1) * a) <= 1 * u) by (rewrite Rabs_mult; apply Rmult_le_compat; try apply Rabs_pos; auto; apply Rabs_le; lra).
    assert (A2 : Rabs (x * b) <= 1 * u) by (rewrite Rabs_mult; apply Rmult_le_compat; try apply Rabs_pos; auto; apply Rabs_le; lra).
    assert (A3 : Rabs ((x - 1) * (a * b)) <= 1 * (u * u)) by (rewrite !Rabs_mult; apply Rmult_le_compat; try apply Rabs_pos; [apply Rmult_le_pos; apply Rabs_pos | apply Rabs_le; lra | apply Rmult_le_compat; auto; apply Rabs_pos]).
    assert (u * u <= u * / 10 ^ 15) by (apply Rmult_le_compat_l; lra).
    apply Rabs_le_inv in A1. apply Rabs_le_inv in A2. apply Rabs_le_inv in A3. apply Rabs_le. lra.
  Qed.
  Lemma both_fractions : let e := (9 + Rmin (/ (d * n)) (2 ^ 26) + 5 / X) * u in Rabs (x - X) <= e * X /\ Rabs (y - X) <= e * X.
  Proof.
    pose proof u_pos as U0. destruct unbonded_le1 as [X0 X1]. pose proof first_fraction as A. pose proof second_fraction as B. cbv zeta.
    set (w := Rmin _ _) in *. clearbody w.
    replace ((9 + w + 2 / X) * u * X) with ((9 + w) * u * X + 2 * u) in A by (field; lra). replace ((9 + w + 5 / X) * u * X) with ((9 + w) * u * X + 5 * u) by (field; lra). split; [lra | ].
    replace (y - X) with ((y - x) + (x - X)) by ring. eapply Rle_trans; [apply Rabs_triang | ]. lra.
  Qed.
End Fractions.

(** Association contribution of one associating component in f64. *)
Theorem C52_pure_contribution L (p : params (BNum L)) t v moles n X : libm_ok L -> sphere_state p t v moles ->
  let a := nth 0 (p_assoc_comp p) 0%nat in let rho k := nth k moles 0 / v in let eta := Eta (spheres p) t rho in let N := length (p_m p) in
  eta < 1 -> INR N + 30 <= 9 * 10 ^ 6 * (1 - eta) -> (a < N)%nat -> nth a (p_na p) 0 = n -> nth a (p_nb p) 0 = n -> 1 <= n <= 16 ->
  0 <= pair_energy p a a -> pair_energy p a a / t <= 10 ^ 12 ->
  let q := pair_strength (spheres p) (pair_volume p) (pair_energy p) t rho a a * rho a * n in
  0 < q -> 0 < X -> X * (1 + q * X) = 1 -> 400 / 2 ^ 53 <= X ->
  let e := 2 * (strength_error N eta (pair_energy p a a / t) + 4 / 2 ^ 53) + (10 + 1.1 * Rmin (/ q) (2 ^ 26) + 6 / X) / 2 ^ 53 in
  Rabs (@a_assoc (BNum L) p (@state_new (BNum L) t v moles) - nth a moles 0 * (2 * n * (ln X - X / 2 + 1 / 2)))
  <= nth a moles 0 * (2 * n * (1.6 * e + 9 / 2 ^ 53 * (Rabs (ln X) + 1.1))).
Proof.
  intros HL S a rho eta N He HN Ha Hna Hnb Hn Hk Hx q Hq X0 EX HXs e. pose proof u_pos as U0. pose proof u_small as U1.
  change (4 / 2 ^ 53) with (4 * u) in e. change (400 / 2 ^ 53) with (400 * u) in HXs. change (9 / 2 ^ 53) with (9 * u).
  set (st := @state_new (BNum L) t v moles).
  pose proof (strength_acc L HL p t v moles S He HN a a Ha Ha Hk Hx) as A1. fold rho eta N in A1.
  match type of A1 with acc _ ?s _ => set (str := s) in * end. set (str0 := pair_strength _ _ _ _ _ _ _) in *.
  set (se := strength_error N eta (pair_energy p a a / t)) in *.
  assert (Se : 0 <= se <= 0.01).
  { pose proof (sw_b L p t v moles He HN) as [W0 W1]. fold rho in W0, W1. fold eta in W0, W1. fold N in W0, W1. unfold se, strength_error. assert (T0 : 0 <= pair_energy p a a / t) by (apply Rmult_le_pos; auto; left; apply Rinv_0_lt_compat, (ss_t _ _ _ _ S)).
    set (w := (INR N + 30) * u / (1 - eta)) in *. clearbody w. set (xm := pair_energy p a a / t) in *. clearbody xm.
    assert (P : 0 <= u * (1 + xm)) by (apply Rmult_le_pos; lra). assert (u * (1 + xm) <= / 10 ^ 15 * (1.1 * 10 ^ 12)) by (apply Rmult_le_compat; lra). lra. }
  pose proof (rho_rp L p t v moles S a Ha) as A2. rewrite ixb in A2. apply (rp_small L p t v moles S He HN 1) in A2; [ | lia]. simpl (INR 1) in A2.
  fold st in A2. fold (rho a) in A2. set (rf := nth a (s_rho st) 0) in *.
  assert (A3 : acc (2 * u) rf (rho a)) by (eapply acc_weaken; [ | exact A2]; lra).
  (* the argument of the fractions *)
  set (d := rnd (str * rf)).
  assert (Ad : acc (se + 4 * u) d (str0 * rho a)).
  { pose proof (acc_rnd _ _ _ (acc_mul _ _ _ _ _ _ A1 A3)) as B. eapply acc_weaken; [ | exact B].
    assert (se * (2 * u) <= 0.01 * (2 * u)) by (apply Rmult_le_compat_r; lra). assert ((se + 2 * u + se * (2 * u)) * u <= 0.02 * u) by (apply Rmult_le_compat_r; lra). lra. }
  assert (Q1 : 0 < str0 * rho a) by (unfold q in Hq; apply (Rmult_lt_reg_r n); lra).
  assert (Aq : acc (se + 4 * u) (d * n) q) by (destruct Ad as (h & Hh & ->); exists h; split; auto; unfold q; ring).
  destruct Ad as (h & Hh & Ed). assert (Bh : - 0.011 <= h <= 0.011) by (apply Rabs_le_inv in Hh; lra).
  assert (D0 : 0 < d) by (rewrite Ed; apply Rmult_lt_0_compat; lra).
  assert (Q0 : 0 < d * n) by (apply Rmult_lt_0_compat; lra).
  (* exact fraction for the computed argument *)
  set (Y := (sqrt (1 + 4 * (d * n)) - 1) / (2 * (d * n))).
  assert (HY : unbonded (d * n) Y).
  { destruct (root_bound (d * n) Q0) as [R1 _]. assert (RR : sqrt (1 + 4 * (d * n)) * sqrt (1 + 4 * (d * n)) = 1 + 4 * (d * n)) by (apply sqrt_sqrt; lra).
    set (r := sqrt _) in *. set (Q := d * n) in *. clearbody r Q. split; [unfold Y; apply Rdiv_lt_0_compat; lra | ]. unfold Y. field_simplify; [ | lra]. apply (Rmult_eq_reg_r (4 * Q)); [ | lra]. field_simplify; [ | lra]. nra. }
  assert (C : acc (2 * (se + 4 * u)) Y X) by (apply (unbonded_cond q (d * n) X Y); auto; [lra | split; auto]).
  destruct C as (c & Hc & EY). assert (Bc : - 0.023 <= c <= 0.023) by (apply Rabs_le_inv in Hc; lra).
  destruct (both_fractions L d n Y D0 Hn HY) as [F1 F2]. set (x := @assoc_site_frac_ab (BNum L) d n n) in *. set (y := rnd (rnd (rnd (x - 1) * rnd (n / n)) + 1)) in *.
  (* errors in terms of the exact quantities *)
  assert (W : Rmin (/ (d * n)) (2 ^ 26) <= 1.02 * Rmin (/ q) (2 ^ 26)).
  { assert (I : / (d * n) <= 1.02 * / q).
    { rewrite Ed. replace (str0 * rho a * (1 + h) * n) with (q * (1 + h)) by (unfold q; ring). rewrite Rinv_mult. rewrite Rmult_comm. apply Rmult_le_compat_r; [left; apply Rinv_0_lt_compat; auto | ].
      apply Rle_trans with (/ 0.989); [apply Rinv_le_contravar; lra | lra]. }
    assert (0 < / q) by (apply Rinv_0_lt_compat; auto). unfold Rmin. destruct (Rle_dec (/ (d * n)) (2 ^ 26)), (Rle_dec (/ q) (2 ^ 26)); lra. }
  assert (W0 : 0 <= Rmin (/ q) (2 ^ 26) <= 2 ^ 26) by (split; [apply Rmin_glb; [left; apply Rinv_0_lt_compat; auto | lra] | apply Rmin_r]).
  assert (IY : 5 / Y <= 5.15 / X).
  { rewrite EY. unfold Rdiv. rewrite Rinv_mult. assert (/ (1 + c) <= 1.03) by (apply Rle_trans with (/ 0.977); [apply Rinv_le_contravar; lra | lra]). assert (0 < / X) by (apply Rinv_0_lt_compat; auto).
    assert (/ X * / (1 + c) <= / X * 1.03) by (apply Rmult_le_compat_l; lra). lra. }
  assert (IX : 0 < / X /\ / X * u <= / 400).
  { split; [apply Rinv_0_lt_compat; auto | ]. apply (Rmult_le_reg_l (400 * X)); [lra | ]. replace (400 * X * (/ X * u)) with (400 * u) by (field; lra). lra. }
  destruct IX as [IX0 IX].
  assert (W1 : 0 <= Rmin (/ (d * n)) (2 ^ 26)) by (apply Rmin_glb; [left; apply Rinv_0_lt_compat; auto | lra]).
  set (w' := Rmin (/ (d * n)) (2 ^ 26)) in *. set (w := Rmin (/ q) (2 ^ 26)) in *. clearbody w w'.
  assert (Ee : e = 2 * (se + 4 * u) + (10 + 1.1 * w + 6 * / X) * u) by reflexivity. clearbody e.
  assert (Be : 0 <= e <= 0.05).
  { rewrite Ee. assert (0 <= w * u <= 2 ^ 26 * / 10 ^ 15) by (split; [apply Rmult_le_pos; lra | apply Rmult_le_compat; lra]). assert (0 <= / X * u) by (apply Rmult_le_pos; lra). lra. }
  assert (K : forall z, Rabs (z - Y) <= (9 + w' + 5 / Y) * u * Y -> Rabs (z - X) <= e * X).
  { intros z Hz. replace (z - X) with ((z - Y) + X * c) by (rewrite EY; ring). eapply Rle_trans; [apply Rabs_triang | ]. rewrite Rabs_mult, (Rabs_pos_eq X) by lra.
    assert (Z1 : (9 + w' + 5 / Y) * u * Y <= (9 + 1.02 * w + 5.15 / X) * u * (X * 1.023)).
    { apply Rmult_le_compat; [ | destruct HY; lra | apply Rmult_le_compat_r; lra | rewrite EY; apply Rmult_le_compat_l; lra].
      destruct HY as [PY _]. apply Rmult_le_pos; [ | lra]. assert (0 < / Y) by (apply Rinv_0_lt_compat; auto). lra. }
    assert (Z2 : X * Rabs c <= X * (2 * (se + 4 * u))) by (apply Rmult_le_compat_l; lra).
    apply Rle_trans with (X * ((9 + 1.02 * w + 5.15 / X) * u * 1.023 + 2 * (se + 4 * u))); [lra | ]. rewrite (Rmult_comm e). apply Rmult_le_compat_l; [lra | ]. rewrite Ee.
    assert (0 <= w * u) by (apply Rmult_le_pos; lra). assert (0 <= / X * u) by (apply Rmult_le_pos; lra). lra. }
  apply K in F1. apply K in F2. clear K.
  (* energies of the fractions *)
  assert (X1 : X <= 1) by (assert (0 <= X * (q * X)) by (apply Rmult_le_pos; [ | apply Rmult_le_pos]; lra); lra).
  set (g := / (1 - e)). assert (G : 1 <= g <= 1 + 1.06 * e).
  { unfold g. split; [rewrite <- Rinv_1 at 1; apply Rinv_le_contravar; lra | ]. apply (Rmult_le_reg_r (1 - e)); [lra | ]. rewrite Rinv_l by lra. assert (1.06 * e * e <= 1.06 * e * 0.05) by (apply Rmult_le_compat_l; lra). lra. }
  assert (B : forall z, Rabs (z - X) <= e * X -> 0 < z /\ z <= 1.05 /\ Rabs (fxR z - fxR X) <= 1.6 * e /\ site_magnitude z <= Rabs (ln X) + 1.1).
  { intros z Hz. apply Rabs_le_inv in Hz. assert (e * X <= 0.05 * X) by (apply Rmult_le_compat_r; lra). assert (Pz : 0 < z) by lra.
    assert (Z1 : z <= g * X) by (apply Rle_trans with ((1 + e) * X); [lra | apply Rmult_le_compat_r; [lra | ]; unfold g; apply (Rmult_le_reg_r (1 - e)); [lra | ]; rewrite Rinv_l by lra; assert (0 <= e * e) by (apply Rmult_le_pos; lra); lra]).
    assert (Z2 : X <= g * z) by (apply (Rmult_le_reg_l (1 - e)); [lra | ]; unfold g; rewrite <- Rmult_assoc, Rinv_r by lra; lra).
    pose proof (fx_close z X g (proj1 G) ltac:(lra) Pz Z1 Z2) as Fc. pose proof (ln_ratio z X g Pz X0 (proj1 G) Z1 Z2) as Fl.
    repeat split; auto; [lra | lra | unfold site_magnitude; lra]. }
  destruct (B x F1) as (Px & Bx & Cx & Mx). destruct (B y F2) as (Py & By & Cy & My). clear B.
  (* the sum *)
  assert (Em : s_moles st = moles) by reflexivity.
  assert (Nn : 0 <= nth a moles 0) by apply (ss_par _ _ _ _ S a Ha).
  assert (E : @a_assoc (BNum L) p st = rnd (nth a moles 0 * rnd (rnd (@f_assoc (BNum L) x * n) + rnd (@f_assoc (BNum L) y * n)))).
  { unfold a_assoc. cbv zeta.
    assert (Va : @ix (BNum L) (p_na p) a = n) by (rewrite ix_b; exact Hna). assert (Vb : @ix (BNum L) (p_nb p) a = n) by (rewrite ix_b; exact Hnb).
    change (ixn (p_assoc_comp p) 0) with a. rewrite Va, Vb.
    assert (Hb : @nltb (BNum L) (@n0 (BNum L)) n = true) by (cbn [nltb BNum]; apply Rltb_true; change (@n0 (BNum L)) with (rnd 0); rewrite rnd_0; lra).
    rewrite Hb. rewrite !ix_b.
    assert (Ey : rnd (rnd (rnd (x - rnd 1) * rnd (n / n)) + rnd 1) = y) by (rewrite !rnd_1; reflexivity). rewrite <- Ey. clear. reflexivity. }
  rewrite E. assert (D : er1 8 (rnd (nth a moles 0 * rnd (rnd (@f_assoc (BNum L) x * n) + rnd (@f_assoc (BNum L) y * n)))) (nth a moles 0 * (fxR x * n + fxR y * n)) (nth a moles 0 * (site_magnitude x * n + site_magnitude y * n))).
  { apply er1_rnd. apply (er1_mul 0 _ _ _ 7); [apply er1_c; auto | ]. apply er1_rnd, er1_add; apply er1_rnd; apply (er1_mul 5 _ _ _ 0); try (apply er1_c; lra); apply f_assoc_er; auto. }
  apply er1_final in D; [ | lia | simpl; lra]. change ((INR 8 + 1) / 2 ^ 53) with ((INR 8 + 1) * u) in D. replace (INR 8 + 1) with 9 in D by (simpl; lra).
  set (m := nth a moles 0) in *. clearbody m. change (ln X - X / 2 + 1 / 2) with (fxR X). set (A := rnd (m * _)) in *. clearbody A.
  set (lx := Rabs (ln X)) in *. clearbody lx. set (f0 := fxR X) in *. set (f1 := fxR x) in *. set (f2 := fxR y) in *. clearbody f0 f1 f2. set (mx := site_magnitude x) in *. set (my := site_magnitude y) in *. clearbody mx my.
  replace (A - m * (2 * n * f0)) with ((A - m * (f1 * n + f2 * n)) + m * (n * (f1 - f0) + n * (f2 - f0))) by ring.
  eapply Rle_trans; [apply Rabs_triang | ]. rewrite Rabs_mult, (Rabs_pos_eq m) by auto.
  assert (T1 : m * Rabs (n * (f1 - f0) + n * (f2 - f0)) <= m * (2 * n * (1.6 * e))).
  { apply Rmult_le_compat_l; auto. eapply Rle_trans; [apply Rabs_triang | ]. rewrite !Rabs_mult, (Rabs_pos_eq n) by lra. assert (n * Rabs (f1 - f0) <= n * (1.6 * e)) by (apply Rmult_le_compat_l; lra). assert (n * Rabs (f2 - f0) <= n * (1.6 * e)) by (apply Rmult_le_compat_l; lra). lra. }
  assert (T2 : m * (mx * n + my * n) <= m * (2 * n * (lx + 1.1))).
  { apply Rmult_le_compat_l; auto. assert (mx * n <= (lx + 1.1) * n) by (apply Rmult_le_compat_r; lra). assert (my * n <= (lx + 1.1) * n) by (apply Rmult_le_compat_r; lra). lra. }
  assert (T3 : 9 * u * (m * (mx * n + my * n)) <= 9 * u * (m * (2 * n * (lx + 1.1)))) by (apply Rmult_le_compat_l; lra).
  replace (m * (2 * n * (1.6 * e + 9 * u * (lx + 1.1)))) with (m * (2 * n * (1.6 * e)) + 9 * u * (m * (2 * n * (lx + 1.1)))) by ring. lra.
Qed.

Example C52_pure_case : exists k, 0 < k /\ Rabs (@a_assoc BE (near_assoc k) (@state_new BE 1 1 [1]) - 2 * (ln 0.2 + 0.4)) <= / 10 ^ 11.
Proof.
  pose proof exact_libm_ok as LO. pose proof u_pos as U0. pose proof u_small as U1.
  set (rho := fun i => nth i [1] 0 / 1). set (g := Gij (spheres (near_assoc 0)) 1 rho 0 0 * Sij (spheres (near_assoc 0)) 0 0 ^ 3 * (exp (1 / 2 / 1) - 1)).
  assert (He : forall k, Eta (spheres (near_assoc k)) 1 rho < 1) by (intros k; pose proof (near_eta k) as E; fold rho in E; lra).
  assert (Gp : 0 < g).
  { unfold g. assert (0 < exp (1 / 2 / 1) - 1) by (pose proof (exp_ineq1_le (1 / 2 / 1)); lra). apply Rmult_lt_0_compat; [apply Rmult_lt_0_compat | auto].
    - apply (contact_pos exact_libm (near_assoc 0) 1 1 [1] (near_state 0) (He 0) 0 0); cbn; lia.
    - unfold Sij. cbn [spheres near_assoc p_sigma Sg nth]. replace ((1 + 1) / 2) with 1 by lra. lra. }
  set (k := 20 / g). set (p := near_assoc k). assert (Kp : 0 < k) by (apply Rdiv_lt_0_compat; lra). exists k. split; [exact Kp | ]. fold p.
  assert (Str : pair_strength (spheres p) (pair_volume p) (pair_energy p) 1 rho 0 0 = 20).
  { unfold pair_strength, pair_volume, pair_energy. cbn [p near_assoc p_kappa_aibj p_epsilon_k_aibj nth].
    change (Gij (spheres p) 1 rho 0 0) with (Gij (spheres (near_assoc 0)) 1 rho 0 0). change (Sij (spheres p) 0 0) with (Sij (spheres (near_assoc 0)) 0 0).
    transitivity (g * k); [unfold g; ring | unfold k; field; lra]. }
  assert (HN : INR (length (p_m p)) + 30 <= 9 * 10 ^ 6 * (1 - Eta (spheres p) 1 rho)) by (pose proof (near_eta k) as E; fold rho in E; fold p in E; cbn [p near_assoc p_m length INR]; lra).
  assert (Pe : pair_energy p 0 0 = 1 / 2) by reflexivity.
  assert (Se : strength_error (length (p_m p)) (Eta (spheres p) 1 rho) (pair_energy p 0 0 / 1) <= 700 * u).
  { rewrite Pe. pose proof (near_eta k) as E. fold rho in E. fold p in E. unfold strength_error. cbn [p near_assoc p_m length INR]. set (et := Eta _ _ _) in *. assert (I : / (1 - et) <= 2) by (replace 2 with (/ (1 / 2)) by lra; apply Rinv_le_contravar; lra).
    unfold Rdiv at 1. assert ((1 + 30) * u * / (1 - et) <= (1 + 30) * u * 2) by (apply Rmult_le_compat_l; lra). lra. }
  assert (Q : pair_strength (spheres p) (pair_volume p) (pair_energy p) 1 rho 0 0 * rho 0%nat * 1 = 20) by (rewrite Str; unfold rho; cbn [nth]; lra).
  pose proof (C52_pure_contribution exact_libm p 1 1 [1] 1 0.2 LO (near_state k) (He k) HN ltac:(cbn; lia) eq_refl eq_refl ltac:(lra) ltac:(change (0 <= 1 / 2); lra) ltac:(change (1 / 2 / 1 <= 10 ^ 12); lra)) as T.
  cbv zeta in T. change (nth 0 (p_assoc_comp p) 0%nat) with 0%nat in T. fold rho in T. unfold BE in Q, Se. rewrite Q in T.
  specialize (T ltac:(lra) ltac:(lra) ltac:(lra) ltac:(lra)).
  assert (Rm : Rmin (/ 20) (2 ^ 26) <= 1) by (eapply Rle_trans; [apply Rmin_l | lra]).
  assert (Ll : Rabs (ln 0.2) <= 4).
  { assert (ln 0.2 < 0) by (rewrite <- ln_1; apply ln_increasing; lra). rewrite Rabs_left by auto. replace 0.2 with (/ 5) by lra. rewrite ln_Rinv by lra. rewrite Ropp_involutive. pose proof (exp_ineq1_le 4). rewrite <- (ln_exp 4). destruct (Req_dec 5 (exp 4)) as [-> | ]; [lra | ]. left. apply ln_increasing; lra. }
  change (nth 0 [1] 0) with 1 in T. unfold BE. set (A := a_assoc _ _) in *. change R in (type of A). clearbody A. set (w := Rmin _ _) in *. clearbody w. set (se := strength_error _ _ _) in *. clearbody se.
  replace (A - 2 * (ln 0.2 + 0.4)) with (A - 1 * (2 * 1 * (ln 0.2 - 0.2 / 2 + 1 / 2))) by lra. eapply Rle_trans; [exact T | ]. lra.
Qed.
Print Assumptions C52_pure_contribution.
Print Assumptions C52_pure_case.
