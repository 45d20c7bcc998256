(** C52: rounding.  The functions of the model evaluated with f64 rounding ([BNum]) against exact
    values. *)
From Coq Require Import ZArith QArith Reals Lra Lia List Bool.
From Coquelicot Require Import Coquelicot.
From Flocq Require Import Core Relative.
From Interval Require Import Tactic.
From Verif Require Import Num RNum RSum Tables M_Params M_Eos M_Dft Spec BNum F_Round P_Fmt.
Import ListNotations.
Local Open Scope R_scope.
Set Bullet Behavior "Strict Subproofs".
Notation length := List.length.

(* ------------------------------------------------------------------ association fractions *)
(** the fraction of sites that are not bonded, for equal numbers of sites: [q] is the number of sites
    times bond strength times density *)
Definition unbonded (q X : R) : Prop := 0 < X /\ X * (1 + q * X) = 1.

Lemma unbonded_form q X : 0 < q -> unbonded q X -> X = (sqrt (1 + 4 * q) - 1) / (2 * q).
Proof.
  intros Hq [Px E]. assert (S : sqrt (1 + 4 * q) = 2 * q * X + 1).
  { apply sqrt_lem_1; [lra | | ]. { assert (0 < q * X) by (apply Rmult_lt_0_compat; auto). lra. } nra. }
  rewrite S. field. lra.
Qed.
Lemma root_bound q : 0 < q -> 1 < sqrt (1 + 4 * q) /\ sqrt (1 + 4 * q) / (sqrt (1 + 4 * q) - 1) <= 3 / 2 + / (2 * q).
Proof.
  intros Hq. set (r := sqrt (1 + 4 * q)). assert (R2 : r * r = 1 + 4 * q) by (apply sqrt_sqrt; lra).
  assert (R0 : 0 <= r) by apply sqrt_pos. assert (R1 : 1 < r) by nra. split; auto.
  assert (Eq : q = (r - 1) * (r + 1) / 4) by nra. rewrite Eq.
  replace (r / (r - 1)) with (1 + / (r - 1)) by (field; lra).
  replace (/ (2 * ((r - 1) * (r + 1) / 4))) with (2 * / (r + 1) * / (r - 1)) by (field; lra).
  assert (I : 0 < / (r - 1)) by (apply Rinv_0_lt_compat; lra). assert (J : 0 < / (r + 1)) by (apply Rinv_0_lt_compat; lra).
  replace (3 / 2 + 2 * / (r + 1) * / (r - 1)) with (1 + / (r - 1) + (r - 1) * (r - 1) * (/ (r + 1) * / (r - 1)) / 2) by (field; lra).
  assert (0 <= (r - 1) * (r - 1) * (/ (r + 1) * / (r - 1))) by (apply Rmult_le_pos; [nra | apply Rmult_le_pos; lra]). lra.
Qed.
(** changing [q] by a relative amount changes the fraction by at most that amount *)
Lemma unbonded_cond q q' X X' e : 0 < q -> e <= / 2 -> acc e q' q -> unbonded q X -> unbonded q' X' -> acc (2 * e) X' X.
Proof.
  intros Hq He (d & Hd & ->) [P1 E1] [P2 E2]. assert (Bd : - e <= d <= e) by (apply Rabs_le_inv; auto).
  assert (Hq' : 0 < q * (1 + d)) by (apply Rmult_lt_0_compat; lra).
  apply within_acc; [lra | ]. unfold within. rewrite (Rabs_right X) by lra.
  (* (X' - X)(1 + q(1+d)(X' + X)) = - q d X^2 *)
  assert (K : (X' - X) * (1 + q * (1 + d) * (X' + X)) = - (q * d * X * X)) by nra.
  assert (D0 : 0 < q * (1 + d) * X) by (apply Rmult_lt_0_compat; auto). assert (D1 : 0 < q * (1 + d) * X') by (apply Rmult_lt_0_compat; auto).
  set (w := 1 + q * (1 + d) * (X' + X)) in *. assert (W : q * X / 2 <= w).
  { unfold w. assert (q * X * / 2 <= q * X * (1 + d)) by (apply Rmult_le_compat_l; [left; apply Rmult_lt_0_compat; auto | lra]). lra. }
  assert (Pw : 0 < w) by (unfold w; lra). clearbody w.
  assert (F : Rabs (X' - X) * w = q * X * (Rabs d * X)).
  { rewrite <- (Rabs_right w) at 1 by lra. rewrite <- Rabs_mult, K, Rabs_Ropp, !Rabs_mult, (Rabs_right q), (Rabs_right X) by lra. ring. }
  apply (Rmult_le_reg_r w); auto. rewrite F. pose proof (Rabs_pos d).
  assert (Q1 : q * X * (Rabs d * X) <= q * X * (e * X)) by (apply Rmult_le_compat_l; [left; apply Rmult_lt_0_compat; auto | apply Rmult_le_compat_r; lra]).
  assert (Q2 : 2 * e * X * (q * X / 2) <= 2 * e * X * w) by (apply Rmult_le_compat_l; auto; apply Rmult_le_pos; lra). lra.
Qed.

Lemma series Q X : 0 < Q <= / 100 -> 0 < X -> X * (1 + Q * X) = 1 -> X <= 1 /\ X <= 1 - Q + 2 * (Q * Q) /\ 1 - Q + 2 * (Q * Q) - 5 * (Q * Q * Q) <= X.
Proof.
  intros HQ PX EX. assert (E : X = 1 - Q * (X * X)) by lra. assert (P2 : 0 < X * X) by (apply Rmult_lt_0_compat; auto).
  assert (P3 : 0 < Q * (X * X)) by (apply Rmult_lt_0_compat; lra). assert (X1 : X <= 1) by lra.
  assert (P4 : X * X <= 1 * 1) by (apply Rmult_le_compat; lra). assert (P5 : Q * (X * X) <= Q * (1 * 1)) by (apply Rmult_le_compat_l; lra). assert (X2 : 1 - Q <= X) by lra.
  assert (P6 : (1 - Q) * (1 - Q) <= X * X) by (apply Rmult_le_compat; lra). assert (P7 : Q * ((1 - Q) * (1 - Q)) <= Q * (X * X)) by (apply Rmult_le_compat_l; lra).
  assert (P8 : 0 < Q * Q) by (apply Rmult_lt_0_compat; lra). assert (P9 : 0 < Q * Q * Q) by (apply Rmult_lt_0_compat; lra). assert (X3 : X <= 1 - Q + 2 * (Q * Q)) by lra.
  split; auto. split; auto. set (w := 1 - Q + 2 * (Q * Q)) in *. assert (W : X * X <= w * w) by (apply Rmult_le_compat; lra).
  assert (W2 : w * w <= 1 - 2 * Q + 5 * (Q * Q)).
  { unfold w. replace ((1 - Q + 2 * (Q * Q)) * (1 - Q + 2 * (Q * Q))) with (1 - 2 * Q + 5 * (Q * Q) - 4 * (Q * Q * Q) * (1 - Q)) by ring.
    assert (0 <= 4 * (Q * Q * Q) * (1 - Q)) by (apply Rmult_le_pos; lra). lra. }
  assert (W3 : Q * (X * X) <= Q * (1 - 2 * Q + 5 * (Q * Q))) by (apply Rmult_le_compat_l; lra). unfold w. lra.
Qed.
Section Fractions.
  Variables (L : libm) (d n : R).
  Notation x := (@assoc_site_frac_ab (BNum L) d n n).
  Let q := rnd (d * n).
  Lemma switch_lit : @sqrt_eps (BNum L) = / 2 ^ 26.
  Proof.
    unfold sqrt_eps. change (@nlit (BNum L) (1 # 67108864)) with (rnd (1 / 67108864)).
    replace (1 / 67108864) with (IZR 1 * bpow radix2 (-26)) by (cbn; lra). rewrite rnd_id; [cbn; lra | apply f64_Z; lia].
  Qed.
  Lemma scale4 : rnd (rnd (d * n) * rnd 4) = 4 * q.
  Proof.
    rewrite (rnd_id 4) by exact (f64_int 4 ltac:(lia)). replace (rnd (d * n) * 4) with (q * bpow radix2 2) by (unfold q; cbn; lra).
    rewrite rnd_id; [cbn; ring | ]. apply f64_scale, f64_rnd.
  Qed.
  Lemma scale2 : rnd (rnd (d * n) * rnd 2) = 2 * q.
  Proof.
    rewrite (rnd_id 2) by exact (f64_int 2 ltac:(lia)). replace (rnd (d * n) * 2) with (q * bpow radix2 1) by (unfold q; cbn; lra).
    rewrite rnd_id; [cbn; ring | ]. apply f64_scale, f64_rnd.
  Qed.
  Lemma closed_form : / 2 ^ 26 < d -> x = rnd (rnd (rnd (sqrt (rnd (1 + 4 * q))) - 1) / (2 * q)).
  Proof.
    intros Hd. unfold assoc_site_frac_ab. rewrite switch_lit. change (@nltb (BNum L)) with Rltb. rewrite (proj2 (Rltb_true _ _) Hd).
    change (rnd (rnd (rnd (sqrt (rnd (rnd (rnd (rnd (d * rnd (n - n)) + rnd 1) * rnd (rnd (d * rnd (n - n)) + rnd 1)) + rnd (rnd (d * n) * rnd 4))))
      - rnd (rnd (d * rnd (n - n)) + rnd 1)) / rnd (rnd (d * n) * rnd 2)) = rnd (rnd (rnd (sqrt (rnd (1 + 4 * q))) - 1) / (2 * q))).
    rewrite scale4, scale2. replace (n - n) with 0 by ring. rewrite rnd_0, Rmult_0_r, rnd_0, !rnd_1, Rplus_0_l, !rnd_1, Rmult_1_r, rnd_1. reflexivity.
  Qed.
  Lemma q_acc : acc u q (d * n).
  Proof. destruct (rnd_err (d * n)) as (e & H & E). exists e. split; auto. Qed.

  (** accuracy above the switch: the error grows like 1/d towards small d *)
  Theorem C52_equal_sites X : / 2 ^ 26 < d -> 0 < n -> unbonded (d * n) X -> Rabs (x - X) <= (9 + / (d * n)) / 2 ^ 53 * X.
  Proof.
    intros Hd Hn HX. assert (P26 : 0 < / 2 ^ 26) by (apply Rinv_0_lt_compat, pow_lt; lra). rewrite closed_form by auto.
    pose proof u_pos as U0. pose proof u_small as U1. assert (U2 : 0 < u * u <= u / 10 ^ 15) by (split; [apply Rmult_lt_0_compat; auto | apply Rmult_le_compat_l; lra]).
    assert (Q0 : 0 < d * n) by (apply Rmult_lt_0_compat; lra).
    destruct q_acc as (e1 & He1 & Eq). assert (Be1 : - u <= e1 <= u) by (apply Rabs_le_inv; auto).
    assert (Qp : 0 < q) by (rewrite Eq; apply Rmult_lt_0_compat; lra).
    (* the exact fraction for the rounded q *)
    set (R0 := sqrt (1 + 4 * q)). destruct (root_bound q Qp) as [R1 R2]. fold R0 in R1, R2.
    set (Y := (R0 - 1) / (2 * q)).
    assert (HY : unbonded q Y).
    { assert (RR : R0 * R0 = 1 + 4 * q) by (apply sqrt_sqrt; lra). split; [unfold Y; apply Rdiv_lt_0_compat; lra | ]. unfold Y. field_simplify; [ | lra]. apply (Rmult_eq_reg_r (4 * q)); [ | lra]. field_simplify; [ | lra]. nra. }
    assert (C1 : acc (2 * u) Y X) by (apply (unbonded_cond (d * n) q X Y u); auto; [lra | exists e1; auto]).
    destruct C1 as (c & Hc & EY). assert (Bc : - (2 * u) <= c <= 2 * u) by (apply Rabs_le_inv; auto).
    (* rounding errors of the closed form *)
    assert (As : acc (u / 2 + u ^ 2 + u + (u / 2 + u ^ 2) * u) (rnd (sqrt (rnd (1 + 4 * q)))) R0).
    { apply acc_rnd. apply acc_sqrt; [lra | lra | ]. destruct (rnd_err (1 + 4 * q)) as (e & He & E). exists e. auto. }
    destruct As as (h & Hh & Er). rewrite Er. clear Er.
    assert (Hh' : Rabs h <= 16 / 10 * u) by (eapply Rle_trans; [exact Hh | ]; nra). clear Hh.
    destruct (rnd_err (R0 * (1 + h) - 1)) as (e5 & He5 & ->). destruct (rnd_err ((R0 * (1 + h) - 1) * (1 + e5) / (2 * q))) as (e7 & He7 & ->).
    assert (Bh : - (16 / 10 * u) <= h <= 16 / 10 * u) by (apply Rabs_le_inv; auto).
    assert (B5 : - u <= e5 <= u) by (apply Rabs_le_inv; auto). assert (B7 : - u <= e7 <= u) by (apply Rabs_le_inv; auto).
    set (g := e5 + e7 + e5 * e7). assert (Bg : - (21 / 10 * u) <= g <= 21 / 10 * u).
    { unfold g. assert (- (u * u) <= e5 * e7 <= u * u) by nra. lra. }
    replace ((R0 * (1 + h) - 1) * (1 + e5) / (2 * q) * (1 + e7)) with (Y * (1 + (g + h * (1 + g) * (R0 / (R0 - 1))))).
    2: { unfold Y, g. field. lra. }
    set (k := R0 / (R0 - 1)) in *. assert (Pk : 0 < k) by (unfold k; apply Rdiv_lt_0_compat; lra). clearbody k.
    assert (Hm : Rabs (g + h * (1 + g) * k) <= 21 / 10 * u + 161 / 100 * u * k).
    { eapply Rle_trans; [apply Rabs_triang | ]. apply Rplus_le_compat; [apply Rabs_le; lra | ]. rewrite !Rabs_mult, (Rabs_right k) by lra.
      apply Rmult_le_compat_r; [lra | ]. rewrite (Rabs_right (1 + g)) by lra. assert (0 <= Rabs h) by apply Rabs_pos.
      assert (Rabs h * (1 + g) <= 16 / 10 * u * (1 + / 1000)) by (apply Rmult_le_compat; lra). lra. }
    set (mm := g + h * (1 + g) * k) in *. clearbody mm.
    assert (Iq : / (2 * q) <= 51 / 100 * / (d * n)).
    { rewrite Eq. replace (/ (2 * (d * n * (1 + e1)))) with (/ (2 * (1 + e1)) * / (d * n)) by (field; lra).
      apply Rmult_le_compat_r; [left; apply Rinv_0_lt_compat; auto | ]. replace (51 / 100) with (/ (100 / 51)) by field. apply Rinv_le_contravar; lra. }
    set (v := / (d * n)) in *. assert (Pv : 0 < v) by (apply Rinv_0_lt_compat; auto). clearbody v.
    assert (Hk : k <= 3 / 2 + 51 / 100 * v) by lra. clear R2.
    assert (Hm2 : Rabs mm <= u * (46 / 10 + 9 / 10 * v)) by nra.
    destruct HX as [PX _]. rewrite EY. replace (X * (1 + c) * (1 + mm) - X) with (X * (c + mm + c * mm)) by ring.
    rewrite Rabs_mult, (Rabs_right X) by lra. rewrite (Rmult_comm _ X). apply Rmult_le_compat_l; [lra | ].
    eapply Rle_trans; [apply Rabs_triang | ]. rewrite Rabs_mult. fold u. assert (Rabs (c + mm) <= Rabs c + Rabs mm) by apply Rabs_triang.
    assert (Rabs c * Rabs mm <= 2 * u * Rabs mm) by (apply Rmult_le_compat_r; [apply Rabs_pos | auto]).
    change ((9 + v) / 2 ^ 53) with ((9 + v) * u).
    assert (Rabs mm * (1 + 2 * u) <= u * (46 / 10 + 9 / 10 * v) * (1 + 1 / 1000)) by (apply Rmult_le_compat; [apply Rabs_pos | lra | auto | lra]).
    assert (0 <= u * v) by (apply Rmult_le_pos; lra). lra.
  Qed.

  (** below the switch: accurate to the last bit but one *)
  Theorem C52_low_density X : 0 < d <= / 2 ^ 26 -> 0 < n <= 16 -> unbonded (d * n) X -> Rabs (x - X) <= / 2 ^ 52.
  Proof.
    intros Hd Hn [PX EX]. pose proof u_pos as U0. pose proof u_small as U1.
    assert (Q0 : 0 < d * n <= / 2 ^ 22).
    { split; [apply Rmult_lt_0_compat; lra | ]. eapply Rle_trans; [apply (Rmult_le_compat d (/ 2 ^ 26) n 16); lra | ]. lra. }
    assert (E : x = rnd (1 + rnd (rnd (d * n) * rnd (rnd (d * rnd (n + n)) - 1)))).
    { unfold assoc_site_frac_ab. rewrite switch_lit. change (@nltb (BNum L)) with Rltb. rewrite (proj2 (Rltb_false _ _)) by lra.
      change (rnd (rnd 1 + rnd (rnd (d * n) * rnd (rnd (d * rnd (n + n)) - rnd 1))) = rnd (1 + rnd (rnd (d * n) * rnd (rnd (d * rnd (n + n)) - 1)))). rewrite !rnd_1. reflexivity. }
    rewrite E. clear E.
    destruct (rnd_err (n + n)) as (e1 & H1 & ->). destruct (rnd_err (d * ((n + n) * (1 + e1)))) as (e2 & H2 & ->). destruct (rnd_err (d * n)) as (e3 & H3 & ->).
    destruct (rnd_err (d * ((n + n) * (1 + e1)) * (1 + e2) - 1)) as (e4 & H4 & ->).
    match goal with |- context [rnd (1 + rnd ?y)] => destruct (rnd_err y) as (e5 & H5 & E5); rewrite E5; clear E5 end.
    match goal with |- context [rnd ?y] => destruct (rnd_err y) as (e6 & H6 & ->) end.
    set (b := e1 + e2 + e1 * e2). set (s := (1 + e3) * (1 + e4) * (1 + e5) - 1).
    replace (1 + d * n * (1 + e3) * ((d * ((n + n) * (1 + e1)) * (1 + e2) - 1) * (1 + e4)) * (1 + e5)) with (1 - d * n * (1 + s) * (1 - 2 * (d * n) * (1 + b))) by (unfold s, b; ring).
    apply Rabs_le_inv in H1. apply Rabs_le_inv in H2. apply Rabs_le_inv in H3. apply Rabs_le_inv in H4. apply Rabs_le_inv in H5.
    assert (U2 : 0 < u * u <= u / 10 ^ 15) by (split; [apply Rmult_lt_0_compat; auto | apply Rmult_le_compat_l; lra]).
    assert (Bb : - (21 / 10 * u) <= b <= 21 / 10 * u) by (unfold b; assert (- (u * u) <= e1 * e2 <= u * u) by nra; lra).
    assert (Bs : - (32 / 10 * u) <= s <= 32 / 10 * u).
    { unfold s. assert (- (u * u) <= e3 * e4 <= u * u) by nra. assert (- (u * u) <= e3 * e5 <= u * u) by nra. assert (- (u * u) <= e4 * e5 <= u * u) by nra.
      assert (- (u * u) <= e3 * e4 * e5 <= u * u) by nra. replace ((1 + e3) * (1 + e4) * (1 + e5) - 1) with (e3 + e4 + e5 + e3 * e4 + e3 * e5 + e4 * e5 + e3 * e4 * e5) by ring. lra. }
    clearbody b s. clear H1 H2 H3 H4 H5 e1 e2 e3 e4 e5. set (Q := d * n) in *. clearbody Q. clear Hd Hn.
    assert (Q2 : 0 < Q * Q <= Q / 2 ^ 22) by (split; [nra | apply Rmult_le_compat_l; lra]). assert (Q3 : 0 < Q * Q * Q <= / 2 ^ 66) by (split; [nra | nra]).
    (* truncation *)
    destruct (series Q X ltac:(lra) PX EX) as (X1 & X3 & X4).
    (* rounding *)
    set (z := Q * (1 + s) * (1 - 2 * Q * (1 + b))).
    assert (Z1 : Rabs (z - (Q - 2 * (Q * Q))) <= 4 * u * Q).
    { replace (z - (Q - 2 * (Q * Q))) with (Q * (s * (1 - 2 * Q * (1 + b)) - 2 * Q * b)) by (unfold z; ring). rewrite Rabs_mult, (Rabs_right Q) by lra. rewrite (Rmult_comm (4 * u) Q).
      apply Rmult_le_compat_l; [lra | ]. assert (A : 0 <= 2 * Q * (1 + b) <= / 100) by (split; [apply Rmult_le_pos; lra | assert (2 * Q * (1 + b) <= 2 * / 2 ^ 22 * 2) by (apply Rmult_le_compat; lra); lra]).
      set (w := 2 * Q * (1 + b)) in *. clearbody w. apply Rabs_le. assert (- (32 / 10 * u) <= s * (1 - w) <= 32 / 10 * u) by nra.
      assert (- (u / 10) <= 2 * Q * b <= u / 10) by nra. lra. }
    assert (Z2 : 0 <= z <= / 2).
    { apply Rabs_le_inv in Z1. assert (4 * u * Q <= Q / 4) by nra. split; [nra | nra]. }
    clearbody z. apply Rabs_le_inv in Z1. apply Rabs_le_inv in H6.
    assert (Z3 : 4 * u * Q <= u / 100) by nra. fold u in *. replace (/ 2 ^ 52) with (2 * u) by (unfold u; lra). assert (U3 : 5 * (/ 2 ^ 66) <= u / 100) by (unfold u; lra).
    apply Rabs_le. assert (- u <= (1 - z) * e6 <= u) by nra. replace ((1 - z) * (1 + e6) - X) with (1 - z - X + (1 - z) * e6) by ring. lra.
  Qed.
  (** the computed fraction is a fraction *)
  Theorem C52_fraction_range : 0 < d -> 1 <= n <= 16 -> 0 < x <= 1.
  Proof.
    intros Hd Hn. pose proof u_pos as U0. pose proof u_small as U1. destruct (Rle_lt_dec d (/ 2 ^ 26)) as [Lo | Hi].
    - assert (Q0 : 0 < d * n <= / 2 ^ 22).
      { split; [apply Rmult_lt_0_compat; lra | ]. eapply Rle_trans; [apply (Rmult_le_compat d (/ 2 ^ 26) n 16); lra | ]. lra. }
      assert (E : x = rnd (1 + rnd (rnd (d * n) * rnd (rnd (d * rnd (n + n)) - 1)))).
      { unfold assoc_site_frac_ab. rewrite switch_lit. change (@nltb (BNum L)) with Rltb. rewrite (proj2 (Rltb_false _ _)) by lra.
        change (rnd (rnd 1 + rnd (rnd (d * n) * rnd (rnd (d * rnd (n + n)) - rnd 1))) = rnd (1 + rnd (rnd (d * n) * rnd (rnd (d * rnd (n + n)) - 1)))). rewrite !rnd_1. reflexivity. }
      set (Xe := (sqrt (1 + 4 * (d * n)) - 1) / (2 * (d * n))).
      assert (HX : unbonded (d * n) Xe).
      { destruct (root_bound (d * n) ltac:(lra)) as [R1 _]. assert (RR : sqrt (1 + 4 * (d * n)) * sqrt (1 + 4 * (d * n)) = 1 + 4 * (d * n)) by (apply sqrt_sqrt; lra).
        set (r := sqrt _) in *. set (Q := d * n) in *. clearbody r Q. split; [unfold Xe; apply Rdiv_lt_0_compat; lra | ]. unfold Xe. field_simplify; [ | lra]. apply (Rmult_eq_reg_r (4 * Q)); [ | lra]. field_simplify; [ | lra]. nra. }
      pose proof (C52_low_density Xe ltac:(lra) ltac:(lra) HX) as Er. destruct HX as [PX EX]. assert (Xe >= / 2) by nra.
      split; [apply Rabs_le_inv in Er; lra | ]. rewrite E. apply Rle_trans with (rnd 1); [apply rnd_le | rewrite rnd_1; lra].
      assert (N : rnd (rnd (d * n) * rnd (rnd (d * rnd (n + n)) - 1)) <= 0); [ | lra]. apply Rle_trans with (rnd 0); [apply rnd_le | rewrite rnd_0; lra].
      destruct (rnd_err (n + n)) as (e1 & H1 & ->). destruct (rnd_err (d * ((n + n) * (1 + e1)))) as (e2 & H2 & ->). apply Rabs_le_inv in H1. apply Rabs_le_inv in H2.
      assert (N1 : rnd (d * ((n + n) * (1 + e1)) * (1 + e2) - 1) <= 0).
      { rewrite <- rnd_0. apply rnd_le. replace (d * ((n + n) * (1 + e1)) * (1 + e2)) with (2 * (d * n) * ((1 + e1) * (1 + e2))) by ring.
        assert ((1 + e1) * (1 + e2) <= 2 * 2) by (apply Rmult_le_compat; lra). assert (2 * (d * n) * ((1 + e1) * (1 + e2)) <= 2 * / 2 ^ 22 * (2 * 2)); [ | lra].
        apply Rmult_le_compat; try lra. apply Rmult_le_pos; lra. }
      assert (N2 : 0 <= rnd (d * n)) by (rewrite <- rnd_0; apply rnd_le; lra). nra.
    - assert (P26 : 0 < / 2 ^ 26) by (apply Rinv_0_lt_compat, pow_lt; lra). assert (Q0 : / 2 ^ 26 < d * n) by nra.
      set (Q := d * n) in *. set (Xe := (sqrt (1 + 4 * Q) - 1) / (2 * Q)).
      assert (HX : unbonded Q Xe).
      { destruct (root_bound Q ltac:(lra)) as [R1 _]. assert (RR : sqrt (1 + 4 * Q) * sqrt (1 + 4 * Q) = 1 + 4 * Q) by (apply sqrt_sqrt; lra).
        set (r := sqrt _) in *. clearbody r Q. split; [unfold Xe; apply Rdiv_lt_0_compat; lra | ]. unfold Xe. field_simplify; [ | lra]. apply (Rmult_eq_reg_r (4 * Q)); [ | lra]. field_simplify; [ | lra]. nra. }
      pose proof (C52_equal_sites Xe Hi ltac:(lra) HX) as Er. fold Q in Er. destruct HX as [PX EX]. clearbody Xe Q. change ((9 + / Q) / 2 ^ 53) with ((9 + / Q) * u) in Er. apply Rabs_le_inv in Er.
      assert (Iq : 0 < / Q <= 2 ^ 26).
      { split; [apply Rinv_0_lt_compat; lra | ]. rewrite <- (Rinv_inv (2 ^ 26)). apply Rinv_le_contravar; lra. }
      assert (K1 : (9 + / Q) * u <= / 2) by (assert ((9 + / Q) * u <= 2 ^ 27 * / 10 ^ 15) by (apply Rmult_le_compat; lra); lra).
      split; [nra | ].
      (* 1 - X = Q X^2, X >= 1/(1+Q) *)
      assert (X1 : Xe <= 1) by nra. assert (X2 : 1 <= Xe * (1 + Q)) by nra.
      assert (Main : u * (9 * Q + 1) * (1 + Q) <= Q * Q).
      { assert (Q2 : 2 * u <= Q * Q) by (unfold u; nra). destruct (Rle_lt_dec Q (/ 100)) as [S | S]; [ | nra].
        assert ((9 * Q + 1) * (1 + Q) <= 2) by nra. nra. }
      assert (M2 : (9 + / Q) * u * Xe <= Q * Xe * Xe); [ | nra].
      apply (Rmult_le_reg_r (Q * (1 + Q))); [apply Rmult_lt_0_compat; lra | ].
      replace ((9 + / Q) * u * Xe * (Q * (1 + Q))) with (u * (9 * Q + 1) * (1 + Q) * Xe) by (field; lra).
      assert (u * (9 * Q + 1) * (1 + Q) * Xe <= Q * Q * Xe) by (apply Rmult_le_compat_r; lra).
      assert (Q * Q * Xe * 1 <= Q * Q * Xe * (Xe * (1 + Q))) by (apply Rmult_le_compat_l; [apply Rmult_le_pos; nra | lra]). lra.
  Qed.
End Fractions.

(** Just above the switch the closed form cancels: the association energy of the computed fraction is a
    third too small.  (Below the switch it would be exact to 16 digits.) *)
Definition d_switch : R := 1099511629828 * bpow radix2 (-66).
Lemma d_switch_f64 : f64 d_switch.
Proof. exact (f64_Z 1099511629828 (-66) ltac:(lia)). Qed.
Lemma d_switch_val : d_switch = 1099511629828 / 2 ^ 66.
Proof. unfold d_switch. cbn. lra. Qed.
Lemma switch_value L : exists e, Rabs e <= u /\ @assoc_site_frac_ab (BNum L) d_switch 1 1 = ((2 ^ 27 - 1) / 2 ^ 52) / (2 * d_switch) * (1 + e).
Proof.
  assert (H : / 2 ^ 26 < d_switch) by (rewrite d_switch_val; lra). rewrite (closed_form L d_switch 1 H). rewrite Rmult_1_r, (rnd_id _ d_switch_f64).
  assert (E1 : rnd (1 + 4 * d_switch) = IZR 4503599895805953 * bpow radix2 (-52)).
  { rewrite d_switch_val. apply rnd_binade; [split; cbn; lra | ]. apply Rabs_lt. cbn. lra. }
  rewrite E1.
  assert (E2 : rnd (sqrt (IZR 4503599895805953 * bpow radix2 (-52))) = IZR 4503599761588223 * bpow radix2 (-52)).
  { replace (IZR 4503599895805953 * bpow radix2 (-52)) with (4503599895805953 / 4503599627370496) by (cbn; lra). apply rnd_binade.
    - split; [replace (bpow radix2 (-52 + 52)) with 1 by (cbn; lra) | replace (bpow radix2 (-52 + 53)) with 2 by (cbn; lra)]; interval.
    - replace (bpow radix2 (- -52)) with 4503599627370496 by (cbn; lra). interval with (i_prec 150). }
  rewrite E2.
  assert (E3 : rnd (IZR 4503599761588223 * bpow radix2 (-52) - 1) = (2 ^ 27 - 1) / 2 ^ 52).
  { replace (IZR 4503599761588223 * bpow radix2 (-52) - 1) with (IZR 134217727 * bpow radix2 (-52)) by (cbn; lra). rewrite rnd_id; [cbn; lra | apply f64_Z; lia]. }
  rewrite E3. apply rnd_err.
Qed.
Theorem C52_switch_refuted : exists d, f64 d /\ / 2 ^ 26 < d < / 2 ^ 25 /\ forall L X, unbonded d X ->
  let x := @assoc_site_frac_ab (BNum L) d 1 1 in 1 - x <= 64 / 100 * (1 - X) /\ Rabs (fx x - fx X) >= 3 / 10 * Rabs (fx X).
Proof.
  exists d_switch. split; [exact d_switch_f64 | ]. split; [rewrite d_switch_val; lra | ]. intros L X HX. cbv zeta.
  destruct (switch_value L) as (e & He & ->). apply Rabs_le_inv in He. apply unbonded_form in HX; [ | rewrite d_switch_val; lra]. rewrite d_switch_val in *.
  unfold u in He.
  assert (Bx : 1 - 94 / 10 ^ 10 <= (2 ^ 27 - 1) / 2 ^ 52 / (2 * (1099511629828 / 2 ^ 66)) * (1 + e) <= 1 - 93 / 10 ^ 10) by (split; interval with (i_prec 120)).
  assert (BX : 1 - 150 / 10 ^ 10 <= X <= 1 - 148 / 10 ^ 10) by (rewrite HX; split; interval with (i_prec 150)).
  set (x := _ * (1 + e)) in *. clearbody x. clear HX He. split; [lra | ].
  assert (F1 : - 476 / 10 ^ 11 <= fx x <= - 459 / 10 ^ 11) by (unfold fx; split; interval with (i_prec 120)).
  assert (F2 : - 761 / 10 ^ 11 <= fx X <= - 729 / 10 ^ 11) by (unfold fx; split; interval with (i_prec 120)).
  rewrite (Rabs_left (fx X)) by lra. rewrite Rabs_right by lra. lra.
Qed.

Lemma absorb z e y : (2 ^ 52 < z < 2 ^ 53)%Z \/ z = (2 ^ 52)%Z -> 0 <= y -> y < bpow radix2 (e - 1) -> rnd (IZR z * bpow radix2 e + y) = IZR z * bpow radix2 e.
Proof.
  intros Hz Hy Hy2. pose proof (bpow_gt_0 radix2 e) as Pe.
  assert (E1 : bpow radix2 (e - 1) = bpow radix2 e / 2) by (unfold Zminus; rewrite bpow_plus; cbn; lra).
  assert (Z1 : (2 ^ 52 <= z)%Z) by lia. assert (Z2 : (z + 1 <= 2 ^ 53)%Z) by lia. apply IZR_le in Z1. apply IZR_le in Z2. rewrite plus_IZR in Z2.
  apply rnd_binade.
  - rewrite !bpow_plus. change (bpow radix2 52) with 4503599627370496. change (bpow radix2 53) with 9007199254740992. change (2 ^ 52)%Z with 4503599627370496%Z in Z1. change (2 ^ 53)%Z with 9007199254740992%Z in Z2.
    split; [nra | ]. assert (bpow radix2 e * (IZR z + 1) <= bpow radix2 e * 9007199254740992) by (apply Rmult_le_compat_l; lra). lra.
  - rewrite Rmult_plus_distr_r, Rmult_assoc, <- bpow_plus. replace (e + - e)%Z with 0%Z by lia. cbn [bpow]. replace (IZR z * 1 + y * bpow radix2 (- e) - IZR z) with (y * bpow radix2 (- e)) by ring.
    rewrite Rabs_right by (apply Rle_ge, Rmult_le_pos; [auto | apply bpow_ge_0]). apply (Rmult_lt_compat_r (bpow radix2 (- e))) in Hy2; [ | apply bpow_gt_0].
    rewrite <- bpow_plus in Hy2. replace (e - 1 + - e)%Z with (-1)%Z in Hy2 by lia. cbn in Hy2. lra.
Qed.
Lemma absorb_bpow k y : 0 <= y -> y < bpow radix2 (k - 53) -> rnd (bpow radix2 k + y) = bpow radix2 k.
Proof.
  intros H1 H2. replace (bpow radix2 k) with (IZR (2 ^ 52) * bpow radix2 (k - 52)).
  - apply absorb; [right; auto | auto | replace (k - 52 - 1)%Z with (k - 53)%Z by lia; auto].
  - change (IZR (2 ^ 52)) with (bpow radix2 52). rewrite <- bpow_plus. f_equal. lia.
Qed.
(** from below: the numbers are twice as dense there *)
Lemma absorb_below k y : 0 <= y -> y < bpow radix2 (k - 54) -> rnd (bpow radix2 k - y) = bpow radix2 k.
Proof.
  intros H1 H2. destruct (Req_dec y 0) as [-> | Ny].
  { rewrite Rminus_0_r. apply rnd_id. replace (bpow radix2 k) with (IZR 1 * bpow radix2 k) by ring. apply f64_Z. lia. }
  assert (Eb : bpow radix2 k = IZR (2 ^ 53) * bpow radix2 (k - 53)).
  { change (IZR (2 ^ 53)) with (bpow radix2 53). rewrite <- bpow_plus. f_equal. lia. }
  rewrite Eb at 2. apply rnd_binade.
  - replace (k - 53 + 53)%Z with k by lia. replace (k - 53 + 52)%Z with (k - 1)%Z by lia. split; [ | lra].
    assert (E1 : bpow radix2 (k - 1) = bpow radix2 k / 2) by (unfold Zminus; rewrite bpow_plus; cbn; lra).
    assert (E2 : bpow radix2 (k - 54) <= bpow radix2 (k - 1)) by (apply bpow_le; lia). lra.
  - rewrite Rmult_minus_distr_r, Eb, Rmult_assoc, <- bpow_plus. replace (k - 53 + - (k - 53))%Z with 0%Z by lia. cbn [bpow]. rewrite Rmult_1_r.
    replace (IZR (2 ^ 53) - y * bpow radix2 (- (k - 53)) - IZR (2 ^ 53)) with (- (y * bpow radix2 (- (k - 53)))) by ring. rewrite Rabs_Ropp, Rabs_right by (apply Rle_ge, Rmult_le_pos; [auto | apply bpow_ge_0]).
    apply (Rmult_lt_compat_r (bpow radix2 (- (k - 53)))) in H2; [ | apply bpow_gt_0]. rewrite <- bpow_plus in H2. replace (k - 54 + - (k - 53))%Z with (-1)%Z in H2 by lia. cbn in H2. lra.
Qed.
Lemma f64_bpow k : f64 (bpow radix2 k).
Proof. replace (bpow radix2 k) with (IZR 1 * bpow radix2 k) by ring. apply f64_Z. lia. Qed.
Lemma sqrt_bpow2 k : sqrt (bpow radix2 (k + k)) = bpow radix2 k.
Proof. rewrite bpow_plus. apply sqrt_square. apply bpow_ge_0. Qed.

(** Unequal numbers of sites, strong bonds: no bit of the fraction is left, zero is returned, and its
    logarithm is taken. *)
Theorem C52_strong_bonds_refuted k : (57 <= k)%Z -> let d := bpow radix2 k in f64 d /\
  (forall L, @assoc_site_frac_ab (BNum L) d 1 2 = 0) /\ exists X, 0 < X < 1 /\ X * (1 + 2 * d * (1 - (1 - X) / 2)) = 1.
Proof.
  intros Hk d. split; [apply f64_bpow | ].
  assert (P56 : bpow radix2 56 <= d) by (apply bpow_le; lia). assert (P3 : bpow radix2 (56 - 53) <= bpow radix2 (k - 53)) by (apply bpow_le; lia).
  assert (P2 : bpow radix2 (56 - 54) <= bpow radix2 (k - 54)) by (apply bpow_le; lia). cbn in P2, P3. split.
  - intros L. unfold assoc_site_frac_ab. rewrite switch_lit. change (@nltb (BNum L)) with Rltb. rewrite (proj2 (Rltb_true _ _)) by (cbn in P56; lra).
    change (rnd (rnd (rnd (sqrt (rnd (rnd (rnd (rnd (d * rnd (1 - 2)) + rnd 1) * rnd (rnd (d * rnd (1 - 2)) + rnd 1)) + rnd (rnd (d * 2) * rnd 4))))
      - rnd (rnd (d * rnd (2 - 1)) + rnd 1)) / rnd (rnd (d * 1) * rnd 2)) = 0).
    replace (1 - 2) with (- (1)) by ring. replace (2 - 1) with 1 by ring. rewrite rnd_opp, !rnd_1, Rmult_1_r. replace (d * - (1)) with (- d) by ring. rewrite rnd_opp, (rnd_id d (f64_bpow k)).
    replace (- d + 1) with (- (d - 1)) by ring. rewrite rnd_opp. unfold d at 1 2. rewrite absorb_below by lra. fold d.
    replace (- d * - d) with (bpow radix2 (k + k)) by (rewrite bpow_plus; unfold d; ring). rewrite (rnd_id (bpow radix2 (k + k))) by apply f64_bpow.
    rewrite (rnd_id 4) by exact (f64_int 4 ltac:(lia)). replace (d * 2) with (bpow radix2 (k + 1)) by (rewrite bpow_plus; unfold d; cbn; ring). rewrite (rnd_id (bpow radix2 (k + 1))) by apply f64_bpow.
    replace (bpow radix2 (k + 1) * 4) with (bpow radix2 (k + 3)) by (rewrite !bpow_plus; cbn; ring). rewrite (rnd_id (bpow radix2 (k + 3))) by apply f64_bpow.
    rewrite absorb_bpow; [ | apply bpow_ge_0 | apply bpow_lt; lia]. rewrite sqrt_bpow2, (rnd_id (bpow radix2 k)) by apply f64_bpow.
    unfold d at 1. rewrite absorb_bpow by lra. rewrite Rminus_diag_eq by reflexivity. rewrite rnd_0. unfold Rdiv. rewrite Rmult_0_l. apply rnd_0.
  - (* X (1 + d + d X) = 1 *)
    assert (Pd : 1 < d) by (cbn in P56; lra). set (D := (1 + d) * (1 + d) + 4 * d). set (s := sqrt D). assert (D0 : 0 <= D) by (unfold D; nra).
    assert (S2 : s * s = D) by (apply sqrt_sqrt; auto). assert (S0 : 0 <= s) by apply sqrt_pos. assert (S1 : 1 + d < s < 1 + 3 * d) by (unfold D in S2; split; nra).
    exists ((s - (1 + d)) / (2 * d)). split.
    + split; [apply Rdiv_lt_0_compat; lra | ]. apply (Rmult_lt_reg_r (2 * d)); [lra | ]. unfold Rdiv. rewrite Rmult_assoc, Rinv_l by lra. lra.
    + apply (Rmult_eq_reg_r (4 * d)); [ | lra]. unfold D in S2. clearbody s d. clear - S2 Pd. field_simplify; [ | lra]. apply (Rmult_eq_reg_r (4 * d)); [ | lra]. nra.
Qed.
(** Equal numbers of sites: the second fraction, computed as one minus the bonded part, becomes zero. *)
Theorem C52_second_fraction_refuted k : (56 <= k)%Z -> let d := bpow radix2 (k + k) in f64 d /\
  forall L, let x := @assoc_site_frac_ab (BNum L) d 1 1 in
    0 < x /\ @nadd (BNum L) (@nmul (BNum L) (@nsub (BNum L) x (@n1 (BNum L))) (@ndiv (BNum L) 1 1)) (@n1 (BNum L)) = 0.
Proof.
  intros Hk d. split; [apply f64_bpow | ]. intros L.
  assert (E : @assoc_site_frac_ab (BNum L) d 1 1 = bpow radix2 (- k)).
  { assert (P2 : bpow radix2 (57 - 54) <= bpow radix2 (k + 1 - 54)) by (apply bpow_le; lia). assert (P53 : bpow radix2 (3 - 0) <= bpow radix2 (k + k + 2 - 53)) by (apply bpow_le; lia). cbn in P2, P53.
    assert (Pd : bpow radix2 0 <= d) by (apply bpow_le; lia). cbn in Pd.
    rewrite closed_form by lra. rewrite Rmult_1_r, (rnd_id d) by apply f64_bpow. replace (1 + 4 * d) with (bpow radix2 (k + k + 2) + 1) by (rewrite bpow_plus; unfold d; cbn; ring).
    rewrite absorb_bpow by lra. replace (k + k + 2)%Z with ((k + 1) + (k + 1))%Z by lia. rewrite sqrt_bpow2, (rnd_id (bpow radix2 (k + 1))) by apply f64_bpow. rewrite absorb_below by lra.
    replace (bpow radix2 (k + 1) / (2 * d)) with (bpow radix2 (- k)); [apply rnd_id, f64_bpow | ].
    unfold d. rewrite !bpow_plus, bpow_opp. cbn. pose proof (bpow_gt_0 radix2 k). field. lra. }
  cbv zeta. rewrite E. split; [apply bpow_gt_0 | ]. change (@n1 (BNum L)) with (rnd 1). change (rnd (rnd (rnd (bpow radix2 (- k) - rnd 1) * rnd (1 / 1)) + rnd 1) = 0).
  replace (1 / 1) with 1 by field. rewrite !rnd_1, Rmult_1_r. replace (bpow radix2 (- k) - 1) with (- (bpow radix2 0 - bpow radix2 (- k))) by (cbn; ring).
  rewrite rnd_opp, absorb_below; [ | apply bpow_ge_0 | apply bpow_lt; lia]. replace (- bpow radix2 0) with (- (1)) by (cbn; ring). rewrite rnd_opp, rnd_1. replace (- (1) + 1) with 0 by ring. apply rnd_0.
Qed.

(** a half of the sites bonded; a dilute gas; water-like bonds at a low temperature *)
Example C52_case : / 2 ^ 26 < 2 /\ unbonded (2 * 1) (1 / 2) /\ libm_ok exact_libm /\
  Rabs (@assoc_site_frac_ab (BNum exact_libm) 2 1 1 - 1 / 2) <= (9 + / (2 * 1)) / 2 ^ 53 * (1 / 2) /\
  0 < @assoc_site_frac_ab (BNum exact_libm) 2 1 1 <= 1 /\ @assoc_site_frac_ab (BNum exact_libm) (2 ^ 57) 1 2 = 0.
Proof.
  assert (H1 : / 2 ^ 26 < 2) by (apply Rlt_trans with 1; lra). assert (H2 : unbonded (2 * 1) (1 / 2)) by (split; lra).
  repeat split; try lra; try exact H1; try apply exact_libm_ok.
  - apply (C52_equal_sites exact_libm 2 1 (1 / 2)); auto. lra.
  - apply C52_fraction_range; lra.
  - apply C52_fraction_range; lra.
  - destruct (C52_strong_bonds_refuted 57 ltac:(lia)) as (_ & H & _). specialize (H exact_libm). change (bpow radix2 57) with (IZR 144115188075855872) in H. replace (2 ^ 57) with 144115188075855872 by lra. exact H.
Qed.

Print Assumptions C52_equal_sites.
Print Assumptions C52_low_density.
Print Assumptions C52_fraction_range.
Print Assumptions C52_switch_refuted.
Print Assumptions C52_strong_bonds_refuted.
Print Assumptions C52_second_fraction_refuted.
