(** C56: every pressure can be reached.  A state at given temperature, pressure and composition is found by searching for
    a volume with that pressure; the theorems say that the search is for something that exists, and that among the
    solutions there is one at which the Gibbs energy is lowest. *)
From Coq Require Import ZArith QArith Reals Lra Lia String List Bool Psatz.
From Coquelicot Require Import Coquelicot.
From Interval Require Import Tactic.
From Verif Require Import Num RNum RSum Tables M_Params F_Params M_Eos Spec F_Spec F_SpecPolar
  F_SpecAssoc F_Contrib F_Cross F_Total Samples F_Limit P_Basic P_Limit P_Params XNum DNum F_Transfer F_Transfer2 F_Transfer3 F_Level P_Dual P_Dual2 P_Close.
Import ListNotations.
Local Open Scope R_scope.
Set Bullet Behavior "Strict Subproofs".
Notation length := List.length.
Lemma Some_inj {A} (x y : A) : Some x = Some y -> x = y. Proof. congruence. Qed.

(* ------------------------------------------------------------------ one variable *)
Section Minimum.
  Variables (f f' : R -> R) (c N P : R).
  Hypothesis Hc : 0 < c.
  Hypothesis HN : 0 < N.
  Hypothesis HP : 0 < P.
  Hypothesis Div : diverges c f.
  (** reduced Gibbs energy at pressure P (up to a constant) *)
  Definition gibbs (v : R) : R := f v - N * ln v + P * v.
  Lemma gibbs_derive v : c < v -> is_derive f v (f' v) -> is_derive gibbs v (f' v - N / v + P).
  Proof.
    intros Hv D. unfold gibbs. auto_derive; [split; [exists (f' v); exact D | split; [lra | auto]] | ].
    match goal with |- context [Derive ?g v] => replace (Derive g v) with (f' v) by (symmetry; apply is_derive_unique; exact D) end. unfold Rdiv. ring.
  Qed.
  Lemma gibbs_left v0 : c < v0 -> exists a, c < a < v0 /\ forall v, c < v <= a -> gibbs v0 < gibbs v.
  Proof.
    intros H0. destruct (Div (gibbs v0 + N * ln v0)) as (d & Hd & H). set (m := Rmin (d / 2) ((v0 - c) / 2)).
    assert (Hm : 0 < m) by (apply Rmin_pos; lra). pose proof (Rmin_l (d / 2) ((v0 - c) / 2)) as L1. pose proof (Rmin_r (d / 2) ((v0 - c) / 2)) as L2. fold m in L1, L2.
    exists (c + m). split; [lra | ]. intros v Hv. specialize (H v ltac:(lra)). unfold gibbs at 2.
    assert (ln v < ln v0) by (apply ln_increasing; lra). assert (N * ln v < N * ln v0) by (apply Rmult_lt_compat_l; auto). assert (0 < P * v) by (apply Rmult_lt_0_compat; lra). lra.
  Qed.
  Lemma min_between a b : c < a -> a <= b -> (forall v, a <= v <= b -> is_derive f v (f' v)) ->
    exists m, a <= m <= b /\ forall v, a <= v <= b -> gibbs m <= gibbs v.
  Proof.
    intros Ha Hab D. destruct (continuity_ab_min gibbs a b Hab) as (m & H1 & H2).
    - intros v Hv. apply continuity_pt_filterlim. apply (ex_derive_continuous gibbs). eexists. apply gibbs_derive; [lra | apply D; auto].
    - exists m. split; auto.
  Qed.
  Lemma min_flat m a b : c < a -> a < m < b -> is_derive f m (f' m) -> (forall v, a < v < b -> gibbs m <= gibbs v) -> N / m - f' m = P.
  Proof.
    intros Ha Hm D H. pose proof (gibbs_derive m ltac:(lra) D) as G.
    assert (G2 : derivable_pt_lim gibbs m (f' m - N / m + P)) by (apply is_derive_Reals; exact G).
    pose (pr := exist _ _ G2 : derivable_pt gibbs m). pose proof (deriv_minimum gibbs a b m pr ltac:(lra) ltac:(lra) ltac:(intros; apply H; lra)) as E.
    rewrite (derive_pt_eq_0 _ _ _ pr G2) in E. lra.
  Qed.

  (** every pressure is reached if the residual energy vanishes at low density *)
  Lemma reach_all : (forall v, c < v -> is_derive f v (f' v)) -> vanishes f ->
    exists v, c < v /\ N / v - f' v = P /\ forall v', c < v' -> gibbs v <= gibbs v'.
  Proof.
    intros D Van. set (v0 := c + 1). set (K := gibbs v0).
    destruct (gibbs_left v0 ltac:(unfold v0; lra)) as (a & Ha & La). fold K in La.
    destruct (Van 1 Rlt_0_1) as (V0 & HV). set (k := 2 * N / P). assert (Hk : 0 < k) by (apply Rdiv_lt_0_compat; lra).
    set (V1 := 2 * (K + 1 + N * ln k - N) / P).
    set (b := Rmax V0 (Rmax V1 v0) + 1). pose proof (Rmax_l V0 (Rmax V1 v0)). pose proof (Rmax_r V0 (Rmax V1 v0)). pose proof (Rmax_l V1 v0). pose proof (Rmax_r V1 v0).
    assert (Rb : forall v, b <= v -> K < gibbs v).
    { intros v Hv. unfold b in Hv. assert (Hv0 : 0 < v) by (unfold v0 in *; lra). specialize (HV v ltac:(lra)). apply Rabs_def2 in HV.
      assert (L : ln v <= v / k + ln k - 1).
      { replace v with (v / k * k) at 1 by (field; lra). rewrite ln_mult; [ | apply Rdiv_lt_0_compat; lra | lra].
        pose proof (exp_ineq1_le (ln (v / k))) as E. rewrite exp_ln in E by (apply Rdiv_lt_0_compat; lra). lra. }
      assert (L2 : N * ln v <= N * (v / k + ln k - 1)) by (apply Rmult_le_compat_l; lra).
      assert (L3 : N * (v / k) = P * v / 2) by (unfold k; field; lra).
      assert (L4 : P * V1 = 2 * (K + 1 + N * ln k - N)) by (unfold V1; field; lra).
      assert (L5 : P * V1 < P * v) by (apply Rmult_lt_compat_l; lra). unfold gibbs. lra. }
    assert (Hb : v0 < b) by (unfold b; lra).
    destruct (min_between a b ltac:(lra) ltac:(lra) ltac:(intros; apply D; lra)) as (m & Hm & Mn).
    assert (MK : gibbs m <= K) by (apply Mn; lra).
    assert (G : forall v', c < v' -> gibbs m <= gibbs v').
    { intros v' Hv'. destruct (Rle_lt_dec v' a) as [H3 | H3]; [specialize (La v' ltac:(lra)); lra | ].
      destruct (Rle_lt_dec b v') as [H4 | H4]; [specialize (Rb v' H4); lra | ]. apply Mn. lra. }
    exists m. split; [lra | ]. split; [ | exact G].
    apply (min_flat m ((c + a) / 2) (m + 1)); [lra | lra | apply D; lra | intros; apply G; lra].
  Qed.

  (** every pressure above that of a volume is reached at a smaller volume *)
  Lemma reach_above v1 : c < v1 -> (forall v, c < v <= v1 -> is_derive f v (f' v)) -> N / v1 - f' v1 <= P ->
    exists v, c < v <= v1 /\ N / v - f' v = P /\ forall v', c < v' <= v1 -> gibbs v <= gibbs v'.
  Proof.
    intros H1 D HP1. destruct (gibbs_left v1 H1) as (a & Ha & La).
    destruct (min_between a v1 ltac:(lra) ltac:(lra) ltac:(intros; apply D; lra)) as (m & Hm & Mn).
    assert (M1 : gibbs m <= gibbs v1) by (apply Mn; lra).
    assert (G : forall v', c < v' <= v1 -> gibbs m <= gibbs v').
    { intros v' Hv'. destruct (Rle_lt_dec v' a) as [H3 | H3]; [specialize (La v' ltac:(lra)); lra | ]. apply Mn. lra. }
    exists m. split; [lra | ]. split; [ | exact G].
    destruct (Rle_lt_or_eq_dec m v1 (proj2 Hm)) as [Hl | He].
    - apply (min_flat m ((c + a) / 2) v1); [lra | lra | apply D; lra | intros; apply G; lra].
    - assert (Hs : f' m - N / m + P <= 0); [ | rewrite He in *; lra].
      set (s := f' m - N / m + P). destruct (Rle_lt_dec s 0) as [H0 | H0]; auto. exfalso.
      pose proof (gibbs_derive m ltac:(lra) ltac:(apply D; lra)) as Gd. apply is_derive_Reals in Gd. fold s in Gd.
      destruct (Gd (s / 2) ltac:(lra)) as (d & Hd). pose proof (cond_pos d) as Pd. set (h := Rmin (d / 2) ((v1 - c) / 2)).
      assert (Hh : 0 < h) by (apply Rmin_pos; lra). pose proof (Rmin_l (d / 2) ((v1 - c) / 2)) as L1. pose proof (Rmin_r (d / 2) ((v1 - c) / 2)) as L2. fold h in L1, L2.
      specialize (Hd (- h) ltac:(lra)). rewrite Rabs_Ropp, Rabs_right in Hd by lra. specialize (Hd ltac:(lra)). apply Rabs_def2 in Hd.
      assert (Gh : gibbs m <= gibbs (m + - h)) by (apply G; lra).
      assert (Q : (gibbs (m + - h) - gibbs m) / - h <= 0).
      { replace ((gibbs (m + - h) - gibbs m) / - h) with (- ((gibbs (m + - h) - gibbs m) * / h)) by (field; lra).
        assert (0 <= (gibbs (m + - h) - gibbs m) * / h) by (apply Rmult_le_pos; [lra | left; apply Rinv_0_lt_compat; auto]). lra. }
      lra.
  Qed.
End Minimum.

(* ------------------------------------------------------------------ the equation of state *)
Section Npt.
  Variables (prs : list (pure_record RNum)) (bin : list (list R)) (p : params RNum).
  Hypothesis Hp : from_records prs bin = Some p.
  Hypothesis Hph : phys p.
  Variables (t : R) (moles : list R).
  Hypothesis Ht : 0 < t.
  Hypothesis Hlen : length moles = length (p_m p).
  Hypothesis Hnn : forall i, (i < length (p_m p))%nat -> 0 <= nth i moles 0.
  Hypothesis Hne : exists i, (i < length (p_m p))%nat /\ 0 < nth i moles 0.
  Notation cst := (fun r : R => (Fin r, Fin 0)).      (* Dual64 constant *)
  Notation var := (fun r : R => (Fin r, Fin 1)).      (* Dual64 variable *)
  Notation D1 := (lK (dual 1)).
  Notation eosD o := (with_options (plift (emb (TRn 1)) p) (lift_options (emb (TRn 1)) o)).
  Let total := Sum i < length (p_m p), nth i moles 0.
  Lemma total_pos : 0 < total.
  Proof. destruct Hne as (i & Hi & H). apply (rsum_pos _ _ i); auto; [intros j Hj; apply Hnn; apply in_seq in Hj; lia | apply in_seq; lia]. Qed.
  Let st v := @state_new RNum t v moles.

  (** The pressure in units of kB T at volume v: N/v minus the eps part of the residual Helmholtz energy with a seeded
      volume. *)
  Definition reduced_pressure lu2 o v P : Prop :=
    exists a r, residual lu2 (eosD o) (@state_new D1 (cst t) (var v) (map cst moles)) = Some (Fin a, Fin r) /\ total / v - r = P.

  Lemma slope lu lu2 o f v : (forall V, residual lu (with_options p o) (st V) = Some (f V)) -> close p t moles < v -> regular_point p t v moles o ->
    exists r, residual lu2 (eosD o) (@state_new D1 (cst t) (var v) (map cst moles)) = Some (Fin (f v), Fin r) /\ is_derive f v r.
  Proof.
    intros Hf Hv Rg. destruct (C08_pressure prs bin p Hp Hph t v moles (PSv p Hph t moles Ht Hlen Hnn Hne v Hv) lu lu2 o Rg) as (A & r & E1 & E2 & E3).
    assert (E : forall V, A V = f V). { intros V. apply Some_inj. rewrite <- E1, <- Hf. reflexivity. }
    exists r. split; [rewrite <- E; exact E2 | ]. eapply is_derive_ext; [exact E | exact E3].
  Qed.

  (** Any mixture of non-associating components without a pole of the polar terms anywhere. *)
  Theorem C56_regular lu lu2 o P :
    let X := mix_of p in let rc := fun i => nth i moles 0 / close p t moles in
    p_nassoc p = 0%nat -> (forall v, close p t moles < v -> regular_point p t v moles o) ->
    (p_ndipole p = 0%nat \/ dd2 X t rc <> dd3 X t rc) ->
    (p_nquadpole p = 0%nat \/ qq2_code X t rc <> qq3 X t rc) ->
    (p_ndipole p = 0%nat \/ p_nquadpole p = 0%nat \/ dq2 X t rc (fst (dq_exps (o_dq o))) (snd (dq_exps (o_dq o))) <> dq3 X t rc) ->
    vanishes (fun v => a_dipole p (st v)) -> vanishes (fun v => a_quadrupole p (st v)) -> vanishes (fun v => a_dq p (o_dq o) (st v)) ->
    0 < P ->
    exists f, (forall v, residual lu (with_options p o) (st v) = Some (f v)) /\
    exists v, close p t moles < v /\ reduced_pressure lu2 o v P /\
      forall v', close p t moles < v' -> f v - total * ln v + P * v <= f v' - total * ln v' + P * v'.
  Proof.
    intros X rc Na0 Rg C1 C2 C3 V1 V2 V3 HP. pose proof (wfp_from_records _ _ _ Hp) as W.
    assert (NoA : forall a, p_assoc_comp p = [a] -> False) by (intros a Ha; rewrite (w_na _ W), Ha in Na0; discriminate).
    destruct (C55_residual p W Hph t moles Ht Hlen Hnn Hne lu o C1 C2 C3 ltac:(lia) ltac:(intros a Ha; destruct (NoA a Ha))) as (f & Hf & Dv).
    exists f. split; [exact Hf | ].
    assert (Van : vanishes f).
    { assert (E : forall v, f v = a_hs p (st v) + a_hc p (st v) + a_disp p (st v) + a_dipole p (st v) + a_quadrupole p (st v) + a_dq p (o_dq o) (st v)).
      { intros v. specialize (Hf v). rewrite residual_total in Hf. unfold assoc_term in Hf. rewrite Na0 in Hf. apply Some_inj in Hf. rewrite <- Hf. apply Rplus_0_r. }
      assert (Vs : vanishes (fun v => a_hs p (st v) + a_hc p (st v) + a_disp p (st v) + a_dipole p (st v) + a_quadrupole p (st v) + a_dq p (o_dq o) (st v))).
      { apply (vanishes_plus (fun v => _ + _) (fun v => a_dq p (o_dq o) (st v))); [ | exact V3].
        apply (vanishes_plus (fun v => _ + _) (fun v => a_quadrupole p (st v))); [ | exact V2].
        apply (vanishes_plus (fun v => _ + _) (fun v => a_dipole p (st v))); [ | exact V1].
        apply (vanishes_plus (fun v => _ + _) (fun v => a_disp p (st v))); [ | apply C06_dispersion; auto].
        apply (vanishes_plus (fun v => a_hs p (st v)) (fun v => a_hc p (st v))); [apply C06_hard_sphere | apply C06_hard_chain]; auto. }
      intros eps He. destruct (Vs eps He) as (V0 & HV). exists V0. intros v Hv. rewrite E. auto. }
    assert (Dr : forall v, close p t moles < v -> is_derive f v (Derive f v)).
    { intros v Hv. destruct (slope lu lu2 o f v Hf Hv (Rg v Hv)) as (r & _ & D). apply Derive_correct. exists r. exact D. }
    destruct (reach_all f (Derive f) (close p t moles) total P (close_pos p Hph t moles Ht Hnn Hne) total_pos HP Dv Dr Van) as (v & Hv & E & G).
    exists v. split; [exact Hv | ]. split; [ | exact G].
    destruct (slope lu lu2 o f v Hf Hv (Rg v Hv)) as (r & E2 & D). exists (f v), r. split; [exact E2 | ]. rewrite <- (is_derive_unique f v r D). exact E.
  Qed.

  (** Non-polar, non-associating mixtures: every temperature, composition and positive pressure. *)
  Theorem C56_npt lu lu2 o P :
    p_ndipole p = 0%nat -> p_nquadpole p = 0%nat -> p_nassoc p = 0%nat -> 0 < P ->
    exists f, (forall v, residual lu (with_options p o) (st v) = Some (f v)) /\
    exists v, close p t moles < v /\ reduced_pressure lu2 o v P /\
      forall v', close p t moles < v' -> f v - total * ln v + P * v <= f v' - total * ln v' + P * v'.
  Proof.
    intros H1 H2 H3 HP. pose proof (wfp_from_records _ _ _ Hp) as W.
    assert (Z : forall g : R -> R, (forall v, g v = 0) -> vanishes g). { intros g Hg eps He. exists 0. intros v _. rewrite Hg, Rabs_R0. exact He. }
    apply C56_regular; auto.
    - intros v Hv. split; [congruence | ]. split; [congruence | ]. split; [congruence | ]. split; [lia | ].
      intros a Ha. rewrite (w_na _ W), Ha in H3. discriminate.
    - apply Z. intros v. apply a_dipole_none; auto.
    - apply Z. intros v. apply a_quadrupole_none; auto.
    - apply Z. intros v. apply a_dq_none_d; auto.
  Qed.

  (* ---------------------------------------------------------------- one associating component *)
  Section Dense.
    Let X := mix_of p.
    Let rho (v : R) := fun i => nth i moles 0 / v.
    Lemma g_u_mono i j u1 u2 : (i < length (p_m p))%nat -> (j < length (p_m p))%nat -> 0 <= u1 <= u2 -> u2 * close p t moles < 1 ->
      0 <= g_u p t moles i j u1 <= g_u p t moles i j u2.
    Proof.
      intros Hi Hj Hu H2. pose proof (close_pos p Hph t moles Ht Hnn Hne) as Hc. pose proof (Zp p Hph t moles Ht Hnn Hne 2) as P2. cbv beta in P2.
      unfold g_u. change (Zeta (mix_of p) t (fun i => nth i moles 0) 3) with (close p t moles).
      pose proof (Di_pos p Hph t Ht i Hi) as Pi. pose proof (Di_pos p Hph t Ht j Hj) as Pj.
      set (D := Di _ t i * _ / _). assert (PD : 0 < D) by (apply Rdiv_lt_0_compat; [apply Rmult_lt_0_compat | apply Rplus_lt_0_compat]; auto).
      set (z := Zeta _ _ _ 2) in *. set (c := close p t moles) in *. clearbody D z c. clear Pi Pj.
      assert (U : u1 * c <= u2 * c) by (apply Rmult_le_compat_r; lra).
      pose (w1 := / (1 - u1 * c)). pose (w2 := / (1 - u2 * c)).
      assert (Q1 : 0 < w1) by (apply Rinv_0_lt_compat; lra). assert (Q2 : w1 <= w2) by (apply Rinv_le_contravar; lra).
      pose (y1 := u1 * z). pose (y2 := u2 * z). assert (Y : 0 <= y1 <= y2) by (unfold y1, y2; split; [apply Rmult_le_pos; lra | apply Rmult_le_compat_r; lra]).
      assert (F : forall u w y, w = / (1 - u * c) -> y = u * z -> 1 / (1 - u * c) + D * (3 * (u * z) / (1 - u * c) ^ 2) + D ^ 2 * (2 * (u * z) ^ 2 / (1 - u * c) ^ 3) = w + 3 * (D * (y * w ^ 2)) + 2 * (D ^ 2 * (y ^ 2 * w ^ 3))).
      { intros u w y -> ->. unfold Rdiv. rewrite !pow_inv. ring. }
      rewrite (F u1 w1 y1), (F u2 w2 y2) by reflexivity. clearbody w1 w2 y1 y2. clear F U.
      assert (A2 : 0 <= w1 ^ 2 <= w2 ^ 2) by (split; [apply pow_le; lra | apply pow_incr; lra]).
      assert (A3 : 0 <= w1 ^ 3 <= w2 ^ 3) by (split; [apply pow_le; lra | apply pow_incr; lra]).
      assert (B2 : 0 <= y1 ^ 2 <= y2 ^ 2) by (split; [apply pow_le; lra | apply pow_incr; lra]).
      assert (C1 : 0 <= y1 * w1 ^ 2 <= y2 * w2 ^ 2) by (split; [apply Rmult_le_pos; lra | apply Rmult_le_compat; lra]).
      assert (C2 : 0 <= y1 ^ 2 * w1 ^ 3 <= y2 ^ 2 * w2 ^ 3) by (split; [apply Rmult_le_pos; lra | apply Rmult_le_compat; lra]).
      assert (D2 : 0 <= D ^ 2) by (apply pow_le; lra).
      assert (E1 : 0 <= D * (y1 * w1 ^ 2) <= D * (y2 * w2 ^ 2)) by (split; [apply Rmult_le_pos; lra | apply Rmult_le_compat_l; lra]).
      assert (E2 : 0 <= D ^ 2 * (y1 ^ 2 * w1 ^ 3) <= D ^ 2 * (y2 ^ 2 * w2 ^ 3)) by (split; [apply Rmult_le_pos; lra | apply Rmult_le_compat_l; lra]).
      lra.
    Qed.
    (** compression strengthens association *)
    Lemma strength_mono a v v1 : (a < length (p_m p))%nat -> 0 <= Eab X a -> close p t moles < v <= v1 ->
      Delta X t (rho v1) a a * rho v1 a <= Delta X t (rho v) a a * rho v a.
    Proof.
      intros Hi He Hv. pose proof (close_pos p Hph t moles Ht Hnn Hne) as Hc.
      set (k := Sij X a a ^ 3 * Kapij X a a * (exp ((Eab X a + Eab X a) / 2 / t) - 1)).
      assert (Pc : 0 <= k).
      { destruct (Hph a Hi) as (_ & Hs & _). change (0 < Sg X a) in Hs. assert (HS : 0 < Sij X a a) by (unfold Sij; lra). unfold k. apply Rmult_le_pos; [apply Rmult_le_pos | ].
        - left; apply pow_lt; auto.
        - unfold Kapij. apply Rmult_le_pos; [apply sqrt_pos | ]. apply pow_le. apply Rmult_le_pos; [apply sqrt_pos | ]. left; apply Rinv_0_lt_compat; auto.
        - assert (E0 : 0 <= (Eab X a + Eab X a) / 2 / t) by (apply Rmult_le_pos; [lra | left; apply Rinv_0_lt_compat; auto]). pose proof (exp_ineq1_le ((Eab X a + Eab X a) / 2 / t)). lra. }
      assert (I1 : 0 < / v1) by (apply Rinv_0_lt_compat; lra). assert (I2 : / v1 <= / v) by (apply Rinv_le_contravar; lra).
      assert (I3 : / v * close p t moles < 1). { apply Rmult_lt_reg_l with v; [lra | ]. rewrite <- Rmult_assoc, Rinv_r by lra. lra. }
      assert (G : 0 <= Gij X t (rho v1) a a <= Gij X t (rho v) a a).
      { unfold X, rho. rewrite !(g_v p t moles). apply g_u_mono; auto; lra. }
      assert (R : 0 <= rho v1 a <= rho v a).
      { unfold rho, Rdiv. pose proof (Hnn a Hi). split; [apply Rmult_le_pos; lra | apply Rmult_le_compat_l; lra]. }
      replace (Delta X t (rho v1) a a * rho v1 a) with (k * (Gij X t (rho v1) a a * rho v1 a)) by (unfold Delta, k; ring).
      replace (Delta X t (rho v) a a * rho v a) with (k * (Gij X t (rho v) a a * rho v a)) by (unfold Delta, k; ring).
      apply Rmult_le_compat_l; auto. apply Rmult_le_compat; lra.
    Qed.

    (** One associating component with both kinds of sites: as long as association is strong enough for the quadratic
        to be solved exactly at volume v1, every pressure from that of v1 upwards is reached at a volume between close
        packing and v1. *)
    Theorem C56_compressed lu lu2 o a v1 P1 P :
      p_ndipole p = 0%nat -> p_nquadpole p = 0%nat -> p_assoc_comp p = [a] -> assoc_phys p ->
      0 < Na X a -> 0 < Nb X a -> Na X a + Nb X a <= 2 ^ 26 ->
      close p t moles < v1 -> / 2 ^ 26 < Delta X t (rho v1) a a * rho v1 a ->
      reduced_pressure lu2 o v1 P1 -> P1 <= P -> 0 < P ->
      exists f, (forall v, residual lu (with_options p o) (st v) = Some (f v)) /\
      exists v, close p t moles < v <= v1 /\ reduced_pressure lu2 o v P /\
        forall v', close p t moles < v' <= v1 -> f v - total * ln v + P * v <= f v' - total * ln v' + P * v'.
    Proof.
      intros H1 H2 Ha As Pa Pb Ns Hv1 Hst RP1 HP1 HP. pose proof (wfp_from_records _ _ _ Hp) as W.
      pose proof (assoc_lt p W a Ha) as Hal. destruct (As a Hal) as (_ & Ea & _). change (0 <= Eab X a) in Ea.
      assert (N1 : p_nassoc p = 1%nat) by (rewrite (w_na _ W), Ha; reflexivity).
      destruct (C55_residual p W Hph t moles Ht Hlen Hnn Hne lu o (or_introl H1) (or_introl H2) (or_introl H1) ltac:(lia)
        ltac:(intros b Hb; assert (a = b) as <- by congruence; auto)) as (f & Hf & Dv).
      exists f. split; [exact Hf | ].
      assert (Rg : forall v, close p t moles < v <= v1 -> regular_point p t v moles o).
      { intros v Hv. split; [congruence | ]. split; [congruence | ]. split; [congruence | ]. split; [lia | ].
        intros b Hb. assert (a = b) as <- by congruence. split; [exact As | ]. split; [exact Pa | ]. split; [auto | ].
        pose proof (strength_mono a v v1 Hal Ea Hv) as S1. unfold rho in S1, Hst. fold X. intros E. rewrite E in S1. lra. }
      assert (Dr : forall v, close p t moles < v <= v1 -> is_derive f v (Derive f v)).
      { intros v Hv. destruct (slope lu lu2 o f v Hf ltac:(lra) (Rg v Hv)) as (r & _ & D). apply Derive_correct. exists r. exact D. }
      assert (Q : total / v1 - Derive f v1 <= P).
      { destruct (slope lu lu2 o f v1 Hf Hv1 (Rg v1 ltac:(lra))) as (r & E2 & D). destruct RP1 as (a' & r' & E3 & E4). rewrite E2 in E3. apply Some_inj in E3.
        assert (Fin r = Fin r') as E5 by congruence. assert (r = r') as <- by congruence. rewrite (is_derive_unique f v1 r D). lra. }
      destruct (reach_above f (Derive f) (close p t moles) total P (close_pos p Hph t moles Ht Hnn Hne) total_pos HP Dv v1 Hv1 Dr Q) as (v & Hv & E & G).
      exists v. split; [exact Hv | ]. split; [ | exact G].
      destruct (slope lu lu2 o f v Hf ltac:(lra) (Rg v Hv)) as (r & E2 & D). exists (f v), r. split; [exact E2 | ]. rewrite <- (is_derive_unique f v r D). exact E.
    Qed.
  End Dense.
End Npt.

(* ------------------------------------------------------------------ cases *)
Definition bp : params RNum := from_records_raw [pr_butane; pr_propane] (zeros 2).
Lemma bp_ok : from_records [pr_butane; pr_propane] (zeros 2) = Some bp. Proof. reflexivity. Qed.
Lemma bp_phys : phys bp.
Proof. intros i Hi. cbn in Hi. destruct i as [ | [ | i]]; cbn; try lra; lia. Qed.
Lemma bp_recs : forall pr, In pr [pr_butane; pr_propane] -> physical_record (pr_model pr).
Proof. intros pr [<- | [<- | []]]; unfold physical_record; cbn; lra. Qed.
Lemma bp_none : p_ndipole bp = 0%nat /\ p_nquadpole bp = 0%nat /\ p_nassoc bp = 0%nat.
Proof.
  destruct (C17_index_sets _ _ _ bp_ok bp_recs) as (A & B & C & E1 & E2 & E3). rewrite E1, E2, E3.
  rewrite (none_set _ _ _ A), (none_set _ _ _ B), (none_set _ _ _ C); auto; intros pr [<- | [<- | []]]; cbn; lra.
Qed.
(** butane + propane at 300 K: two-phase at moderate pressures, yet every pressure has a stable volume *)
Example C56_case P : 0 < P ->
  exists f, (forall v, residual (fun _ _ => None) (with_options bp default_options) (@state_new RNum 300 v [1; 2]) = Some (f v)) /\
    exists v, close bp 300 [1; 2] < v /\ reduced_pressure bp 300 [1; 2] (fun _ _ => None) default_options v P /\
      forall v', close bp 300 [1; 2] < v' -> f v - 3 * ln v + P * v <= f v' - 3 * ln v' + P * v'.
Proof.
  intros HP. destruct bp_none as (E1 & E2 & E3).
  assert (Ht : 0 < 300) by lra.
  assert (Hnn : forall i, (i < length (p_m bp))%nat -> 0 <= nth i [1; 2] 0) by (intros i Hi; cbn in Hi; destruct i as [ | [ | i]]; cbn; try lra; lia).
  assert (Hne : exists i, (i < length (p_m bp))%nat /\ 0 < nth i [1; 2] 0) by (exists 0%nat; cbn; split; [lia | lra]).
  assert (T : (Sum i < length (p_m bp), nth i [1; 2] 0) = 3) by (cbn; lra).
  pose proof (C56_npt _ _ _ bp_ok bp_phys 300 [1; 2] Ht eq_refl Hnn Hne (fun _ _ => None) (fun _ _ => None) default_options P E1 E2 E3 HP) as H.
  rewrite T in H. exact H.
Qed.

(** butane + water at 300 K, compressed from a volume of 260 cubic angstrom *)
Lemma bw_delta : / 2 ^ 26 < Delta (mix_of bw) 300 (fun i => nth i [1; 2] 0 / 260) 1 1 * (nth 1 [1; 2] 0 / 260).
Proof.
  unfold Delta, Gij, Kapij, Zeta, Sij, Di. change (N (mix_of bw)) with 2%nat. unfold rsum. cbn [seq fold_right map].
  change (M (mix_of bw) 0) with (2.331586). change (M (mix_of bw) 1) with (1.065587).
  change (Sg (mix_of bw) 0) with (3.708601). change (Sg (mix_of bw) 1) with (3.000683).
  change (Ep (mix_of bw) 0) with (222.8774). change (Ep (mix_of bw) 1) with (366.5121).
  change (Kab (mix_of bw) 1) with (0.034867983). change (Eab (mix_of bw) 1) with (2500.6706).
  cbn [nth]. interval.
Qed.
Lemma bw_close : close bw 300 [1; 2] < 260.
Proof.
  unfold close, Di. change (length (p_m bw)) with 2%nat. unfold rsum. cbn [seq fold_right map].
  change (M (mix_of bw) 0) with (2.331586). change (M (mix_of bw) 1) with (1.065587).
  change (Sg (mix_of bw) 0) with (3.708601). change (Sg (mix_of bw) 1) with (3.000683).
  change (Ep (mix_of bw) 0) with (222.8774). change (Ep (mix_of bw) 1) with (366.5121).
  cbn [nth]. interval.
Qed.
Example C56_compressed_case : exists P1, reduced_pressure bw 300 [1; 2] (fun _ _ => None) default_options 260 P1 /\
  forall P, P1 <= P -> 0 < P ->
  exists f, (forall v, residual (fun _ _ => None) (with_options bw default_options) (@state_new RNum 300 v [1; 2]) = Some (f v)) /\
    exists v, close bw 300 [1; 2] < v <= 260 /\ reduced_pressure bw 300 [1; 2] (fun _ _ => None) default_options v P.
Proof.
  assert (Ht : 0 < 300) by lra.
  assert (Hnn : forall i, (i < length (p_m bw))%nat -> 0 <= nth i [1; 2] 0) by (intros i Hi; cbn in Hi; destruct i as [ | [ | i]]; cbn; try lra; lia).
  assert (Hne : exists i, (i < length (p_m bw))%nat /\ 0 < nth i [1; 2] 0) by (exists 0%nat; cbn; split; [lia | lra]).
  assert (As : assoc_phys bw) by (intros i Hi; cbn in Hi; destruct i as [ | [ | i]]; try lia; cbn; repeat split; lra).
  assert (H1 : 0 < Na (mix_of bw) 1) by (cbn; lra). assert (H2 : 0 < Nb (mix_of bw) 1) by (cbn; lra). assert (H3 : Na (mix_of bw) 1 + Nb (mix_of bw) 1 <= 2 ^ 26) by (cbn; lra).
  destruct bw_none as (E1 & E2).
  assert (Rg : regular_point bw 300 260 [1; 2] default_options).
  { split; [congruence | ]. split; [congruence | ]. split; [congruence | ]. split.
    - change (p_nassoc bw) with (length (p_assoc_comp bw)). rewrite bw_comp. cbn. lia.
    - intros a Ha. rewrite bw_comp in Ha. assert (a = 1%nat) as -> by congruence. split; [exact As | ]. split; [exact H1 | ]. split; [intros _; exact H3 | ]. pose proof bw_delta. lra. }
  pose proof (PSv bw bw_phys 300 [1; 2] Ht eq_refl Hnn Hne 260 bw_close) as PS.
  destruct (C08_pressure _ _ _ bw_ok bw_phys 300 260 [1; 2] PS (fun _ _ => None) (fun _ _ => None) default_options Rg) as (A & r & _ & E & _).
  set (P1 := (Sum i < length (p_m bw), nth i [1; 2] 0) / 260 - r).
  assert (RP : reduced_pressure bw 300 [1; 2] (fun _ _ => None) default_options 260 P1) by (exists (A 260), r; split; [exact E | reflexivity]).
  exists P1. split; [exact RP | ]. intros P HP1 HP.
  destruct (C56_compressed _ _ _ bw_ok bw_phys 300 [1; 2] Ht eq_refl Hnn Hne (fun _ _ => None) (fun _ _ => None) default_options 1 260 P1 P
    E1 E2 bw_comp As H1 H2 H3 bw_close bw_delta RP HP1 HP) as (f & Hf & v & Hv & Hr & _).
  exists f. split; [exact Hf | ]. exists v. split; [exact Hv | exact Hr].
Qed.
Print Assumptions C56_regular.
Print Assumptions C56_npt.
Print Assumptions C56_compressed.
Print Assumptions C56_case.
Print Assumptions C56_compressed_case.
