(** C60, C61: the second virial coefficient in closed form, its dependence on temperature (Boyle
    temperature) and on composition. *)
From Coq Require Import ZArith QArith Reals Lra Lia String List Bool.
From Coquelicot Require Import Coquelicot.
From Interval Require Import Tactic.
From Verif Require Import Num RNum RSum Tables M_Params F_Params M_Eos M_Virial Spec F_Spec F_SpecPolar F_SpecAssoc
  F_Contrib F_Cross F_Total F_Limit P_Limit P_Select F_Transfer XNum F_Transfer2 DNum F_Level P_Dual F_Virial F_Taylor F_Virial2 Samples P_Split P_Conform P_Virial.
Import ListNotations.
Local Open Scope R_scope.
Set Bullet Behavior "Strict Subproofs".
Notation length := List.length.

(* ------------------------------------------------------------------------ specification *)
(** Second virial coefficient of a mixture with mole fractions x: low-density limit of the
    published contributions (volume per molecule). *)
Section Spec.
  Variable X : mixture.
  Variable T : R.
  Variable x : nat -> R.
  Definition sm (k : nat) : R := Sum i < N X, x i * M X i * Di X T i ^ k.
  Definition B_hs : R := PI / 6 * (sm 0 * sm 3 + 3 * sm 1 * sm 2).
  Definition B_hc : R := - (PI / 6) * Sum i < N X, x i * (M X i - 1) * (sm 3 + 3 / 2 * Di X T i * sm 2).
  (** integral of first and second order of a chain of mean length m at vanishing density *)
  Definition I0 (c0 c1 c2 : list Q) (m : R) : R := lit c0 0 + (m - 1) / m * lit c1 0 + (m - 1) / m * ((m - 2) / m) * lit c2 0.
  Definition B_disp : R :=
    - 2 * PI * I0 A0 A1 A2 (Mbar X x) * mixsum X T x 1 - PI * Mbar X x * I0 B0 B1 B2 (Mbar X x) * mixsum X T x 2.
  Definition J0 (a b : list (list Q)) (i j : nat) : R := cm a 0 (m2 X i j) + cm b 0 (m2 X i j) * (Eij0 X i j / T).
  Definition B_dd : R := - PI * Sum i < N X, Sum j < N X,
    x i * x j * (Wi X T 3 i * Wi X T 3 j / Sij X i j ^ 3 * Mu2 X i * Mu2 X j) * J0 AD BD i j.
  (** as coded: the diameter of the component with the smaller index (see C39) *)
  Definition B_qq : R := - PI * (3 / 4) ^ 2 * Sum i < N X, Sum j < N X,
    x i * x j * (Wi X T 5 i * Wi X T 5 j / Sg X (Nat.min i j) ^ 7 * Qu2 X i * Qu2 X j) * J0 AQ BQ i j.
  Definition B_dq (kd kq : nat) : R := - (9 / 4) * PI * Sum i < N X, Sum j < N X,
    x i * x j * (Wi X T kd i * Wi X T kq j / Sij X i j ^ 5 * Mu2 X i * Qu2 X j) * J0 ADQ BDQ i j.
  (** bonds between two molecules of the same component *)
  Definition B_bond (a : nat) : R :=
    - (if Rltb 0 (Nb X a) then Na X a * Nb X a else Na X a ^ 2 / 2)
    * (x a ^ 2 * (Sij X a a ^ 3 * Kapij X a a * (exp ((Eab X a + Eab X a) / 2 / T) - 1))).
  Definition B_assoc (l : list nat) : R := match l with [a] => B_bond a | _ => 0 end.
End Spec.
Definition B_spec (p : params RNum) (o : options RNum) (T : R) (x : list R) : R :=
  let X := mix_of p in let f := fun i => nth i x 0 in
  B_hs X T f + B_hc X T f + B_disp X T f + B_dd X T f + B_qq X T f + B_dq X T f (fst (dq_exps (o_dq o))) (snd (dq_exps (o_dq o)))
  + B_assoc X T f (p_assoc_comp p).

(* ---------------------------------------------------------------------------- limits *)
Lemma tends_deriv (F f : R -> R) l V1 : is_derive F 0 l -> F 0 = 0 -> (forall v, V1 < v -> f v = F (/ v)) -> tends (fun v => v * f v) l.
Proof.
  intros D Z E. apply is_derive_Reals in D. intros eps He. destruct (D eps He) as (del & Hd).
  exists (Rmax V1 (/ del)). intros v Hv. pose proof (Rmax_l V1 (/ del)). pose proof (Rmax_r V1 (/ del)).
  assert (Pd : 0 < / del) by (apply Rinv_0_lt_compat; apply cond_pos). assert (Pv : 0 < v) by lra. assert (Pi : 0 < / v) by (apply Rinv_0_lt_compat; auto).
  assert (S : / v < del). { rewrite <- (Rinv_inv del). apply Rinv_lt_contravar; [apply Rmult_lt_0_compat; auto | lra]. }
  specialize (Hd (/ v) ltac:(lra)). rewrite Rplus_0_l, Z, Rminus_0_r in Hd. rewrite (Rabs_right (/ v)) in Hd by lra. specialize (Hd S).
  rewrite E by lra. unfold Rdiv in Hd. rewrite Rinv_inv in Hd. rewrite (Rmult_comm v). exact Hd.
Qed.

Lemma is_derive_rsum {A} (l : list A) (f : A -> R -> R) (g : A -> R) u : (forall a, In a l -> is_derive (f a) u (g a)) ->
  is_derive (fun u => rsum l (fun a => f a u)) u (rsum l g).
Proof.
  induction l as [ | a l IH]; intros H.
  - cbn [rsum]. apply (is_derive_const 0).
  - cbn [rsum]. apply (is_derive_plus (f a) (fun u => rsum l (fun a => f a u))); [apply H; left; auto | apply IH; intros b Hb; apply H; right; auto].
Qed.

Section Formula.
  Variables (prs : list (pure_record RNum)) (bin : list (list R)) (p : params RNum).
  Hypothesis Hp : from_records prs bin = Some p.
  Hypothesis Hph : phys p.
  Variables (t : R) (x : list R).
  Hypothesis Ht : 0 < t.
  Hypothesis Hlen : length x = length (p_m p).
  Hypothesis Hnn : forall i, (i < length (p_m p))%nat -> 0 <= nth i x 0.
  Hypothesis Hsum : rsum x (fun xi => xi) = 1.
  Let W : wfp p := wfp_from_records _ _ _ Hp.
  Let X := mix_of p.
  Let nn := fun i => nth i x 0.
  Let rho (v : R) := fun i => nth i x 0 / v.
  Let Z k := Zeta X t nn k.
  Let st (v : R) := @state_new RNum t v x.
  Let Hne := frac_ne p x Hlen Hsum.
  Lemma Z3pos : 0 < Zeta X t nn 3. Proof. exact (Z_pos p Hph t x Ht Hnn Hne 3). Qed.

  Lemma Z_sm k : Z k = PI / 6 * sm X t nn k. Proof. reflexivity. Qed.

  Lemma low_hs : tends (fun v => v * a_hs p (st v)) (B_hs X t nn).
  Proof.
    apply (tends_deriv (hs_u p t x) _ _ (Z 3)).
    - unfold hs_u. fold X nn. pose proof PI_RGT_0 as Pp. unfold B_hs.
      replace (PI / 6 * (sm X t nn 0 * sm X t nn 3 + 3 * sm X t nn 1 * sm X t nn 2)) with (6 / PI * (3 * Z 1 * Z 2 + Z 0 * Z 3)) by (rewrite !Z_sm; field; lra).
      unfold Z. pose proof Z3pos as P3. revert P3. generalize (Zeta X t nn 3) (Zeta X t nn 2) (Zeta X t nn 1) (Zeta X t nn 0). intros z z2 z1 z0 Hz.
      auto_derive; [rewrite !Rmult_0_l, !Ropp_0, !Rplus_0_r; repeat split; auto; lra | ].
      rewrite !Rmult_0_l, !Ropp_0, !Rplus_0_r. field. lra.
    - unfold hs_u. rewrite !Rmult_0_l, Rminus_0_r, ln_1. unfold Rdiv. rewrite ?Rmult_0_l. ring.
    - intros v Hv. unfold st. rewrite (hs_textbook p W Hph t v x (eventually_state p Hph t x Ht Hlen Hnn Hne v Hv)).
      change (v * f_hs X t (rho v) = hs_u p t x (/ v)). unfold f_hs, hs_u.
      assert (E3 : forall k, Zeta X t (rho v) k = / v * Zeta X t nn k) by (intros k; apply (Zeta_v p t x)). rewrite !E3. fold X nn.
      pose proof (usmall p Hph t x Ht Hlen Hnn Hne v Hv) as U. pose proof (vpos p Hph t x Ht Hnn Hne v Hv) as Pv.
      fold X nn in U. pose proof Z3pos as P3. revert U P3. unfold Z. set (l := ln _). clearbody l.
      generalize (Zeta X t nn 3) (Zeta X t nn 2) (Zeta X t nn 1) (Zeta X t nn 0). intros z3 z2 z1 z0 U H3. pose proof PI_RGT_0. field. assert (0 < v - z3) by (replace (v - z3) with (v * (1 - / v * z3)) by (field; lra); apply Rmult_lt_0_compat; auto). repeat split; lra.
  Qed.
  Lemma low_hc : tends (fun v => v * a_hc p (st v)) (B_hc X t nn).
  Proof.
    apply (tends_deriv (hc_u p t x) _ _ (Z 3)).
    - unfold hc_u, B_hc. fold X nn. rewrite Ropp_mult_distr_l_reverse.
      apply (is_derive_opp (fun u => Sum i < N X, nn i * (M X i - 1) * ln (g_u p t x i i u))).
      rewrite <- rsum_scal. apply (is_derive_rsum _ (fun i u => nn i * (M X i - 1) * ln (g_u p t x i i u))). intros i Hi. apply seq_in in Hi.
      pose proof (Di_pos p Hph t Ht i Hi) as Pd. fold X in Pd.
      unfold g_u. fold X nn. replace (PI / 6 * (nn i * (M X i - 1) * (sm X t nn 3 + 3 / 2 * Di X t i * sm X t nn 2))) with (nn i * (M X i - 1) * (Z 3 + 3 / 2 * Di X t i * Z 2)) by (rewrite !Z_sm; field).
      unfold Z. revert Pd. generalize (Zeta X t nn 3) (Zeta X t nn 2) (Di X t i) (nn i * (M X i - 1)). intros z3 z2 d k Pd.
      auto_derive; [rewrite !Rmult_0_l, !Ropp_0, !Rplus_0_r; repeat split; auto; try lra | ].
      all: rewrite ?Rmult_0_l, ?Rmult_0_r, ?Ropp_0, ?Rplus_0_r, ?Rmult_0_l, ?Rmult_0_r, ?Rplus_0_r; try lra. field. lra.
    - unfold hc_u. rewrite (Sum_ext _ _ (fun _ => 0)).
      + rewrite rsum_zero; auto. apply Ropp_0.
      + intros i Hi. rewrite g_0, ln_1. ring.
    - intros v Hv. unfold st. rewrite (hc_textbook p W Hph t v x (eventually_state p Hph t x Ht Hlen Hnn Hne v Hv)).
      change (v * f_hc X t (rho v) = hc_u p t x (/ v)). unfold f_hc, hc_u. fold X nn.
      pose proof (vpos p Hph t x Ht Hnn Hne v Hv) as Pv. rewrite Ropp_mult_distr_r_reverse. f_equal. rewrite <- rsum_scal.
      apply Sum_ext. intros i Hi. assert (E3 : Gij X t (rho v) i i = g_u p t x i i (/ v)) by (apply (g_v p t x)). rewrite E3. generalize (ln (g_u p t x i i (/ v))). intros y.
      unfold rho, nn. field. lra.
  Qed.
  Lemma low_disp : tends (fun v => v * a_disp p (st v)) (B_disp X t nn).
  Proof.
    set (F := fun u => - 2 * PI * ps_u p t x A0 A1 A2 u * mixsum X t nn 1 - PI * Mbar X nn * c1_u p t x u * ps_u p t x B0 B1 B2 u * mixsum X t nn 2).
    assert (P0 : forall c0 c1 c2, ps_u p t x c0 c1 c2 0 = I0 c0 c1 c2 (Mbar X nn)).
    { intros. unfold ps_u, I0. fold X nn. rewrite Rmult_0_l. unfold rsum. cbn [seq pow]. ring. }
    assert (C0 : c1_u p t x 0 = 1) by (unfold c1_u; fold X nn; rewrite Rmult_0_l; field).
    replace (B_disp X t nn) with (F 0) by (unfold F, B_disp; rewrite !P0, C0; ring).
    apply (tends_cont F _ (Z 3)).
    - pose proof (ps_cont p t x A0 A1 A2) as CA. pose proof (ps_cont p t x B0 B1 B2) as CB. pose proof (c1_cont p t x) as CC. unfold F.
      apply (continuous_minus (fun u => - 2 * PI * ps_u p t x A0 A1 A2 u * mixsum X t nn 1)
                              (fun u => PI * Mbar X nn * c1_u p t x u * ps_u p t x B0 B1 B2 u * mixsum X t nn 2)).
      + apply (continuous_mult (fun u => - 2 * PI * ps_u p t x A0 A1 A2 u) (fun _ => mixsum X t nn 1)); [ | apply continuous_const].
        apply (continuous_mult (fun _ => - 2 * PI) (ps_u p t x A0 A1 A2)); [apply continuous_const | auto].
      + apply (continuous_mult (fun u => PI * Mbar X nn * c1_u p t x u * ps_u p t x B0 B1 B2 u) (fun _ => mixsum X t nn 2)); [ | apply continuous_const].
        apply (continuous_mult (fun u => PI * Mbar X nn * c1_u p t x u) (ps_u p t x B0 B1 B2)); [ | auto].
        apply (continuous_mult (fun _ => PI * Mbar X nn) (c1_u p t x)); [apply continuous_const | auto].
    - intros v Hv. unfold st. rewrite (disp_textbook p W t v x (eventually_state p Hph t x Ht Hlen Hnn Hne v Hv)).
      pose proof (vpos p Hph t x Ht Hnn Hne v Hv) as Pv.
      change (v * (v * f_disp X t (rho v)) = F (/ v)). unfold f_disp, F.
      assert (E1 : forall k, mixsum X t (rho v) k = (/ v) ^ 2 * mixsum X t nn k) by (intros k; apply (mixsum_v p t x)).
      assert (E2 : Mbar X (rho v) = Mbar X nn) by (apply (Mbar_v p x); auto). assert (E3 : Zeta X t (rho v) 3 = / v * Zeta X t nn 3) by apply (Zeta_v p t x).
      rewrite !E1, E2.
      replace (power_series X t (rho v) A0 A1 A2) with (ps_u p t x A0 A1 A2 (/ v))
        by (unfold power_series, ps_u, Eta; rewrite E3, E2; reflexivity).
      replace (power_series X t (rho v) B0 B1 B2) with (ps_u p t x B0 B1 B2 (/ v))
        by (unfold power_series, ps_u, Eta; rewrite E3, E2; reflexivity).
      replace (C1 X t (rho v)) with (c1_u p t x (/ v))
        by (unfold C1, c1_u, Eta; rewrite E3, E2; reflexivity).
      generalize (ps_u p t x A0 A1 A2 (/ v)) (ps_u p t x B0 B1 B2 (/ v)) (c1_u p t x (/ v)) (mixsum X t nn 1) (mixsum X t nn 2) (Mbar X nn).
      intros. field. lra.
  Qed.
  Lemma low_poly (c : nat -> R) k (f : R -> R) : (0 < k)%nat -> (forall v, f v = v * ((/ v) ^ 2 * polyn c k (/ v))) -> tends (fun v => v * f v) (c 0%nat).
  Proof.
    intros Hk E. rewrite <- (polyn_0 c k Hk). apply (tends_cont (polyn c k) _ 0); [apply polyn_cont | ].
    intros v Hv. rewrite E. generalize (polyn c k (/ v)). intros y. field. lra.
  Qed.
  Lemma low_dd : tends (fun v => v * dd2_term p (st v)) (B_dd X t nn).
  Proof.
    replace (B_dd X t nn) with (dd_alpha p t x 0); [apply (low_poly _ 5); [lia | ]; intros v; apply (dd2_term_v prs bin p Hp Hph t x Hlen) | ].
    unfold dd_alpha, pair_coef, pair_int, B_dd, J0. fold X nn. rewrite pow_O, Rmult_1_r. reflexivity.
  Qed.
  Lemma low_qq : tends (fun v => v * qq2_term p (st v)) (B_qq X t nn).
  Proof.
    replace (B_qq X t nn) with (qq_alpha p t x 0); [apply (low_poly _ 5); [lia | ]; intros v; apply (qq2_term_v prs bin p Hp Hph t x Hlen) | ].
    unfold qq_alpha, pair_coef, pair_int, B_qq, J0. fold X nn. rewrite pow_O, Rmult_1_r. reflexivity.
  Qed.
  Lemma low_dq var : tends (fun v => v * dq2_term p var (st v)) (B_dq X t nn (fst (dq_exps var)) (snd (dq_exps var))).
  Proof.
    replace (B_dq X t nn (fst (dq_exps var)) (snd (dq_exps var))) with (dq_alpha p t x var 0); [apply (low_poly _ 4); [lia | ]; intros v; apply (dq2_term_v prs bin p Hp Hph t x Hlen) | ].
    unfold dq_alpha, pair_coef, pair_int, B_dq, J0. fold X nn. rewrite pow_O, Rmult_1_r. reflexivity.
  Qed.

  (* association of one component *)
  Section OneSite.
    Variable a : nat.
    Hypothesis Ha : p_assoc_comp p = [a].
    Let K := Sij X a a ^ 3 * Kapij X a a * (exp ((Eab X a + Eab X a) / 2 / t) - 1).
    Let d_u (u : R) : R := g_u p t x a a u * K * (u * nn a).
    Lemma bd_derive : is_derive d_u 0 (K * nn a).
    Proof.
      unfold d_u. replace (K * nn a) with (plus (mult 0 0) (mult (g_u p t x a a 0 * K) (nn a))).
      2:{ rewrite g_0. unfold plus, mult; simpl. ring. }
      destruct (g_ex p t x a a) as (l & Hl).
      replace (mult 0 0) with (mult (l * K) (0 * nn a)) by (unfold mult; simpl; ring).
      apply (is_derive_mult (fun u => g_u p t x a a u * K) (fun u => u * nn a)).
      - replace (l * K) with (plus (mult l K) (mult (g_u p t x a a 0) 0)) by (unfold plus, mult; simpl; ring).
        apply (is_derive_mult (g_u p t x a a) (fun _ => K)); [exact Hl | apply (is_derive_const K) | intros; apply Rmult_comm].
      - auto_derive; auto. ring.
      - intros; apply Rmult_comm.
    Qed.
    Lemma bd_0 : d_u 0 = 0.
    Proof. unfold d_u. ring. Qed.
    Lemma bd_v v : Delta X t (rho v) a a * rho v a = d_u (/ v).
    Proof.
      unfold Delta, d_u, K. change (Gij X t (rho v) a a) with (Gij (mix_of p) t (fun i => nth i x 0 / v) a a).
      rewrite g_v. unfold rho, nn, Rdiv. ring.
    Qed.
    Lemma bd_small : exists V1, Z 3 <= V1 /\ forall v, V1 < v -> d_u (/ v) <= / 67108864.
    Proof.
      assert (Ed : ex_derive d_u 0) by (eexists; apply bd_derive).
      destruct (continuous_bound d_u (ex_derive_continuous _ _ Ed) (/ 67108864)) as (e & He & HB); [lra | ].
      exists (Rmax (Z 3) (/ e)). split; [apply Rmax_l | ]. intros v Hv.
      pose proof (Rmax_r (Z 3) (/ e)). destruct (inv_small e v He) as [_ Hi]; [lra | ].
      specialize (HB (/ v) ltac:(lra)). rewrite bd_0, Rminus_0_r in HB.
      pose proof (Rle_abs (d_u (/ v))). lra.
    Qed.
    Let na := Na X a.
    Let nb := Nb X a.
    Let x_ab (d : R) : R := 1 + d * nb * (d * (nb + na) - 1).
    Let x_a (d : R) : R := 1 + d * na * (d * na * 2 - 1).
    Let w (d : R) : R := if Rltb 0 nb then nn a * (fx (x_ab d) * na + fx ((x_ab d - 1) * (na / nb) + 1) * nb)
                         else nn a * fx (x_a d) * na.
    Lemma low_bond : tends (fun v => v * a_assoc p (st v)) (B_bond X t nn a).
    Proof.
      destruct bd_small as (V1 & HV1 & Hs).
      apply (tends_deriv (fun u => w (d_u u)) _ _ V1).
      - replace (B_bond X t nn a) with (scal (K * nn a) (- (if Rltb 0 nb then na * nb else na ^ 2 / 2) * nn a)).
        2:{ change (K * nn a * (- (if Rltb 0 nb then na * nb else na ^ 2 / 2) * nn a) = B_bond X t nn a). unfold B_bond. fold na nb. unfold K. ring. }
        apply (is_derive_comp w d_u); [ | apply bd_derive]. rewrite bd_0. unfold w.
        destruct (Rltb 0 nb) eqn:Eb.
        + assert (0 < nb) by (apply Rltb_true; auto). clearbody nb na. unfold fx, x_ab. generalize (nn a). intros k.
          auto_derive; [rewrite ?Rmult_0_l, ?Rplus_0_r; repeat split; lra | ].
          rewrite ?Rmult_0_l, ?Rplus_0_r. field. repeat split; lra.
        + clearbody nb na. unfold fx, x_a. generalize (nn a). intros k.
          auto_derive; [rewrite ?Rmult_0_l, ?Rplus_0_r; repeat split; lra | ].
          rewrite ?Rmult_0_l, ?Rplus_0_r. field. 
      - rewrite bd_0. unfold w, x_ab, x_a. replace (1 + 0 * nb * (0 * (nb + na) - 1)) with 1 by ring. replace (1 + 0 * na * (0 * na * 2 - 1)) with 1 by ring.
        replace ((1 - 1) * (na / nb) + 1) with 1 by ring. rewrite fx_1. destruct (Rltb 0 nb); ring.
      - intros v Hv. assert (PS : phys_state p t v x) by (apply eventually_state; auto; unfold Z, X, nn in *; lra).
        unfold a_assoc. rewrite Ha. change (ixn [a] 0) with a. cbv zeta.
        change (s_t (st v)) with t. unfold st.
        rewrite (assoc_deltarho p W Hph t v x PS a Ha).
        change (Delta (mix_of p) t (fun i : nat => nth i x 0 / v) a a * (nth a x 0 / v)) with (Delta X t (rho v) a a * rho v a).
        rewrite bd_v. specialize (Hs v Hv).
        change (@ix RNum (p_na p) a) with na. change (@ix RNum (p_nb p) a) with nb.
        change (@ix RNum (s_moles (@state_new RNum t v x)) a) with (nn a).
        change (@nltb RNum n0 nb) with (Rltb (@n0 RNum) nb). replace (@n0 RNum) with 0 by (rn; lra). unfold w.
        destruct (Rltb 0 nb).
        + rewrite !f_assoc_R. unfold assoc_site_frac_ab. rewrite sqrt_eps_R.
          change (@nltb RNum) with Rltb. rewrite (proj2 (Rltb_false _ _)) by lra.
          set (d := d_u (/ v)). unfold x_ab. rn. f_equal.
        + rewrite !f_assoc_R. unfold assoc_site_frac_a. rewrite sqrt_eps_R.
          change (@nltb RNum) with Rltb. rewrite (proj2 (Rltb_false _ _)) by lra.
          set (d := d_u (/ v)). unfold x_a. rn. f_equal.
    Qed.
  End OneSite.

  Lemma low_assoc : tends (fun v => v * assoc_low p (st v)) (B_assoc X t nn (p_assoc_comp p)).
  Proof.
    unfold assoc_low, B_assoc. rewrite (w_na _ W).
    assert (T0 : tends (fun v => v * 0) 0).
    { unfold tends. apply (vanishes_eventually _ (fun _ => 0) 0); [intros; ring | apply vanishes_0]. }
    destruct (p_assoc_comp p) as [ | a [ | b r]] eqn:Ea; cbn [length Nat.eqb]; auto. apply (low_bond a Ea).
  Qed.
  Lemma low_tends o : tends (fun v => v * low p o (st v)) (B_spec p o t x).
  Proof.
    unfold low, B_spec. cbv zeta. fold X nn.
    apply (tends_eventually _ (fun v => v * a_hs p (st v) + v * a_hc p (st v) + v * a_disp p (st v) + v * dd2_term p (st v)
      + v * qq2_term p (st v) + v * dq2_term p (o_dq o) (st v) + v * assoc_low p (st v)) _ 0); [intros; ring | ].
    apply (tends_plus (fun v => _ + _) (fun v => v * assoc_low p (st v))); [ | apply low_assoc].
    apply (tends_plus (fun v => _ + _) (fun v => v * dq2_term p (o_dq o) (st v))); [ | apply low_dq].
    apply (tends_plus (fun v => _ + _) (fun v => v * qq2_term p (st v))); [ | apply low_qq].
    apply (tends_plus (fun v => _ + _) (fun v => v * dd2_term p (st v))); [ | apply low_dd].
    apply (tends_plus (fun v => _ + _) (fun v => v * a_disp p (st v))); [ | apply low_disp].
    apply (tends_plus (fun v => v * a_hs p (st v)) (fun v => v * a_hc p (st v))); [apply low_hs | apply low_hc].
  Qed.

  (** The second virial coefficient of any mixture is the closed expression. *)
  Theorem C60_formula lu2 o : second_virial lu2 p o t x = Some (Fin (B_spec p o t x)).
  Proof.
    destruct (second_value _ _ _ Hp Hph x Hlen Hnn Hsum lu2 o t Ht) as (b & E & Pr). rewrite E. f_equal. f_equal.
    destruct (taylor2 (fun r => low p o (@state_virial RNum t r x)) (2 * b) Pr) as (c0 & c1 & Fl).
    destruct (expand2 _ c0 c1 _ Fl (F_v _ _ _ Hp Hph t x Ht Hlen Hnn Hsum o)) as (_ & T2).
    replace (2 * b / 2) with b in T2 by field. eapply tends_unique; [exact T2 | ].
    eapply (tends_eventually _ _ _ 0) with (2 := low_tends o). intros v Hv. cbv beta.
    rewrite (low_scaled p t x Hsum o v Hv). unfold st. generalize (low p o (@state_new RNum t v x)). intros y. field. lra.
  Qed.
End Formula.

(* ------------------------------------------------------------------ pure substances *)
Definition red (m x : R) : R :=
  (1 - 12 / 100 * exp (- 3 * x)) ^ 3 * (3 / 2 * m + 5 / 2) - 6 * m * (2 * I0 A0 A1 A2 m * x + m * I0 B0 B1 B2 m * x ^ 2).
Definition pol (a b : list (list Q)) (mp x : R) : R := x ^ 2 * (cm a 0 mp + cm b 0 mp * x).
Definition bonds (na nb : R) : R := if Rltb 0 nb then na * nb else na ^ 2 / 2.

Lemma I0_bounds m : 1 / 2 <= m -> 162 / 100 * m + 27 / 10 < 12 * m * I0 A0 A1 A2 m /\ 0 < I0 B0 B1 B2 m.
Proof.
  intros Hm. set (y := / m). assert (Py : 0 < y) by (apply Rinv_0_lt_compat; lra).
  assert (Ey : m * y = 1) by (apply Rinv_r; lra). assert (Uy : y <= 2) by nra.
  assert (E : forall c0 c1 c2, I0 c0 c1 c2 m = lit c0 0 + (1 - y) * lit c1 0 + (1 - y) * (1 - 2 * y) * lit c2 0).
  { intros. unfold I0. replace ((m - 1) / m) with (1 - y) by (unfold y; field; lra). replace ((m - 2) / m) with (1 - 2 * y) by (unfold y; field; lra). reflexivity. }
  rewrite !E. unfold lit, Rlit. cbn [nth A0 A1 A2 B0 B1 B2 Qnum Qden].
  pose proof (Rmult_le_pos y (2 - y) ltac:(lra) ltac:(lra)) as Q1. pose proof (Rmult_le_pos y y ltac:(lra) ltac:(lra)) as Q2.
  split; [ | nra].
  assert (K : 162 / 100 + 27 / 10 * y < 12 * (IZR (Qnum (nth 0 A0 0%Q)) / IZR (Zpos (Qden (nth 0 A0 0%Q))) + (1 - y) * (IZR (Qnum (nth 0 A1 0%Q)) / IZR (Zpos (Qden (nth 0 A1 0%Q)))) + (1 - y) * (1 - 2 * y) * (IZR (Qnum (nth 0 A2 0%Q)) / IZR (Zpos (Qden (nth 0 A2 0%Q)))))).
  { cbn [nth A0 A1 A2 B0 B1 B2 Qnum Qden]. nra. }
  cbn [nth A0 A1 A2 B0 B1 B2 Qnum Qden] in K.
  apply (Rmult_lt_compat_l m) in K; [ | lra]. replace (m * (162 / 100 + 27 / 10 * y)) with (162 / 100 * m + 27 / 10 * (m * y)) in K by ring. rewrite Ey in K. lra.
Qed.

Lemma exp_mn a b : a <= b -> exp a <= exp b.
Proof. intros [L | E]; [left; apply exp_increasing; auto | rewrite E; lra]. Qed.
Lemma red_decr m x y : 1 / 2 <= m -> 0 <= x < y -> red m y < red m x.
Proof.
  intros Hm Hx. destruct (I0_bounds m Hm) as (Ha & Hb). unfold red.
  set (a := I0 A0 A1 A2 m) in *. set (b := I0 B0 B1 B2 m) in *. clearbody a b.
  assert (D : (1 - 12 / 100 * exp (- 3 * y)) ^ 3 - (1 - 12 / 100 * exp (- 3 * x)) ^ 3 <= 108 / 100 * (y - x)).
  { set (E := exp (- 3 * x)). assert (E1 : E <= 1) by (unfold E; rewrite <- exp_0; apply exp_mn; lra). pose proof (exp_pos (- 3 * x)) as E0. fold E in E0.
    set (F := exp (- 3 * y)). pose proof (exp_pos (- 3 * y)) as F0. fold F in F0.
    assert (L : F <= E) by (unfold E, F; apply exp_mn; lra).
    assert (G : E - F <= 3 * (y - x)).
    { replace F with (E * exp (- (3 * (y - x)))) by (unfold E, F; rewrite <- exp_plus; f_equal; ring).
      pose proof (exp_ineq1_le (- (3 * (y - x)))). assert (exp (- (3 * (y - x))) <= 1) by (rewrite <- exp_0; apply exp_mn; lra). nra. }
    clearbody E F. assert (K : (1 - 12 / 100 * F) ^ 3 - (1 - 12 / 100 * E) ^ 3 <= 3 * (12 / 100 * (E - F))).
    { set (u := 1 - 12 / 100 * F). set (w := 1 - 12 / 100 * E). replace (12 / 100 * (E - F)) with (u - w) by (unfold u, w; ring).
      replace (u ^ 3 - w ^ 3) with ((u * u + u * w + w * w) * (u - w)) by ring.
      apply Rmult_le_compat_r; [unfold u, w; lra | ]. assert (0 <= w <= 1) by (unfold w; lra). assert (0 <= u <= 1) by (unfold u; lra). nra. }
    lra. }
  set (Dy := (1 - 12 / 100 * exp (- 3 * y)) ^ 3) in *. set (Dx := (1 - 12 / 100 * exp (- 3 * x)) ^ 3) in *. clearbody Dx Dy.
  assert (H1 : (Dy - Dx) * (3 / 2 * m + 5 / 2) <= 108 / 100 * (y - x) * (3 / 2 * m + 5 / 2)) by (apply Rmult_le_compat_r; lra).
  assert (H2 : (y - x) * (162 / 100 * m + 27 / 10) < (y - x) * (12 * m * a)) by (apply Rmult_lt_compat_l; lra).
  assert (H3 : 0 <= m * (m * b * (y ^ 2 - x ^ 2))). { apply Rmult_le_pos; [lra | ]. apply Rmult_le_pos; [apply Rmult_le_pos; lra | nra]. }
  nra.
Qed.
Lemma red_0 m : 1 / 2 <= m -> 0 < red m 0.
Proof. intros. unfold red. rewrite Rmult_0_r, exp_0. assert (0 < (1 - 12 / 100 * 1) ^ 3) by (apply pow_lt; lra). nra. Qed.
Lemma red_1 m : 1 / 2 <= m -> red m 1 < 0.
Proof.
  intros Hm. destruct (I0_bounds m Hm) as (Ha & Hb). unfold red. set (a := I0 A0 A1 A2 m) in *. set (b := I0 B0 B1 B2 m) in *.
  pose proof (exp_mn (- 3 * 1) 0 ltac:(lra)) as E. rewrite exp_0 in E. pose proof (exp_pos (- 3 * 1)).
  set (E3 := exp (- 3 * 1)) in *. assert (D : (1 - 12 / 100 * E3) ^ 3 <= 1) by (rewrite <- (pow1 3); apply pow_incr; lra).
  set (D3 := (1 - 12 / 100 * E3) ^ 3) in *. clearbody D3 a b.
  assert (0 <= m * m * b) by (apply Rmult_le_pos; [apply Rmult_le_pos; lra | lra]). nra.
Qed.

(** combined polar terms of a substance with 1 <= m, not above the reduced inverse temperature 1 *)
Lemma pol_incr mp x y u w : 1 <= mp <= 2 -> 0 <= x < y -> y <= 1 -> 0 <= u -> 0 <= w ->
  u ^ 2 * pol AD BD mp x + (3 / 4) ^ 2 * w ^ 2 * pol AQ BQ mp x + 9 / 4 * u * w * pol ADQ BDQ mp x
  <= u ^ 2 * pol AD BD mp y + (3 / 4) ^ 2 * w ^ 2 * pol AQ BQ mp y + 9 / 4 * u * w * pol ADQ BDQ mp y.
Proof.
  intros Hm Hx Hy Hu Hw. set (h := 2 / 3 * ((x * x + x * y + y * y) / (x + y))).
  assert (Hh : 0 <= h <= 1).
  { unfold h. split.
    - apply Rmult_le_pos; [lra | ]. apply Rmult_le_pos; [nra | left; apply Rinv_0_lt_compat; lra].
    - apply Rmult_le_reg_r with (3 / 2 * (x + y)); [lra | ]. replace (2 / 3 * ((x * x + x * y + y * y) / (x + y)) * (3 / 2 * (x + y))) with (x * x + x * y + y * y) by (field; lra). nra. }
  assert (P : forall a b, pol a b mp y - pol a b mp x = (y - x) * (x + y) / 2 * (2 * cm a 0 mp + 3 * h * cm b 0 mp)).
  { intros a b. unfold pol, h. generalize (cm a 0 mp) (cm b 0 mp). intros. field. lra. }
  assert (S : 0 <= u ^ 2 * (2 * cm AD 0 mp + 3 * h * cm BD 0 mp) + (3 / 4) ^ 2 * w ^ 2 * (2 * cm AQ 0 mp + 3 * h * cm BQ 0 mp) + 9 / 4 * u * w * (2 * cm ADQ 0 mp + 3 * h * cm BDQ 0 mp)).
  { assert (S1 : 2 / 10 <= 2 * cm AD 0 mp + 3 * h * cm BD 0 mp).
    { unfold cm, q1, q12, lit2, Rlit. cbn [nth AD BD Qnum Qden]. interval with (i_bisect mp, i_bisect h, i_autodiff mp). }
    assert (S2 : 7 / 10 <= 2 * cm AQ 0 mp + 3 * h * cm BQ 0 mp).
    { unfold cm, q1, q12, lit2, Rlit. cbn [nth AQ BQ Qnum Qden]. interval with (i_bisect mp, i_bisect h, i_autodiff mp). }
    assert (S3 : - (1 / 10) <= 2 * cm ADQ 0 mp + 3 * h * cm BDQ 0 mp).
    { unfold cm, q1, q12, lit2, Rlit. cbn [nth ADQ BDQ Qnum Qden]. interval with (i_bisect mp, i_bisect h, i_autodiff mp). }
    revert S1 S2 S3. generalize (2 * cm AD 0 mp + 3 * h * cm BD 0 mp) (2 * cm AQ 0 mp + 3 * h * cm BQ 0 mp) (2 * cm ADQ 0 mp + 3 * h * cm BDQ 0 mp). intros s1 s2 s3 S1 S2 S3.
    assert (U : 0 <= u * w) by (apply Rmult_le_pos; auto).
    assert (T1 : u ^ 2 * (2 / 10) <= u ^ 2 * s1) by (apply Rmult_le_compat_l; [apply pow2_ge_0 | auto]).
    assert (T2 : w ^ 2 * (7 / 10) <= w ^ 2 * s2) by (apply Rmult_le_compat_l; [apply pow2_ge_0 | auto]).
    assert (T3 : u * w * (- (1 / 10)) <= u * w * s3) by (apply Rmult_le_compat_l; auto).
    pose proof (pow2_ge_0 (u - w)). pose proof (pow2_ge_0 u). pose proof (pow2_ge_0 w). nra. }
  pose proof (P AD BD) as P1. pose proof (P AQ BQ) as P2. pose proof (P ADQ BDQ) as P3.
  assert (G : 0 <= (y - x) * (x + y) / 2) by nra. pose proof (Rmult_le_pos _ _ G S) as R0.
  revert P1 P2 P3 R0. generalize (2 * cm AD 0 mp + 3 * h * cm BD 0 mp) (2 * cm AQ 0 mp + 3 * h * cm BQ 0 mp) (2 * cm ADQ 0 mp + 3 * h * cm BDQ 0 mp) (pol AD BD mp x) (pol AD BD mp y) (pol AQ BQ mp x) (pol AQ BQ mp y) (pol ADQ BDQ mp x) (pol ADQ BDQ mp y).
  intros s1 s2 s3 a1 a2 b1 b2 c1 c2 P1 P2 P3 R0.
  replace ((y - x) * (x + y) / 2 * (u ^ 2 * s1 + (3 / 4) ^ 2 * w ^ 2 * s2 + 9 / 4 * u * w * s3))
    with (u ^ 2 * ((y - x) * (x + y) / 2 * s1) + (3 / 4) ^ 2 * w ^ 2 * ((y - x) * (x + y) / 2 * s2) + 9 / 4 * u * w * ((y - x) * (x + y) / 2 * s3)) in R0 by ring.
  rewrite <- P1, <- P2, <- P3 in R0. lra.
Qed.

Section Pure.
  Variables (prs : list (pure_record RNum)) (bin : list (list R)) (p : params RNum).
  Hypothesis Hp : from_records prs bin = Some p.
  Hypothesis Hph : phys p.
  Hypothesis H1 : length (p_m p) = 1%nat.
  Let X := mix_of p.
  Hypothesis Hk : Kij X 0 0 = 0.
  Let m := M X 0. Let s := Sg X 0. Let e := Ep X 0. Let u := Mu2 X 0. Let w := Qu2 X 0.
  Let W : wfp p := wfp_from_records _ _ _ Hp.
  (** strength of the bonds *)
  Let ka := bonds (Na X 0) (Nb X 0) * (s ^ 3 * Kapij X 0 0).
  Definition B_pure (T : R) : R :=
    PI / 6 * m * s ^ 3 * red m (e / T)
    - PI * s ^ 3 * (u ^ 2 * pol AD BD (mp X 0) (e / T) + (3 / 4) ^ 2 * w ^ 2 * pol AQ BQ (mp X 0) (e / T) + 9 / 4 * u * w * pol ADQ BDQ (mp X 0) (e / T))
    - ka * (exp (Eab X 0 / T) - 1).
  Lemma one_pos : 0 < m /\ 0 < s /\ 0 < e.
  Proof. destruct (Hph 0%nat ltac:(lia)) as (A & B & C). repeat split; assumption. Qed.
  Lemma one_sum (f : nat -> R) : rsum (seq 0 (N X)) f = f 0%nat.
  Proof. change (N X) with (length (p_m p)). rewrite H1. cbn [seq rsum]. ring. Qed.
  Lemma one_len : length [1] = length (p_m p). Proof. rewrite H1. reflexivity. Qed.
  Lemma one_nn i : (i < length (p_m p))%nat -> 0 <= nth i [1] 0. Proof. rewrite H1. intros Hi. destruct i; [cbn; lra | lia]. Qed.
  Lemma one_frac : rsum [1] (fun xi => xi) = 1. Proof. cbn. ring. Qed.
  Lemma one_s : Sij X 0 0 = s. Proof. unfold Sij. fold s. field. Qed.
  Lemma one_e0 : Eij0 X 0 0 = e. Proof. unfold Eij0. fold e. apply sqrt_square. pose proof one_pos. lra. Qed.
  Lemma one_e : Eij X 0 0 = e. Proof. unfold Eij. rewrite Hk, one_e0. ring. Qed.
  Lemma one_m2 : m2 X 0 0 = mp X 0. Proof. unfold m2. apply sqrt_square. unfold mp. fold m. pose proof one_pos. apply Rmin_glb; lra. Qed.
  Lemma one_assoc T : B_assoc X T (fun i => nth i [1] 0) (p_assoc_comp p) = - ka * (exp (Eab X 0 / T) - 1).
  Proof.
    assert (Eb : B_bond X T (fun i => nth i [1] 0) 0 = - ka * (exp (Eab X 0 / T) - 1)).
    { unfold B_bond, ka. fold (bonds (Na X 0) (Nb X 0)). rewrite one_s. cbn [nth]. replace ((Eab X 0 + Eab X 0) / 2 / T) with (Eab X 0 / T) by (f_equal; field). ring. }
    unfold B_assoc. rewrite (w_ass _ W), H1. cbn [seq filter]. destruct (nonzero (@ix RNum (p_kappa_ab p) 0)) eqn:E0; auto.
    assert (K0 : Kab X 0 = 0).
    { apply nonzero_R_false in E0. exact E0. }
    unfold ka, Kapij. rewrite K0, Rmult_0_l, sqrt_0. ring.
  Qed.
  Theorem pure_B o T : 0 < T -> B_spec p o T [1] = B_pure T.
  Proof.
    intros HT. destruct one_pos as (Pm & Ps & Pe). unfold B_spec. cbv zeta. fold X.
    rewrite one_assoc. unfold B_hs, B_hc, B_disp, B_dd, B_qq, B_dq, sm, mixsum, Mbar, Rho. rewrite !one_sum. cbn [nth Nat.min].
    unfold J0. rewrite !one_m2, !one_e0, !one_s, !one_e. unfold Wi. fold m s e u w.
    replace (1 * m / 1) with m by field. unfold B_pure, red, pol.
    assert (Ed : Di X T 0 = s * (1 - 12 / 100 * exp (- 3 * (e / T)))) by (unfold Di; fold s e; f_equal; f_equal; f_equal; f_equal; unfold Rdiv; ring).
    rewrite Ed. set (x := e / T). set (E := exp (- 3 * x)).
    generalize (I0 A0 A1 A2 m) (I0 B0 B1 B2 m) (cm AD 0 (mp X 0)) (cm BD 0 (mp X 0)) (cm AQ 0 (mp X 0)) (cm BQ 0 (mp X 0)) (cm ADQ 0 (mp X 0)) (cm BDQ 0 (mp X 0)).
    clearbody E x u w. intros. destruct (o_dq o); cbn [dq_exps fst snd]; field; lra.
  Qed.
  Theorem pure_value lu2 o T : 0 < T -> second_virial lu2 p o T [1] = Some (Fin (B_pure T)).
  Proof. intros HT. rewrite (C60_formula _ _ _ Hp Hph T [1] HT one_len one_nn one_frac lu2 o), pure_B by auto. reflexivity. Qed.

  (** as a function of the reduced inverse temperature *)
  Definition Bx (x : R) : R :=
    PI / 6 * m * s ^ 3 * red m x
    - PI * s ^ 3 * (u ^ 2 * pol AD BD (mp X 0) x + (3 / 4) ^ 2 * w ^ 2 * pol AQ BQ (mp X 0) x + 9 / 4 * u * w * pol ADQ BDQ (mp X 0) x)
    - ka * (exp (Eab X 0 / e * x) - 1).
  Lemma pure_x T : 0 < T -> B_pure T = Bx (e / T).
  Proof. intros HT. destruct one_pos as (_ & _ & Pe). unfold B_pure, Bx. replace (Eab X 0 / e * (e / T)) with (Eab X 0 / T) by (field; lra). reflexivity. Qed.
  Lemma Bx_cont : continuity Bx.
  Proof.
    intros x. apply continuity_pt_filterlim. apply (ex_derive_continuous Bx). unfold Bx, red, pol.
    generalize (I0 A0 A1 A2 m) (I0 B0 B1 B2 m) (cm AD 0 (mp X 0)) (cm BD 0 (mp X 0)) (cm AQ 0 (mp X 0)) (cm BQ 0 (mp X 0)) (cm ADQ 0 (mp X 0)) (cm BDQ 0 (mp X 0)).
    intros. auto_derive. auto.
  Qed.

  (** attractive bonds, if any *)
  Hypothesis Hbond : Kab X 0 = 0 \/ (0 <= Na X 0 /\ 0 <= Eab X 0).
  Lemma ka_nn : 0 <= ka.
  Proof.
    destruct one_pos as (_ & Ps & _). unfold ka. destruct Hbond as [K0 | [A _]].
    - unfold Kapij. rewrite K0, Rmult_0_l, sqrt_0. lra.
    - apply Rmult_le_pos.
      + unfold bonds. destruct (Rltb 0 (Nb X 0)) eqn:E; [apply Rltb_true in E; apply Rmult_le_pos; lra | pose proof (pow2_ge_0 (Na X 0)); lra].
      + apply Rmult_le_pos; [apply pow_le; lra | ]. unfold Kapij. apply Rmult_le_pos; [apply sqrt_pos | ]. apply pow_le. rewrite one_s.
        apply Rmult_le_pos; [apply sqrt_pos | left; apply Rinv_0_lt_compat; auto].
  Qed.
  Lemma bond_incr x y : x <= y -> ka * (exp (Eab X 0 / e * x) - 1) <= ka * (exp (Eab X 0 / e * y) - 1).
  Proof.
    intros L. pose proof ka_nn as Kn. destruct one_pos as (_ & _ & Pe). destruct Hbond as [K0 | [_ A]].
    - assert (K1 : ka = 0) by (unfold ka, Kapij; rewrite K0, Rmult_0_l, sqrt_0; ring). rewrite K1. lra.
    - apply Rmult_le_compat_l; auto. assert (0 <= Eab X 0 / e) by (apply Rmult_le_pos; [auto | left; apply Rinv_0_lt_compat; auto]).
      pose proof (exp_mn (Eab X 0 / e * x) (Eab X 0 / e * y) ltac:(apply Rmult_le_compat_l; auto)). lra.
  Qed.
  Lemma front_pos : 0 < PI / 6 * m * s ^ 3 /\ 0 < PI * s ^ 3.
  Proof. destruct one_pos as (A & B & _). pose proof PI_RGT_0. pose proof (pow_lt s 3 B). split; apply Rmult_lt_0_compat; auto. apply Rmult_lt_0_compat; lra. Qed.
  Lemma u_nn : 0 <= u. Proof. exact (mu2_nn _ _ _ Hp Hph 0 ltac:(lia)). Qed.
  Lemma w_nn : 0 <= w. Proof. exact (qu2_nn _ _ _ Hp Hph 0 ltac:(lia)). Qed.

  Section Range.
    (** a range of reduced inverse temperatures on which the polar attraction grows *)
    Variable xm : R.
    Hypothesis Hr : (u = 0 /\ w = 0 /\ 1 / 2 <= m) \/ (1 <= m /\ xm <= 1).
    Lemma m_half : 1 / 2 <= m. Proof. destruct Hr as [(_ & _ & A) | (A & _)]; lra. Qed.
    Lemma Bx_decr x y : 0 <= x < y -> y <= xm -> Bx y < Bx x.
    Proof.
      intros Hx Hy. destruct front_pos as (F1 & F2). unfold Bx.
      pose proof (Rmult_lt_compat_l _ _ _ F1 (red_decr m x y m_half Hx)) as R1. pose proof (bond_incr x y ltac:(lra)) as R2.
      assert (R3 : u ^ 2 * pol AD BD (mp X 0) x + (3 / 4) ^ 2 * w ^ 2 * pol AQ BQ (mp X 0) x + 9 / 4 * u * w * pol ADQ BDQ (mp X 0) x
        <= u ^ 2 * pol AD BD (mp X 0) y + (3 / 4) ^ 2 * w ^ 2 * pol AQ BQ (mp X 0) y + 9 / 4 * u * w * pol ADQ BDQ (mp X 0) y).
      { destruct Hr as [(A & B & _) | (A & B)].
        - rewrite A, B. lra.
        - apply pol_incr; auto using u_nn, w_nn; [ | lra]. unfold mp. fold m. split; [apply Rmin_glb; lra | apply Rmin_r]. }
      apply (Rmult_le_compat_l _ _ _ (Rlt_le _ _ F2)) in R3. lra.
    Qed.
    Lemma Bx_0 : 0 < Bx 0.
    Proof.
      destruct front_pos as (F1 & F2). unfold Bx, pol. rewrite (Rmult_0_r (Eab X 0 / e)), exp_0. pose proof (Rmult_lt_0_compat _ _ F1 (red_0 m m_half)) as R0.
      replace (0 ^ 2) with 0 by ring. rewrite !Rmult_0_l, !Rmult_0_r. lra.
    Qed.
    Lemma Bx_1 : 1 <= xm -> Bx 1 < 0.
    Proof.
      intros H. destruct front_pos as (F1 & F2). pose proof (Rmult_lt_compat_l _ _ _ F1 (red_1 m m_half)) as R1.
      pose proof (bond_incr 0 1 ltac:(lra)) as R2. rewrite (Rmult_0_r (Eab X 0 / e)), exp_0 in R2.
      assert (R3 : 0 <= u ^ 2 * pol AD BD (mp X 0) 1 + (3 / 4) ^ 2 * w ^ 2 * pol AQ BQ (mp X 0) 1 + 9 / 4 * u * w * pol ADQ BDQ (mp X 0) 1).
      { destruct Hr as [(A & B & _) | (A & B)].
        - rewrite A, B. lra.
        - eapply Rle_trans; [ | apply (pol_incr (mp X 0) 0 1 u w); auto using u_nn, w_nn; [ | lra | lra]].
          + unfold pol. replace (0 ^ 2) with 0 by ring. lra.
          + unfold mp. fold m. split; [apply Rmin_glb; lra | apply Rmin_r]. }
      pose proof (Rmult_le_pos _ _ (Rlt_le _ _ F2) R3). unfold Bx. lra.
    Qed.
    Lemma boyle_x : 1 <= xm -> exists x0, 0 < x0 < 1 /\ Bx x0 = 0.
    Proof.
      intros H. destruct (IVT (fun x => - Bx x) 0 1) as (z & Hz & E).
      - apply (continuity_opp Bx), Bx_cont.
      - lra.
      - pose proof Bx_0. lra.
      - pose proof (Bx_1 H). lra.
      - exists z. pose proof Bx_0. pose proof (Bx_1 H). split; [ | lra].
        destruct (Req_dec z 0) as [E0 | N0]; [rewrite E0 in E; lra | ]. destruct (Req_dec z 1) as [E1 | N1]; [rewrite E1 in E; lra | ]. lra.
    Qed.
    Lemma inv_lt T1 T2 : 0 < T1 < T2 -> 0 < e / T2 < e / T1.
    Proof.
      intros H. destruct one_pos as (_ & _ & Pe). split; [apply Rdiv_lt_0_compat; lra | ].
      apply Rmult_lt_compat_l; auto. apply Rinv_lt_contravar; [apply Rmult_lt_0_compat; lra | lra].
    Qed.
    Lemma T_decr T1 T2 : 0 < T1 < T2 -> e / T1 <= xm -> B_pure T1 < B_pure T2.
    Proof. intros H Hx. rewrite !pure_x by lra. destruct (inv_lt T1 T2 H). apply Bx_decr; lra. Qed.
    Lemma T_boyle : 1 <= xm -> exists TB, e < TB /\ forall T, 0 < T -> e / T <= xm ->
      (T < TB -> B_pure T < 0) /\ (T = TB -> B_pure T = 0) /\ (TB < T -> 0 < B_pure T).
    Proof.
      intros H. destruct one_pos as (_ & _ & Pe). destruct (boyle_x H) as (x0 & Hx & E). exists (e / x0).
      assert (Pt : 0 < e / x0) by (apply Rdiv_lt_0_compat; lra). assert (Ei : e / (e / x0) = x0) by (field; lra).
      assert (Z : B_pure (e / x0) = 0) by (rewrite pure_x, Ei; auto).
      split.
      - apply Rmult_lt_reg_r with x0; [lra | ]. unfold Rdiv. rewrite Rmult_assoc, Rinv_l by lra. nra.
      - intros T HT HxT. repeat split; intros L.
        + rewrite <- Z. apply T_decr; [lra | auto].
        + rewrite L. auto.
        + rewrite <- Z. apply T_decr; [lra | ]. rewrite Ei. lra.
    Qed.
  End Range.

  (** A gas of molecules with at least one segment: the coefficient grows strictly with the
      temperature above the dispersion energy. *)
  Theorem C60_monotone lu2 o T1 T2 : 1 <= m -> e <= T1 < T2 -> exists b1 b2,
    second_virial lu2 p o T1 [1] = Some (Fin b1) /\ second_virial lu2 p o T2 [1] = Some (Fin b2) /\ b1 < b2.
  Proof.
    intros Hm HT. destruct one_pos as (_ & _ & Pe). exists (B_pure T1), (B_pure T2). rewrite !pure_value by lra. repeat split; auto.
    apply (T_decr 1); [right; lra | lra | ]. apply Rmult_le_reg_r with T1; [lra | ]. unfold Rdiv. rewrite Rmult_assoc, Rinv_l; lra.
  Qed.
  (** It has exactly one Boyle temperature there. *)
  Theorem C60_boyle lu2 o : 1 <= m -> exists TB, e < TB /\ forall T, e <= T -> exists b,
    second_virial lu2 p o T [1] = Some (Fin b) /\ (T < TB -> b < 0) /\ (T = TB -> b = 0) /\ (TB < T -> 0 < b).
  Proof.
    intros Hm. destruct one_pos as (_ & _ & Pe). destruct (T_boyle 1 ltac:(right; lra) ltac:(lra)) as (TB & H1' & H2). exists TB. split; auto.
    intros T HT. exists (B_pure T). split; [apply pure_value; lra | ]. apply H2; [lra | ].
    apply Rmult_le_reg_r with T; [lra | ]. unfold Rdiv. rewrite Rmult_assoc, Rinv_l; lra.
  Qed.
  (** Without dipoles and quadrupoles at all temperatures. *)
  Lemma no_moments : p_ndipole p = 0%nat -> p_nquadpole p = 0%nat -> u = 0 /\ w = 0.
  Proof.
    intros Hd Hq. rewrite (w_nd _ W), (w_dip _ W), H1 in Hd. rewrite (w_nq _ W), (w_quad _ W), H1 in Hq. cbn [seq filter] in Hd, Hq.
    split; apply nonzero_R_false.
    - destruct (@nonzero RNum (@ix RNum (p_mu2 p) 0)) eqn:E; [discriminate Hd | exact E].
    - destruct (@nonzero RNum (@ix RNum (p_q2 p) 0)) eqn:E; [discriminate Hq | exact E].
  Qed.
  Lemma moments_none : u = 0 -> w = 0 -> p_ndipole p = 0%nat /\ p_nquadpole p = 0%nat.
  Proof.
    intros Hu Hw. rewrite (w_nd _ W), (w_dip _ W), (w_nq _ W), (w_quad _ W), H1. cbn [seq filter].
    change (@ix RNum (p_mu2 p) 0) with u. change (@ix RNum (p_q2 p) 0) with w. rewrite (proj2 (nonzero_R_false u) Hu), (proj2 (nonzero_R_false w) Hw). split; reflexivity.
  Qed.
  Theorem C60_monotone_nonpolar lu2 o T1 T2 : p_ndipole p = 0%nat -> p_nquadpole p = 0%nat -> 1 / 2 <= m -> 0 < T1 < T2 -> exists b1 b2,
    second_virial lu2 p o T1 [1] = Some (Fin b1) /\ second_virial lu2 p o T2 [1] = Some (Fin b2) /\ b1 < b2.
  Proof.
    intros Hd Hq Hm HT. destruct (no_moments Hd Hq) as (U & V). exists (B_pure T1), (B_pure T2). rewrite !pure_value by lra. repeat split; auto.
    apply (T_decr (e / T1)); [left; auto | auto | lra].
  Qed.
  Theorem C60_boyle_nonpolar lu2 o : p_ndipole p = 0%nat -> p_nquadpole p = 0%nat -> 1 / 2 <= m -> exists TB, e < TB /\ forall T, 0 < T -> exists b,
    second_virial lu2 p o T [1] = Some (Fin b) /\ (T < TB -> b < 0) /\ (T = TB -> b = 0) /\ (TB < T -> 0 < b).
  Proof.
    intros Hd Hq Hm. destruct (no_moments Hd Hq) as (U & V). destruct (boyle_x 1 ltac:(left; auto) ltac:(lra)) as (x0 & Hx & E0).
    destruct one_pos as (_ & _ & Pe). exists (e / x0).
    assert (Pt : 0 < e / x0) by (apply Rdiv_lt_0_compat; lra). assert (Ei : e / (e / x0) = x0) by (field; lra).
    assert (Z : B_pure (e / x0) = 0) by (rewrite pure_x, Ei; auto). split.
    - apply Rmult_lt_reg_r with x0; [lra | ]. unfold Rdiv. rewrite Rmult_assoc, Rinv_l by lra. nra.
    - intros T HT. exists (B_pure T). split; [apply pure_value; auto | ]. repeat split; intros L.
      + rewrite <- Z. apply (T_decr (e / T)); [left; auto | lra | lra].
      + rewrite L. auto.
      + rewrite <- Z. apply (T_decr (e / (e / x0))); [left; auto | lra | lra].
  Qed.
End Pure.

(* ------------------------------------------------------------------ composition *)
(** homogeneous linear and quadratic functions of the mole fractions *)
Definition lin (n : nat) (f : (nat -> R) -> R) : Prop := exists c, forall x, f x = Sum i < n, x i * c i.
Definition quad (n : nat) (f : (nat -> R) -> R) : Prop := exists b, forall x, f x = Sum i < n, Sum j < n, x i * x j * b i j.
Lemma quad_mul n f g : lin n f -> lin n g -> quad n (fun x => f x * g x).
Proof.
  intros (c & Hc) (d & Hd). exists (fun i j => c i * d j). intros x. rewrite Hc, Hd, <- rsum_scal_r. apply Sum_ext. intros i Hi.
  rewrite <- rsum_scal. apply Sum_ext. intros j Hj. ring.
Qed.
Lemma quad_plus n f g : quad n f -> quad n g -> quad n (fun x => f x + g x).
Proof.
  intros (c & Hc) (d & Hd). exists (fun i j => c i j + d i j). intros x. rewrite Hc, Hd, <- rsum_plus. apply Sum_ext. intros i Hi.
  rewrite <- rsum_plus. apply Sum_ext. intros j Hj. ring.
Qed.
Lemma quad_scal n k f : quad n f -> quad n (fun x => k * f x).
Proof.
  intros (c & Hc). exists (fun i j => k * c i j). intros x. rewrite Hc, <- rsum_scal. apply Sum_ext. intros i Hi.
  rewrite <- rsum_scal. apply Sum_ext. intros j Hj. ring.
Qed.
Lemma quad_ext n f g : (forall x, f x = g x) -> quad n g -> quad n f.
Proof. intros E (c & Hc). exists c. intros x. rewrite E. apply Hc. Qed.
Lemma quad_pair n (c : nat -> nat -> R) : quad n (fun x => Sum i < n, Sum j < n, x i * x j * c i j).
Proof. exists c. reflexivity. Qed.
Lemma quad_point n a k : (a < n)%nat -> quad n (fun x => k * x a ^ 2).
Proof.
  intros Ha. exists (fun i j => if Nat.eqb i a then if Nat.eqb j a then k else 0 else 0). intros x.
  rewrite (Sum_single n a); [ | exact Ha | ].
  2:{ intros i Hi Hne. apply rsum_zero. intros j _. destruct (Nat.eqb_spec i a); [contradiction | ring]. }
  rewrite Nat.eqb_refl. rewrite (Sum_single n a); [ | exact Ha | ].
  2:{ intros j Hj Hne. destruct (Nat.eqb_spec j a); [contradiction | ring]. }
  rewrite Nat.eqb_refl. ring.
Qed.

Section Composition.
  Variables (prs : list (pure_record RNum)) (bin : list (list R)) (p : params RNum).
  Hypothesis Hp : from_records prs bin = Some p.
  Hypothesis Hph : phys p.
  Let X := mix_of p.
  Let n := length (p_m p).
  Variable m : R.
  Hypothesis Hm : forall i, (i < n)%nat -> M X i = m.
  Let W : wfp p := wfp_from_records _ _ _ Hp.
  Lemma sm_lin T k : lin n (fun x => sm X T x k).
  Proof. exists (fun i => M X i * Di X T i ^ k). intros x. apply Sum_ext. intros i Hi. ring. Qed.
  Lemma quad_hs T : quad n (B_hs X T).
  Proof.
    unfold B_hs. apply quad_scal. apply (quad_plus n (fun x => sm X T x 0 * sm X T x 3) (fun x => 3 * sm X T x 1 * sm X T x 2)).
    - apply (quad_mul n (fun x => sm X T x 0) (fun x => sm X T x 3)); apply sm_lin.
    - apply (quad_ext _ _ (fun x => 3 * (sm X T x 1 * sm X T x 2))); [intros; ring | ]. apply quad_scal.
      apply (quad_mul n (fun x => sm X T x 1) (fun x => sm X T x 2)); apply sm_lin.
  Qed.
  Lemma quad_hc T : quad n (B_hc X T).
  Proof.
    unfold B_hc. apply quad_scal.
    apply (quad_ext _ _ (fun x => (Sum i < n, x i * (M X i - 1)) * sm X T x 3 + (Sum i < n, x i * ((M X i - 1) * (3 / 2 * Di X T i))) * sm X T x 2)).
    - intros x. rewrite <- !rsum_scal_r, <- rsum_plus. apply Sum_ext. intros i Hi. ring.
    - apply (quad_plus n (fun x => _ * sm X T x 3) (fun x => _ * sm X T x 2)).
      + apply (quad_mul n (fun x => Sum i < n, x i * (M X i - 1)) (fun x => sm X T x 3)); [eexists; reflexivity | apply sm_lin].
      + apply (quad_mul n (fun x => Sum i < n, x i * ((M X i - 1) * (3 / 2 * Di X T i))) (fun x => sm X T x 2)); [eexists; reflexivity | apply sm_lin].
  Qed.
  Lemma quad_mixsum T k : quad n (fun x => mixsum X T x k).
  Proof.
    exists (fun i j => M X i * M X j * (Eij X i j / T) ^ k * Sij X i j ^ 3). intros x. apply Sum_ext. intros i Hi. apply Sum_ext. intros j Hj. ring.
  Qed.
  Lemma quad_dd T : quad n (B_dd X T).
  Proof. unfold B_dd. apply quad_scal. eexists (fun i j => _ * J0 X T AD BD i j). intros x. apply Sum_ext. intros i Hi. apply Sum_ext. intros j Hj. rewrite Rmult_assoc. reflexivity. Qed.
  Lemma quad_qq T : quad n (B_qq X T).
  Proof. unfold B_qq. apply quad_scal. eexists (fun i j => _ * J0 X T AQ BQ i j). intros x. apply Sum_ext. intros i Hi. apply Sum_ext. intros j Hj. rewrite Rmult_assoc. reflexivity. Qed.
  Lemma quad_dq T kd kq : quad n (fun x => B_dq X T x kd kq).
  Proof. unfold B_dq. apply quad_scal. eexists (fun i j => _ * J0 X T ADQ BDQ i j). intros x. apply Sum_ext. intros i Hi. apply Sum_ext. intros j Hj. rewrite Rmult_assoc. reflexivity. Qed.
  Lemma quad_assoc T : quad n (fun x => B_assoc X T x (p_assoc_comp p)).
  Proof.
    assert (Z : quad n (fun _ => 0)) by (exists (fun _ _ => 0); intros x; symmetry; apply rsum_zero; intros i _; apply rsum_zero; intros j _; ring).
    pose proof (w_ass _ W) as E. destruct (p_assoc_comp p) as [ | a [ | b l]]; cbn [B_assoc]; auto.
    assert (Ha : (a < n)%nat).
    { assert (In a [a]) by (left; auto). rewrite E in H. apply filter_In in H. destruct H as (H & _). apply in_seq in H. unfold n. lia. }
    set (k := - (if Rltb 0 (Nb X a) then Na X a * Nb X a else Na X a ^ 2 / 2) * (Sij X a a ^ 3 * Kapij X a a * (exp ((Eab X a + Eab X a) / 2 / T) - 1))).
    apply (quad_ext _ _ (fun x => k * x a ^ 2)); [intros x; unfold B_bond, k; ring | apply quad_point; auto].
  Qed.
  (** Equal segment numbers: second order in the mole fractions, with cross coefficients that
      do not depend on the composition. *)
  Theorem C61_equal_segments lu2 o T : 0 < T -> exists b : nat -> nat -> R, (forall i j, b i j = b j i) /\
    forall x, length x = n -> (forall i, (i < n)%nat -> 0 <= nth i x 0) -> rsum x (fun xi => xi) = 1 ->
      second_virial lu2 p o T x = Some (Fin (Sum i < n, Sum j < n, nth i x 0 * nth j x 0 * b i j)).
  Proof.
    intros HT.
    set (disp := fun x => (- 2 * PI * I0 A0 A1 A2 m) * mixsum X T x 1 + (- PI * m * I0 B0 B1 B2 m) * mixsum X T x 2).
    assert (Qd : quad n disp).
    { apply (quad_plus n (fun x => _ * mixsum X T x 1) (fun x => _ * mixsum X T x 2)); apply quad_scal; apply quad_mixsum. }
    set (f := fun x => B_hs X T x + B_hc X T x + disp x + B_dd X T x + B_qq X T x + B_dq X T x (fst (dq_exps (o_dq o))) (snd (dq_exps (o_dq o))) + B_assoc X T x (p_assoc_comp p)).
    assert (Q : quad n f).
    { unfold f. apply (quad_plus n (fun x => _ + _) (fun x => B_assoc X T x (p_assoc_comp p))); [ | apply quad_assoc].
      apply (quad_plus n (fun x => _ + _) (fun x => B_dq X T x _ _)); [ | apply quad_dq].
      apply (quad_plus n (fun x => _ + _) (B_qq X T)); [ | apply quad_qq]. apply (quad_plus n (fun x => _ + _) (B_dd X T)); [ | apply quad_dd].
      apply (quad_plus n (fun x => _ + _) disp); [ | auto]. apply (quad_plus n (B_hs X T) (B_hc X T)); [apply quad_hs | apply quad_hc]. }
    destruct Q as (b & Hb). exists (fun i j => (b i j + b j i) / 2). split; [intros; field | ].
    intros x Hl Hn Hs. rewrite (C60_formula _ _ _ Hp Hph T x HT Hl Hn Hs lu2 o). f_equal. f_equal.
    assert (Em : Mbar X (fun i => nth i x 0) = m).
    { assert (Er : Rho X (fun i => nth i x 0) = 1). { unfold Rho. change (N X) with n. rewrite <- Hl. rewrite (rsum_nth x 0 (fun xi => xi)) in Hs. exact Hs. }
      unfold Mbar. rewrite Er. change (N X) with n. rewrite (Sum_ext _ _ (fun i => nth i x 0 * m)) by (intros i Hi; rewrite Hm by auto; reflexivity).
      rewrite rsum_scal_r. unfold Rho in Er. change (N X) with n in Er. rewrite Er. field. }
    transitivity (f (fun i => nth i x 0)).
    { unfold B_spec, f, disp, B_disp. cbv zeta. fold X. rewrite Em. ring. }
    set (y := fun i => nth i x 0). rewrite (Hb y).
    transitivity ((Sum i < n, Sum j < n, y i * y j * b i j) / 2 + (Sum i < n, Sum j < n, y i * y j * b j i) / 2).
    { assert (E : (Sum i < n, Sum j < n, y i * y j * b j i) = Sum i < n, Sum j < n, y i * y j * b i j)
        by (rewrite rsum_swap; apply Sum_ext; intros i Hi; apply Sum_ext; intros j Hj; ring).
      rewrite E. lra. }
    unfold Rdiv. rewrite <- !rsum_scal_r, <- rsum_plus. apply Sum_ext. intros i Hi. rewrite <- !rsum_scal_r, <- rsum_plus. apply Sum_ext. intros j Hj. unfold y. field.
  Qed.
End Composition.

(* ------------------------------------------------------------------ concrete cases *)
(** water associates and has no multipoles: a Boyle temperature above 366 K *)
Example C60_case_water lu2 o : exists TB, 366.5121 < TB /\ forall T, 0 < T -> exists b,
  second_virial lu2 w1 o T [1] = Some (Fin b) /\ (T < TB -> b < 0) /\ (T = TB -> b = 0) /\ (TB < T -> 0 < b).
Proof.
  destruct (moments_none _ _ _ w1_ok eq_refl water_mu2 water_q2) as (D & Q).
  refine (C60_boyle_nonpolar _ _ _ w1_ok w1_phys eq_refl _ _ lu2 o D Q _).
  - reflexivity.
  - right. change (Na (mix_of w1) 0) with 1. change (Eab (mix_of w1) 0) with 2500.6706. lra.
  - change (M (mix_of w1) 0) with 1.065587. lra.
Qed.
(** dimethyl ether is dipolar, carbon dioxide quadrupolar *)
Example C60_case_dme lu2 o : exists b1 b2, second_virial lu2 t_dme o 300 [1] = Some (Fin b1) /\ second_virial lu2 t_dme o 400 [1] = Some (Fin b2) /\ b1 < b2.
Proof.
  refine (C60_monotone _ _ _ t_dme_ok t_dme_phys eq_refl _ _ lu2 o 300 400 _ _).
  - reflexivity.
  - left. reflexivity.
  - change (M (mix_of t_dme) 0) with 2.2634. lra.
  - change (Ep (mix_of t_dme) 0) with 210.29. lra.
Qed.
Example C60_case_co2 lu2 o : exists TB, 163.333 < TB /\ forall T, 163.333 <= T -> exists b,
  second_virial lu2 t_co2 o T [1] = Some (Fin b) /\ (T < TB -> b < 0) /\ (T = TB -> b = 0) /\ (TB < T -> 0 < b).
Proof.
  refine (C60_boyle _ _ _ t_co2_ok t_co2_phys eq_refl _ _ lu2 o _).
  - reflexivity.
  - left. reflexivity.
  - change (M (mix_of t_co2) 0) with 1.5131. lra.
Qed.

(** Far below the dispersion energy the coefficient of a quadrupolar substance turns round and
    becomes positive again: carbon dioxide as shipped, at 20, 60 and 1000 K. *)
Lemma co2_q2 : Qu2 (mix_of t_co2) 0 = @q2_of RNum 4.4 1.5131 3.1869 163.333. Proof. reflexivity. Qed.
Lemma co2_B T : 0 < T -> B_pure t_co2 T =
  PI / 6 * 1.5131 * 3.1869 ^ 3 * red 1.5131 (163.333 / T)
  - PI * 3.1869 ^ 3 * ((3 / 4) ^ 2 * (@q2_of RNum 4.4 1.5131 3.1869 163.333) ^ 2 * pol AQ BQ 1.5131 (163.333 / T)).
Proof.
  intros HT. unfold B_pure.
  assert (E0 : Mu2 (mix_of t_co2) 0 = 0) by (change (@mu2_of RNum 0 1.5131 3.1869 163.333 = 0); unfold mu2_of; rn; unfold Rdiv; ring).
  assert (E1 : mp (mix_of t_co2) 0 = 1.5131) by (unfold mp; change (M (mix_of t_co2) 0) with 1.5131; rewrite Rmin_left; lra).
  assert (E2 : Kapij (mix_of t_co2) 0 0 = 0) by (unfold Kapij; change (Kab (mix_of t_co2) 0) with 0; rewrite Rmult_0_l, sqrt_0; ring).
  rewrite E0, E1, E2, co2_q2. change (M (mix_of t_co2) 0) with 1.5131. change (Sg (mix_of t_co2) 0) with 3.1869. change (Ep (mix_of t_co2) 0) with 163.333.
  generalize (red 1.5131 (163.333 / T)) (pol AQ BQ 1.5131 (163.333 / T)) (@q2_of RNum 4.4 1.5131 3.1869 163.333) (pol AD BD 1.5131 (163.333 / T)) (pol ADQ BDQ 1.5131 (163.333 / T)).
  intros. unfold Rdiv. lra.
Qed.
Ltac co2_eval := rewrite co2_B by lra; unfold red, pol, I0, cm, q1, q12, q2_of, e_m19, kb_conv, lit, lit2, Rlit; rn; lits;
  cbn [nth A0 A1 A2 B0 B1 B2 AQ BQ]; unfold Q2R; cbn [Qnum Qden].
Theorem C60_low_temperature_refuted lu2 o : exists p, from_records [pr_co2] (zeros 1) = Some p /\ phys p /\ 1 <= M (mix_of p) 0 /\
  exists b1 b2 b3, second_virial lu2 p o 20 [1] = Some (Fin b1) /\ second_virial lu2 p o 60 [1] = Some (Fin b2) /\ second_virial lu2 p o 1000 [1] = Some (Fin b3) /\
    1000 < b1 /\ b2 < - 1000 /\ 0 < b3.
Proof.
  exists t_co2. split; [exact t_co2_ok | ]. split; [exact t_co2_phys | ]. split; [change (1 <= 1.5131); lra | ].
  exists (B_pure t_co2 20), (B_pure t_co2 60), (B_pure t_co2 1000).
  rewrite !(pure_value _ _ _ t_co2_ok t_co2_phys eq_refl ltac:(reflexivity)) by lra. repeat split; co2_eval; interval.
Qed.

(** methane and butane as shipped *)
Definition pr_ch4 : pure_record RNum := @mkPure RNum (named "methane") 16.043 (@mkRec RNum 1 3.7039 150.03 None None None None None None None None None) None.
Definition pr_c4 : pure_record RNum := @mkPure RNum (named "butane") 58.123 (@mkRec RNum 2.3316 3.7086 222.88 None None None None None None None None None) None.
Definition t_mb : params RNum := from_records_raw [pr_ch4; pr_c4] (zeros 2).
Lemma t_mb_ok : from_records [pr_ch4; pr_c4] (zeros 2) = Some t_mb. Proof. reflexivity. Qed.
Lemma t_mb_phys : phys t_mb.
Proof. intros i Hi. cbn in Hi. destruct i as [ | [ | i]]; cbn; try lra; lia. Qed.
Lemma mb_polar T x kd kq : B_dd (mix_of t_mb) T x = 0 /\ B_qq (mix_of t_mb) T x = 0 /\ B_dq (mix_of t_mb) T x kd kq = 0.
Proof.
  assert (U : forall i, (i < 2)%nat -> Mu2 (mix_of t_mb) i = 0).
  { intros i Hi. destruct i as [ | [ | i]]; [change (@mu2_of RNum 0 1 3.7039 150.03 = 0) | change (@mu2_of RNum 0 2.3316 3.7086 222.88 = 0) | lia]; unfold mu2_of; rn; unfold Rdiv; ring. }
  assert (V : forall i, (i < 2)%nat -> Qu2 (mix_of t_mb) i = 0).
  { intros i Hi. destruct i as [ | [ | i]]; [change (@q2_of RNum 0 1 3.7039 150.03 = 0) | change (@q2_of RNum 0 2.3316 3.7086 222.88 = 0) | lia]; unfold q2_of; rn; unfold Rdiv; ring. }
  unfold B_dd, B_qq, B_dq. change (N (mix_of t_mb)) with 2%nat.
  repeat split; (rewrite (Sum_ext _ _ (fun _ => 0)); [rewrite rsum_zero by auto; ring | intros i Hi; apply rsum_zero; intros j Hj; apply seq_in in Hj]).
  - rewrite (U i Hi). ring.
  - rewrite (V i Hi). ring.
  - rewrite (U i Hi). ring.
Qed.
Definition mb_B (a b : R) : R := let x i := nth i [a; b] 0 in B_hs (mix_of t_mb) 300 x + B_hc (mix_of t_mb) 300 x + B_disp (mix_of t_mb) 300 x.
Lemma mb_value o a b : B_spec t_mb o 300 [a; b] = mb_B a b.
Proof.
  unfold B_spec, mb_B. cbv zeta. destruct (mb_polar 300 (fun i => nth i [a; b] 0) (fst (dq_exps (o_dq o))) (snd (dq_exps (o_dq o)))) as (P1 & P2 & P3).
  assert (E : p_assoc_comp t_mb = []).
  { rewrite (w_ass _ (wfp_from_records _ _ _ t_mb_ok)). change (length (p_m t_mb)) with 2%nat. cbn [seq filter].
    change (@ix RNum (p_kappa_ab t_mb) 0) with 0. change (@ix RNum (p_kappa_ab t_mb) 1) with 0. rewrite (proj2 (nonzero_R_false 0) eq_refl). reflexivity. }
  rewrite P1, P2, P3, E. cbn [B_assoc]. ring.
Qed.
Theorem C61_quadratic_refuted : exists p, from_records [pr_ch4; pr_c4] (zeros 2) = Some p /\ phys p /\ forall lu2 o,
  ~ exists b : nat -> nat -> R, forall x, length x = 2%nat -> (forall i, (i < 2)%nat -> 0 <= nth i x 0) -> rsum x (fun xi => xi) = 1 ->
      second_virial lu2 p o 300 x = Some (Fin (Sum i < 2, Sum j < 2, nth i x 0 * nth j x 0 * b i j)).
Proof.
  exists t_mb. split; [exact t_mb_ok | ]. split; [exact t_mb_phys | ]. intros lu2 o (b & Hb).
  assert (K : forall y, 0 <= y <= 1 -> mb_B y (1 - y) = y * y * b 0%nat 0%nat + y * (1 - y) * (b 0%nat 1%nat + b 1%nat 0%nat) + (1 - y) * (1 - y) * b 1%nat 1%nat).
  { intros y Hy. assert (Nn : forall i, (i < 2)%nat -> 0 <= nth i [y; 1 - y] 0) by (intros i Hi; destruct i as [ | [ | i]]; cbn; try lra; lia).
    assert (Sm : rsum [y; 1 - y] (fun xi => xi) = 1) by (cbn; ring).
    specialize (Hb [y; 1 - y] eq_refl Nn Sm). rewrite (C60_formula _ _ _ t_mb_ok t_mb_phys 300 [y; 1 - y] ltac:(lra) eq_refl Nn Sm lu2 o), mb_value in Hb.
    apply Some_inj in Hb. assert (Hc := f_equal (fun z => match z with Fin r => r | _ => 0 end) Hb). cbv beta iota in Hc. rewrite Hc. cbn [rsum seq nth]. ring. }
  pose proof (K 0 ltac:(lra)) as K0. pose proof (K (1 / 3) ltac:(lra)) as K1. pose proof (K (2 / 3) ltac:(lra)) as K2. pose proof (K 1 ltac:(lra)) as K3.
  assert (D : mb_B 1 (1 - 1) - 3 * mb_B (2 / 3) (1 - 2 / 3) + 3 * mb_B (1 / 3) (1 - 1 / 3) - mb_B 0 (1 - 0) = 0).
  { rewrite K0, K1, K2, K3. field. }
  apply (Rlt_irrefl 0). rewrite <- D at 2. clear.
  unfold mb_B, B_hs, B_hc, B_disp, I0, sm, mixsum, Mbar, Rho, Eij, Eij0, Sij, Di. change (N (mix_of t_mb)) with 2%nat. cbn [rsum seq nth].
  change (M (mix_of t_mb) 0) with 1. change (M (mix_of t_mb) 1) with 2.3316. change (Sg (mix_of t_mb) 0) with 3.7039. change (Sg (mix_of t_mb) 1) with 3.7086.
  change (Ep (mix_of t_mb) 0) with 150.03. change (Ep (mix_of t_mb) 1) with 222.88.
  replace (Kij (mix_of t_mb) 0 0) with 0 by reflexivity. replace (Kij (mix_of t_mb) 0 1) with 0 by reflexivity.
  replace (Kij (mix_of t_mb) 1 0) with 0 by reflexivity. replace (Kij (mix_of t_mb) 1 1) with 0 by reflexivity.
  unfold lit, Rlit. cbn [nth A0 A1 A2 B0 B1 B2 Qnum Qden]. interval with (i_prec 60).
Qed.
(** butane with itself: equal segment numbers *)
Definition t_bb : params RNum := from_records_raw [pr_butane; pr_butane] (zeros 2).
Example C61_case lu2 o : exists b : nat -> nat -> R, (forall i j, b i j = b j i) /\
    forall x, length x = 2%nat -> (forall i, (i < 2)%nat -> 0 <= nth i x 0) -> rsum x (fun xi => xi) = 1 ->
      second_virial lu2 t_bb o 300 x = Some (Fin (Sum i < 2, Sum j < 2, nth i x 0 * nth j x 0 * b i j)).
Proof.
  apply (C61_equal_segments [pr_butane; pr_butane] (zeros 2) t_bb eq_refl) with (m := 2.331586); [ | | lra].
  - intros i Hi. cbn in Hi. destruct i as [ | [ | i]]; cbn; try lra; lia.
  - intros i Hi. cbn in Hi. destruct i as [ | [ | i]]; cbn; try lra; lia.
Qed.

Print Assumptions C60_formula.
Print Assumptions C60_monotone.
Print Assumptions C60_boyle.
Print Assumptions C60_monotone_nonpolar.
Print Assumptions C60_boyle_nonpolar.
Print Assumptions C60_low_temperature_refuted.
Print Assumptions C61_equal_segments.
Print Assumptions C61_quadratic_refuted.
