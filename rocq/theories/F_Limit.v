(** Ideal gas limit: Helmholtz energies as functions of u = 1/V that are continuous at 0. *)
From Coq Require Import ZArith QArith Reals Lra Lia List Bool Psatz.
From Coquelicot Require Import Coquelicot.
From Verif Require Import Num RNum RSum Tables M_Params F_Params M_Eos Spec F_Spec F_SpecPolar
  F_SpecAssoc F_Contrib F_Total.
Import ListNotations.
Local Open Scope R_scope.

(** f(v) tends to zero as v tends to infinity *)
Definition vanishes (f : R -> R) : Prop :=
  forall eps, 0 < eps -> exists V0, forall v, V0 < v -> Rabs (f v) < eps.

Lemma vanishes_limit f : vanishes f <-> is_lim f p_infty 0.
Proof.
  split.
  - intros H P [e He]. destruct (H e (cond_pos e)) as (V0 & HV). exists V0. intros v Hv. apply He.
    unfold ball; simpl; unfold AbsRing_ball, abs, minus, plus, opp; simpl.
    replace (f v + - 0) with (f v) by ring. auto.
  - intros H e He. destruct (H (fun y => Rabs y < e)) as (V0 & HV).
    + exists (mkposreal e He). intros y Hy.
      assert (E : Rabs (y - 0) < e) by exact Hy. rewrite Rminus_0_r in E. auto.
    + exists V0. auto.
Qed.
Lemma vanishes_plus f g : vanishes f -> vanishes g -> vanishes (fun v => f v + g v).
Proof.
  intros Hf Hg e He. destruct (Hf (e / 2)) as (a & Ha); [lra | ]. destruct (Hg (e / 2)) as (b & Hb); [lra | ].
  exists (Rmax a b). intros v Hv. pose proof (Rmax_l a b). pose proof (Rmax_r a b).
  specialize (Ha v ltac:(lra)). specialize (Hb v ltac:(lra)).
  pose proof (Rabs_triang (f v) (g v)). lra.
Qed.
Lemma vanishes_eventually f g V1 : (forall v, V1 < v -> f v = g v) -> vanishes g -> vanishes f.
Proof.
  intros E H e He. destruct (H e He) as (V0 & HV). exists (Rmax V0 V1). intros v Hv.
  pose proof (Rmax_l V0 V1). pose proof (Rmax_r V0 V1). rewrite E by lra. apply HV. lra.
Qed.
Lemma vanishes_0 : vanishes (fun _ => 0).
Proof. intros e He. exists 0. intros. rewrite Rabs_R0. auto. Qed.

Lemma continuous_bound (F : R -> R) : continuous F 0 -> forall e, 0 < e ->
  exists d, 0 < d /\ forall u, 0 <= u < d -> Rabs (F u - F 0) < e.
Proof.
  intros H e He. destruct (H (fun y => Rabs (y - F 0) < e)) as (d & Hd).
  - exists (mkposreal e He). intros y Hy. exact Hy.
  - exists d. split; [apply cond_pos | ]. intros u Hu. apply Hd.
    unfold ball; simpl; unfold AbsRing_ball, abs, minus, plus, opp; simpl.
    replace (u + - 0) with u by ring. rewrite Rabs_right; lra.
Qed.
Lemma inv_small d v : 0 < d -> / d < v -> 0 < v /\ 0 < / v < d.
Proof.
  intros Hd Hv. assert (0 < / d) by (apply Rinv_0_lt_compat; auto). split; [lra | ].
  split; [apply Rinv_0_lt_compat; lra | ]. rewrite <- (Rinv_inv d). apply Rinv_lt_contravar; auto.
  apply Rmult_lt_0_compat; lra.
Qed.
Lemma vanish_cont (F f : R -> R) V1 : continuous F 0 -> F 0 = 0 -> (forall v, V1 < v -> f v = F (/ v)) -> vanishes f.
Proof.
  intros C Z E e He. destruct (continuous_bound F C e He) as (d & Hd & HB).
  exists (Rmax V1 (/ d)). intros v Hv. pose proof (Rmax_l V1 (/ d)). pose proof (Rmax_r V1 (/ d)).
  rewrite E by lra. destruct (inv_small d v Hd ltac:(lra)) as [_ Hi].
  specialize (HB (/ v) ltac:(lra)). rewrite Z in HB. rewrite Rminus_0_r in HB. auto.
Qed.

Lemma continuous_rsum {A} (l : list A) (f : A -> R -> R) (x : R) :
  (forall a, In a l -> continuous (f a) x) -> continuous (fun u => rsum l (fun a => f a u)) x.
Proof.
  induction l as [ | a l IH]; intros H.
  - cbn. apply continuous_const.
  - cbn. apply (continuous_plus (f a) (fun u => rsum l (fun b => f b u))).
    + apply H. left; auto.
    + apply IH. intros b Hb. apply H. right; auto.
Qed.
Lemma continuous_poly (c : nat -> R) (l : list nat) x : continuous (fun u => rsum l (fun k => c k * u ^ k)) x.
Proof.
  apply continuous_rsum. intros k _. apply (ex_derive_continuous (fun u => c k * u ^ k)). auto_derive. auto.
Qed.

(** Pade term with second order term u^2 A(u) and third order term u^3 B(u) *)
Definition polyn (c : nat -> R) (n : nat) (u : R) : R := Sum l < n, c l * u ^ l.
(** the Helmholtz energy u^-1 * pade(u^2 A, u^3 B), away from u = 0 *)
Definition pade_u (A B : R -> R) (u : R) : R := / u * pade2 (u ^ 2 * A u) (u ^ 3 * B u).

Lemma Sum_front (f : nat -> R) n : (Sum i < S n, f i) = f 0%nat + Sum i < n, f (S i).
Proof. cbn [seq rsum]. f_equal. rewrite <- seq_shift, rsum_map. reflexivity. Qed.
Lemma polyn_S c n u : polyn c (S n) u = c 0%nat + u * polyn (fun l => c (S l)) n u.
Proof.
  unfold polyn. rewrite Sum_front. cbn [pow]. rewrite Rmult_1_r. f_equal. rewrite <- rsum_scal.
  apply Sum_ext. intros. cbn [pow]. ring.
Qed.
Lemma polyn_0 c n : (0 < n)%nat -> polyn c n 0 = c 0%nat.
Proof. intros H. destruct n; [lia | ]. rewrite polyn_S. ring. Qed.
Lemma polyn_cont c n x : continuous (polyn c n) x.
Proof. apply continuous_poly. Qed.
Lemma continuous_Rdiv (f g : R -> R) x : continuous f x -> continuous g x -> g x <> 0 -> continuous (fun u => f u / g u) x.
Proof.
  intros Hf Hg H. unfold Rdiv. apply (continuous_mult f (fun u => / g u)); auto.
  apply continuous_comp; auto. apply (ex_derive_continuous Rinv). auto_derive. auto.
Qed.

Section PadeLimit.
  Variables (alpha beta : nat -> R) (L' K' : nat).
  Let A := polyn alpha (S (S (S L'))).
  Let B := polyn beta (S (S K')).

  Theorem pade_vanishes :
    ~ (alpha 0%nat = 0 /\ alpha 1%nat = beta 0%nat /\ alpha 2%nat = beta 1%nat) ->
    exists F : R -> R, continuous F 0 /\ F 0 = 0 /\ forall u : R, u <> 0 -> pade_u A B u = F u.
  Proof.
    intros H.
    set (A1 := polyn (fun l => alpha (S l)) (S (S L'))). set (A2 := polyn (fun l => alpha (S (S l))) (S L')).
    set (B1 := polyn (fun l => beta (S l)) (S K')).
    assert (EA : forall u, A u = alpha 0%nat + u * A1 u) by (intros; apply polyn_S).
    assert (EA1 : forall u, A1 u = alpha 1%nat + u * A2 u) by (intros; apply polyn_S).
    assert (EB : forall u, B u = beta 0%nat + u * B1 u) by (intros; apply polyn_S).
    assert (CA : continuous A 0) by apply polyn_cont. assert (CB : continuous B 0) by apply polyn_cont.
    assert (CA1 : continuous A1 0) by apply polyn_cont. assert (CA2 : continuous A2 0) by apply polyn_cont.
    assert (CB1 : continuous B1 0) by apply polyn_cont.
    assert (Cid : continuous (fun u : R => u) 0) by apply continuous_id.
    assert (ZA : A 0 = alpha 0%nat) by (apply polyn_0; lia). assert (ZB : B 0 = beta 0%nat) by (apply polyn_0; lia).
    assert (ZA1 : A1 0 = alpha 1%nat) by (apply polyn_0; lia). assert (ZA2 : A2 0 = alpha 2%nat) by (apply polyn_0; lia).
    assert (ZB1 : B1 0 = beta 1%nat) by (apply polyn_0; lia).
    destruct (Req_dec (alpha 0%nat) 0) as [H0 | H0].
    1: destruct (Req_dec (alpha 1%nat) (beta 0%nat)) as [H1 | H1].
    1: destruct (Req_dec (alpha 2%nat) (beta 1%nat)) as [H2 | H2]; [exfalso; auto | ].
    - exists (fun u => u * A1 u ^ 2 / (A2 u - B1 u)). split; [ | split].
      + apply (continuous_Rdiv (fun u => u * A1 u ^ 2) (fun u => A2 u - B1 u)).
        * apply (continuous_mult (fun u => u) (fun u => A1 u ^ 2)); auto.
          apply (continuous_mult A1 (fun u => A1 u ^ 1)); auto. apply (continuous_mult A1 (fun _ => 1)); auto.
          apply continuous_const.
        * apply (continuous_minus A2 B1); auto.
        * rewrite ZA2, ZB1. lra.
      + unfold Rdiv. ring.
      + intros u Hu. unfold pade_u, pade2. rewrite EA, EB, H0.
        replace (u ^ 2 * (0 + u * A1 u) - u ^ 3 * (beta 0%nat + u * B1 u)) with (u ^ 4 * (A2 u - B1 u))
          by (rewrite EA1, H1; ring).
        unfold Rdiv. rewrite Rinv_mult. rewrite Rplus_0_l.
        replace (/ u * ((u ^ 2 * (u * A1 u)) ^ 2 * (/ u ^ 4 * / (A2 u - B1 u))))
          with (u * A1 u ^ 2 * (u ^ 5 * / (u * u ^ 4)) * / (A2 u - B1 u)) by (rewrite Rinv_mult; ring).
        replace (u ^ 5 * / (u * u ^ 4)) with 1 by (field; auto). ring.
    - exists (fun u => u ^ 2 * A1 u ^ 2 / (A1 u - B u)). split; [ | split].
      + apply (continuous_Rdiv (fun u => u ^ 2 * A1 u ^ 2) (fun u => A1 u - B u)).
        * apply (continuous_mult (fun u => u ^ 2) (fun u => A1 u ^ 2)); auto.
          -- apply (continuous_mult (fun u => u) (fun u => u ^ 1)); auto. apply (continuous_mult (fun u => u) (fun _ => 1)); auto.
             apply continuous_const.
          -- apply (continuous_mult A1 (fun u => A1 u ^ 1)); auto. apply (continuous_mult A1 (fun _ => 1)); auto.
             apply continuous_const.
        * apply (continuous_minus A1 B); auto.
        * rewrite ZA1, ZB. lra.
      + unfold Rdiv. ring.
      + intros u Hu. unfold pade_u, pade2. rewrite EA, H0, Rplus_0_l.
        replace (u ^ 2 * (u * A1 u) - u ^ 3 * B u) with (u ^ 3 * (A1 u - B u)) by ring.
        unfold Rdiv. rewrite Rinv_mult.
        replace (/ u * ((u ^ 2 * (u * A1 u)) ^ 2 * (/ u ^ 3 * / (A1 u - B u))))
          with (u ^ 2 * A1 u ^ 2 * (u ^ 4 * / (u * u ^ 3)) * / (A1 u - B u)) by (rewrite Rinv_mult; ring).
        replace (u ^ 4 * / (u * u ^ 3)) with 1 by (field; auto). ring.
    - exists (fun u => u * A u ^ 2 / (A u - u * B u)). split; [ | split].
      + apply (continuous_Rdiv (fun u => u * A u ^ 2) (fun u => A u - u * B u)).
        * apply (continuous_mult (fun u => u) (fun u => A u ^ 2)); auto.
          apply (continuous_mult A (fun u => A u ^ 1)); auto. apply (continuous_mult A (fun _ => 1)); auto.
          apply continuous_const.
        * apply (continuous_minus A (fun u => u * B u)); auto. apply (continuous_mult (fun u => u) B); auto.
        * rewrite ZA. lra.
      + unfold Rdiv. ring.
      + intros u Hu. unfold pade_u, pade2.
        replace (u ^ 2 * A u - u ^ 3 * B u) with (u ^ 2 * (A u - u * B u)) by ring.
        unfold Rdiv. rewrite Rinv_mult.
        replace (/ u * ((u ^ 2 * A u) ^ 2 * (/ u ^ 2 * / (A u - u * B u))))
          with (u * A u ^ 2 * (u ^ 3 * / (u * u ^ 2)) * / (A u - u * B u)) by (rewrite Rinv_mult; ring).
        replace (u ^ 3 * / (u * u ^ 2)) with 1 by (field; auto). ring.
  Qed.
End PadeLimit.

(* ------------------------------------------------------------- states of growing volume *)
Section Limits.
  Variable p : params RNum.
  Hypothesis W : wfp p.
  Hypothesis Hph : phys p.
  Variables (t : R) (moles : list R).
  Hypothesis Ht : 0 < t.
  Hypothesis Hlen : length moles = length (p_m p).
  Hypothesis Hnn : forall i, (i < length (p_m p))%nat -> 0 <= nth i moles 0.
  Hypothesis Hne : exists i, (i < length (p_m p))%nat /\ 0 < nth i moles 0.
  Let X := mix_of p.
  Let nn := fun i => nth i moles 0.
  Let rho (v : R) := fun i => nth i moles 0 / v.
  Let Z k := Zeta X t nn k.

  Lemma Zeta_v v k : Zeta X t (rho v) k = / v * Z k.
  Proof.
    unfold Z, Zeta. rewrite <- Rmult_assoc, (Rmult_comm (/ v)), Rmult_assoc. f_equal.
    rewrite <- rsum_scal. apply Sum_ext. intros i Hi. unfold rho, nn, Rdiv. ring.
  Qed.
  Lemma Z_pos k : 0 < Z k.
  Proof. unfold Z. apply Zeta_pos_gen; auto. intros i Hi. apply Di_pos; auto. Qed.
  Lemma eventually_state v : Z 3 < v -> phys_state p t v moles.
  Proof.
    intros Hv. pose proof (Z_pos 3). constructor; auto; [lra | ].
    unfold Eta. fold X. change (Zeta X t (rho v) 3 < 1). rewrite Zeta_v.
    apply Rmult_lt_reg_l with v; [lra | ]. rewrite <- Rmult_assoc, Rinv_r by lra. lra.
  Qed.
  Lemma vpos v : Z 3 < v -> 0 < v.
  Proof. pose proof (Z_pos 3). lra. Qed.
  Lemma usmall v : Z 3 < v -> 0 < 1 - / v * Z 3.
  Proof.
    intros Hv. pose proof (ps_eta _ _ _ _ (eventually_state v Hv)) as E. unfold Eta in E.
    change (Zeta X t (rho v) 3 < 1) in E. rewrite Zeta_v in E. lra.
  Qed.

  Definition hs_u (u : R) : R :=
    6 / PI * (u * (3 * Z 1 * Z 2) / (1 - u * Z 3) + u * Z 2 ^ 3 / (Z 3 * (1 - u * Z 3) ^ 2)
              + (Z 2 ^ 3 / Z 3 ^ 2 - Z 0) * ln (1 - u * Z 3)).
  Lemma hs_limit : vanishes (fun v => a_hs p (@state_new RNum t v moles)).
  Proof.
    apply (vanish_cont hs_u _ (Z 3)).
    - apply (ex_derive_continuous hs_u). unfold hs_u. pose proof PI_RGT_0. pose proof (Z_pos 3).
      generalize dependent (Z 3). generalize (Z 2) (Z 1) (Z 0). intros z2 z1 z0 z3 H3.
      auto_derive. rewrite !Rmult_0_l, !Ropp_0, !Rplus_0_r. repeat split; auto; try lra.
    - unfold hs_u. rewrite !Rmult_0_l, Rminus_0_r, ln_1. unfold Rdiv. rewrite ?Rmult_0_l. ring.
    - intros v Hv. rewrite (hs_textbook p W Hph t v moles (eventually_state v Hv)).
      change (v * f_hs X t (rho v) = hs_u (/ v)). unfold f_hs, hs_u. rewrite !Zeta_v.
      pose proof (usmall v Hv). pose proof (vpos v Hv). pose proof (Z_pos 3).
      set (l := ln (1 - / v * Z 3)).
      generalize dependent (Z 3). generalize (Z 2) (Z 1) (Z 0). intros z2 z1 z0 z3 H3. intros.
      pose proof PI_RGT_0. field. repeat split; try lra.
  Qed.

  (* hard chains: contact value as a function of u *)
  Definition g_u (i j : nat) (u : R) : R :=
    let D := Di X t i * Di X t j / (Di X t i + Di X t j) in
    1 / (1 - u * Z 3) + D * (3 * (u * Z 2) / (1 - u * Z 3) ^ 2)
    + D ^ 2 * (2 * (u * Z 2) ^ 2 / (1 - u * Z 3) ^ 3).
  Lemma g_v v i j : Gij X t (rho v) i j = g_u i j (/ v).
  Proof. unfold Gij, g_u. rewrite !Zeta_v. reflexivity. Qed.
  Lemma g_ex i j : ex_derive (g_u i j) 0.
  Proof.
    unfold g_u. set (D := _ / _). generalize D (Z 3) (Z 2). intros d z3 z2.
    auto_derive. rewrite !Rmult_0_l, !Ropp_0, !Rplus_0_r. repeat split; auto; lra.
  Qed.
  Lemma g_0 i j : g_u i j 0 = 1.
  Proof. unfold g_u. rewrite !Rmult_0_l, Rminus_0_r. set (D := _ / (Di X t i + _)). field. Qed.

  Lemma continuous_comp_R (f g : R -> R) x : continuous f x -> continuous g (f x) -> continuous (fun u => g (f u)) x.
  Proof. intros Hf Hg. apply (continuous_comp f g); auto. Qed.
  Lemma ln_continuous y : 0 < y -> continuous ln y.
  Proof. intros H. apply (ex_derive_continuous ln). auto_derive. auto. Qed.

  Definition hc_u (u : R) : R := - Sum i < N X, nn i * (M X i - 1) * ln (g_u i i u).
  Lemma hc_limit : vanishes (fun v => a_hc p (@state_new RNum t v moles)).
  Proof.
    apply (vanish_cont hc_u _ (Z 3)).
    - apply (continuous_opp (fun u => Sum i < N X, nn i * (M X i - 1) * ln (g_u i i u))).
      apply continuous_rsum. intros i _.
      apply (continuous_mult (fun _ => nn i * (M X i - 1)) (fun u => ln (g_u i i u))); [apply continuous_const | ].
      apply continuous_comp_R; [apply (ex_derive_continuous (g_u i i)), g_ex | ].
      apply ln_continuous. rewrite g_0. lra.
    - unfold hc_u. rewrite (Sum_ext _ _ (fun _ => 0)).
      + rewrite rsum_zero; auto. apply Ropp_0.
      + intros i Hi. rewrite g_0, ln_1. ring.
    - intros v Hv. rewrite (hc_textbook p W Hph t v moles (eventually_state v Hv)).
      change (v * f_hc X t (rho v) = hc_u (/ v)). unfold f_hc, hc_u.
      pose proof (vpos v Hv). rewrite Ropp_mult_distr_r_reverse. f_equal. rewrite <- rsum_scal.
      apply Sum_ext. intros i Hi. rewrite g_v. generalize (ln (g_u i i (/ v))). intros y.
      unfold rho, nn. field. lra.
  Qed.

  (* dispersion *)
  Lemma Rho_v v : Rho X (rho v) = / v * Rho X nn.
  Proof. unfold Rho. rewrite <- rsum_scal. apply Sum_ext. intros. unfold rho, nn, Rdiv. ring. Qed.
  Lemma Mbar_v v : 0 < v -> Mbar X (rho v) = Mbar X nn.
  Proof.
    intros Hv. unfold Mbar. rewrite Rho_v.
    replace (Sum i < N X, rho v i * M X i) with (/ v * (Sum i < N X, nn i * M X i)).
    - unfold Rdiv. rewrite Rinv_mult, Rinv_inv.
      replace (/ v * (Sum i < N X, nn i * M X i) * (v * / Rho X nn))
        with ((/ v * v) * ((Sum i < N X, nn i * M X i) * / Rho X nn)) by ring.
      rewrite Rinv_l by lra. ring.
    - rewrite <- rsum_scal. apply Sum_ext. intros. unfold rho, nn, Rdiv. ring.
  Qed.
  Lemma mixsum_v v k : mixsum X t (rho v) k = (/ v) ^ 2 * mixsum X t nn k.
  Proof.
    unfold mixsum. rewrite <- rsum_scal. apply Sum_ext; intros i Hi. rewrite <- rsum_scal.
    apply Sum_ext; intros j Hj. unfold rho, nn, Rdiv. ring.
  Qed.
  Let mb := Mbar X nn.
  Definition ps_u (c0 c1 c2 : list Q) (u : R) : R :=
    Sum i < 7, (lit c0 i + (mb - 1) / mb * lit c1 i + (mb - 1) / mb * ((mb - 2) / mb) * lit c2 i) * (u * Z 3) ^ i.
  Definition c1_u (u : R) : R :=
    1 / (1 + mb * (8 * (u * Z 3) - 2 * (u * Z 3) ^ 2) / (1 - u * Z 3) ^ 4
         + (1 - mb) * (20 * (u * Z 3) - 27 * (u * Z 3) ^ 2 + 12 * (u * Z 3) ^ 3 - 2 * (u * Z 3) ^ 4)
           / ((1 - u * Z 3) * (2 - u * Z 3)) ^ 2).
  Lemma ps_cont c0 c1 c2 : continuous (ps_u c0 c1 c2) 0.
  Proof.
    apply continuous_rsum. intros i _. set (c := _ + _). generalize c (Z 3). intros d z.
    apply (ex_derive_continuous (fun u => d * (u * z) ^ i)). auto_derive. auto.
  Qed.
  Lemma c1_cont : continuous c1_u 0.
  Proof.
    apply (ex_derive_continuous c1_u). unfold c1_u. generalize mb (Z 3). intros m z.
    auto_derive. rewrite !Rmult_0_l, !Ropp_0, !Rplus_0_r. repeat split; auto; try lra.
    all: unfold Rdiv; rewrite ?Rmult_0_l, ?Rmult_0_r, ?Rplus_0_r; try lra.
  Qed.
  Definition disp_u (u : R) : R :=
    u * (- 2 * PI * ps_u A0 A1 A2 u * mixsum X t nn 1 - PI * mb * c1_u u * ps_u B0 B1 B2 u * mixsum X t nn 2).
  Lemma disp_limit : vanishes (fun v => a_disp p (@state_new RNum t v moles)).
  Proof.
    apply (vanish_cont disp_u _ (Z 3)).
    - pose proof (ps_cont A0 A1 A2) as CA. pose proof (ps_cont B0 B1 B2) as CB. pose proof c1_cont as CC.
      unfold disp_u. apply (continuous_mult (fun u => u) (fun u => _ - _)); [apply continuous_id | ].
      apply (continuous_minus (fun u => - 2 * PI * ps_u A0 A1 A2 u * mixsum X t nn 1)
                              (fun u => PI * mb * c1_u u * ps_u B0 B1 B2 u * mixsum X t nn 2)).
      + apply (continuous_mult (fun u => - 2 * PI * ps_u A0 A1 A2 u) (fun _ => mixsum X t nn 1)); [ | apply continuous_const].
        apply (continuous_mult (fun _ => - 2 * PI) (ps_u A0 A1 A2)); [apply continuous_const | auto].
      + apply (continuous_mult (fun u => PI * mb * c1_u u * ps_u B0 B1 B2 u) (fun _ => mixsum X t nn 2)); [ | apply continuous_const].
        apply (continuous_mult (fun u => PI * mb * c1_u u) (ps_u B0 B1 B2)); [ | auto].
        apply (continuous_mult (fun _ => PI * mb) c1_u); [apply continuous_const | auto].
    - unfold disp_u. ring.
    - intros v Hv. rewrite (disp_textbook p W t v moles (eventually_state v Hv)).
      change (v * f_disp X t (rho v) = disp_u (/ v)). pose proof (vpos v Hv). unfold f_disp, disp_u.
      rewrite !mixsum_v, Mbar_v by auto. fold mb.
      replace (power_series X t (rho v) A0 A1 A2) with (ps_u A0 A1 A2 (/ v))
        by (unfold power_series, ps_u, Eta; rewrite Zeta_v, Mbar_v by auto; reflexivity).
      replace (power_series X t (rho v) B0 B1 B2) with (ps_u B0 B1 B2 (/ v))
        by (unfold power_series, ps_u, Eta; rewrite Zeta_v, Mbar_v by auto; reflexivity).
      replace (C1 X t (rho v)) with (c1_u (/ v))
        by (unfold C1, c1_u, Eta; rewrite Zeta_v, Mbar_v by auto; reflexivity).
      generalize (ps_u A0 A1 A2 (/ v)) (ps_u B0 B1 B2 (/ v)) (c1_u (/ v)) (mixsum X t nn 1) (mixsum X t nn 2) mb.
      intros. field. lra.
  Qed.

  (* polar terms *)
  Definition pair_coef (C : R) (w : nat -> nat -> R) (c : nat -> nat -> nat -> R) (l : nat) : R :=
    C * (Sum i < N X, Sum j < N X, nn i * nn j * w i j * c l i j) * Z 3 ^ l.
  Definition triple_coef (C : R) (w : nat -> nat -> nat -> R) (c : nat -> nat -> nat -> nat -> R) (l : nat) : R :=
    C * (Sum i < N X, Sum j < N X, Sum k < N X, nn i * nn j * nn k * w i j k * c l i j k) * Z 3 ^ l.
  Lemma pair_v v C w c L : 
    C * (Sum i < N X, Sum j < N X, rho v i * rho v j * w i j * (Sum l < L, c l i j * Eta X t (rho v) ^ l))
    = (/ v) ^ 2 * polyn (pair_coef C w c) L (/ v).
  Proof.
    unfold polyn, pair_coef, Eta. rewrite Zeta_v.
    rewrite <- (rsum_scal _ _ ((/ v) ^ 2)).
    rewrite (Sum_ext L (fun l => (/ v) ^ 2 * _) (fun l => C * (Sum i < N X, Sum j < N X, rho v i * rho v j * w i j * (c l i j * (/ v * Z 3) ^ l)))).
    - rewrite rsum_scal. f_equal. symmetry. rewrite rsum_swap. apply Sum_ext; intros i Hi.
      rewrite rsum_swap. apply Sum_ext; intros j Hj. rewrite rsum_scal. reflexivity.
    - intros l Hl. rewrite Rpow_mult_distr.
      replace ((/ v) ^ 2 * (C * (Sum i < N X, Sum j < N X, nn i * nn j * w i j * c l i j) * Z 3 ^ l * (/ v) ^ l))
        with (C * ((/ v) ^ 2 * ((/ v) ^ l * Z 3 ^ l) * (Sum i < N X, Sum j < N X, nn i * nn j * w i j * c l i j))) by ring.
      f_equal. rewrite <- rsum_scal. apply Sum_ext; intros i Hi. rewrite <- rsum_scal.
      apply Sum_ext; intros j Hj. unfold rho, nn, Rdiv. ring.
  Qed.
  Lemma triple_v v C w c L : 
    C * (Sum i < N X, Sum j < N X, Sum k < N X, rho v i * rho v j * rho v k * w i j k * (Sum l < L, c l i j k * Eta X t (rho v) ^ l))
    = (/ v) ^ 3 * polyn (triple_coef C w c) L (/ v).
  Proof.
    unfold polyn, triple_coef, Eta. rewrite Zeta_v.
    rewrite <- (rsum_scal _ _ ((/ v) ^ 3)).
    rewrite (Sum_ext L (fun l => (/ v) ^ 3 * _) (fun l => C * (Sum i < N X, Sum j < N X, Sum k < N X, rho v i * rho v j * rho v k * w i j k * (c l i j k * (/ v * Z 3) ^ l)))).
    - rewrite rsum_scal. f_equal. symmetry. rewrite rsum_swap. apply Sum_ext; intros i Hi.
      rewrite rsum_swap. apply Sum_ext; intros j Hj. rewrite rsum_swap. apply Sum_ext; intros k Hk.
      rewrite rsum_scal. reflexivity.
    - intros l Hl. rewrite Rpow_mult_distr.
      replace ((/ v) ^ 3 * (C * (Sum i < N X, Sum j < N X, Sum k < N X, nn i * nn j * nn k * w i j k * c l i j k) * Z 3 ^ l * (/ v) ^ l))
        with (C * ((/ v) ^ 3 * ((/ v) ^ l * Z 3 ^ l) * (Sum i < N X, Sum j < N X, Sum k < N X, nn i * nn j * nn k * w i j k * c l i j k))) by ring.
      f_equal. rewrite <- rsum_scal. apply Sum_ext; intros i Hi. rewrite <- rsum_scal.
      apply Sum_ext; intros j Hj. rewrite <- rsum_scal. apply Sum_ext; intros k Hk. unfold rho, nn, Rdiv. ring.
  Qed.

  Lemma pade_limit (f : R -> R) alpha beta L' K' :
    (forall v, Z 3 < v -> f v = v * pade2 ((/ v) ^ 2 * polyn alpha (S (S (S L'))) (/ v)) ((/ v) ^ 3 * polyn beta (S (S K')) (/ v))) ->
    (forall l, alpha l = 0) \/ ~ (alpha 0%nat = 0 /\ alpha 1%nat = beta 0%nat /\ alpha 2%nat = beta 1%nat) ->
    vanishes f.
  Proof.
    intros E [H | H].
    - apply (vanishes_eventually _ (fun _ => 0) (Z 3)); [ | apply vanishes_0].
      intros v Hv. rewrite E by auto. replace (polyn alpha (S (S (S L'))) (/ v)) with 0.
      + unfold pade2. unfold Rdiv. ring.
      + unfold polyn. symmetry. apply rsum_zero. intros l _. rewrite H. ring.
    - destruct (pade_vanishes alpha beta L' K' H) as (F & CF & ZF & EF).
      apply (vanish_cont F _ (Z 3)); auto. intros v Hv. rewrite E by auto. pose proof (vpos v Hv).
      rewrite <- EF by (apply Rinv_neq_0_compat; lra). unfold pade_u. rewrite Rinv_inv. reflexivity.
  Qed.
End Limits.
