(** C53: high-temperature limit.  Every contribution depends on the temperature only through ratios of
    energies to it, so it is a function of s = 1/T that turns out to be continuous at s = 0. *)
From Coq Require Import ZArith QArith Reals Lra Lia String List Bool Psatz.
From Coquelicot Require Import Coquelicot.
From Verif Require Import Num RNum RSum Tables M_Params F_Params M_Eos Spec F_Spec F_SpecPolar
  F_SpecAssoc F_Contrib F_Total Samples F_Limit P_Basic P_Profile P_Limit P_Finite2 P_Params.
Import ListNotations.
Local Open Scope R_scope.
Set Bullet Behavior "Strict Subproofs".
Notation length := List.length.

(** f(t) tends to l as t tends to infinity *)
Definition tends (f : R -> R) (l : R) : Prop := forall eps, 0 < eps -> exists T0, forall t, T0 < t -> Rabs (f t - l) < eps.
Lemma tends_cont (F f : R -> R) T1 : continuous F 0 -> (forall t, T1 < t -> f t = F (/ t)) -> tends f (F 0).
Proof.
  intros C E e He. destruct (continuous_bound F C e He) as (d & Hd & HB). exists (Rmax T1 (/ d)). intros t Ht. pose proof (Rmax_l T1 (/ d)). pose proof (Rmax_r T1 (/ d)).
  rewrite E by lra. destruct (inv_small d t Hd ltac:(lra)) as [_ Hi]. apply HB. lra.
Qed.
Lemma tends_plus f g a b : tends f a -> tends g b -> tends (fun t => f t + g t) (a + b).
Proof.
  intros Hf Hg e He. destruct (Hf (e / 2)) as (x & Hx); [lra | ]. destruct (Hg (e / 2)) as (y & Hy); [lra | ]. exists (Rmax x y). intros t Ht. pose proof (Rmax_l x y). pose proof (Rmax_r x y).
  specialize (Hx t ltac:(lra)). specialize (Hy t ltac:(lra)). replace (f t + g t - (a + b)) with ((f t - a) + (g t - b)) by ring. pose proof (Rabs_triang (f t - a) (g t - b)). lra.
Qed.
(** decay of order t^-k at least implies that the limit is zero *)
Lemma tends_scale f l : tends (fun t => t * f t) l -> tends f 0.
Proof.
  intros H e He. destruct (H 1 ltac:(lra)) as (T0 & HT). set (c := Rabs l + 1). assert (Pc : 0 < c) by (pose proof (Rabs_pos l); unfold c; lra).
  exists (Rmax (Rmax T0 0) (c / e)). intros t Ht. pose proof (Rmax_l (Rmax T0 0) (c / e)). pose proof (Rmax_r (Rmax T0 0) (c / e)). pose proof (Rmax_l T0 0). pose proof (Rmax_r T0 0).
  assert (Pt : 0 < t) by lra. specialize (HT t ltac:(lra)). rewrite Rminus_0_r.
  assert (B : t * Rabs (f t) < c).
  { rewrite <- (Rabs_right t) at 1 by lra. rewrite <- Rabs_mult. replace (t * f t) with ((t * f t - l) + l) by ring. pose proof (Rabs_triang (t * f t - l) l). unfold c. lra. }
  assert (C : c < t * e). { assert (X : c / e < t) by lra. apply (Rmult_lt_compat_r e) in X; auto. unfold Rdiv in X. rewrite Rmult_assoc, Rinv_l, Rmult_1_r in X by lra. exact X. }
  apply Rmult_lt_reg_l with t; auto. lra.
Qed.
Lemma tends_ext f g l : (forall t, f t = g t) -> tends f l -> tends g l.
Proof. intros E H e He. destruct (H e He) as (T0 & HT). exists T0. intros t Ht. rewrite <- E. auto. Qed.
Lemma tends_eq f l l' : l = l' -> tends f l -> tends f l'. Proof. intros <-. auto. Qed.

(** continuity of composed expressions *)
Lemma c_plus (f g : R -> R) x : continuous f x -> continuous g x -> continuous (fun s => f s + g s) x. Proof. apply (continuous_plus f g). Qed.
Lemma c_minus (f g : R -> R) x : continuous f x -> continuous g x -> continuous (fun s => f s - g s) x. Proof. apply (continuous_minus f g). Qed.
Lemma c_mult (f g : R -> R) x : continuous f x -> continuous g x -> continuous (fun s => f s * g s) x. Proof. apply (continuous_mult f g). Qed.
Lemma c_opp (f : R -> R) x : continuous f x -> continuous (fun s => - f s) x. Proof. apply (continuous_opp f). Qed.
Lemma c_const (c x : R) : continuous (fun _ : R => c) x. Proof. apply continuous_const. Qed.
Lemma c_id (x : R) : continuous (fun s : R => s) x. Proof. apply continuous_id. Qed.
Lemma c_pow (f : R -> R) k x : continuous f x -> continuous (fun s => f s ^ k) x.
Proof. intros H. induction k as [ | k IH]; cbn [pow]; [apply c_const | apply c_mult; auto]. Qed.
Lemma c_exp (f : R -> R) x : continuous f x -> continuous (fun s => exp (f s)) x.
Proof. intros H. apply (continuous_comp_R f exp); auto. apply (ex_derive_continuous exp). auto_derive. auto. Qed.
Lemma c_ln (f : R -> R) x : continuous f x -> 0 < f x -> continuous (fun s => ln (f s)) x.
Proof. intros H P. apply (continuous_comp_R f ln); auto. apply ln_continuous; auto. Qed.
Ltac cont := cbv beta; first
  [ apply c_const | apply c_id | assumption
  | match goal with
    | |- continuous (fun s => @?f s + @?g s) ?x => apply (c_plus f g x); cont
    | |- continuous (fun s => @?f s - @?g s) ?x => apply (c_minus f g x); cont
    | |- continuous (fun s => @?f s * @?g s) ?x => apply (c_mult f g x); cont
    | |- continuous (fun s => @?f s / @?g s) ?x => apply (continuous_Rdiv f g x); [cont | cont | ]
    | |- continuous (fun s => - @?f s) ?x => apply (c_opp f x); cont
    | |- continuous (fun s => @?f s ^ ?k) ?x => apply (c_pow f k x); cont
    | |- continuous (fun s => exp (@?f s)) ?x => apply (c_exp f x); cont
    | |- continuous (fun s => ln (@?f s)) ?x => apply (c_ln f x); [cont | ]
    | |- continuous (fun s => rsum ?l (fun a => @?f s a)) ?x => apply (continuous_rsum l (fun a s => f s a)); intros; cont
    end
  | idtac ].

(** all energies multiplied by s: at s = 0 a fluid without attraction *)
Definition weakened (X : mixture) (s : R) : mixture :=
  mkMix (N X) (M X) (Sg X) (fun i => s * Ep X i) (Mu2 X) (Qu2 X) (Kab X) (fun i => s * Eab X i) (Na X) (Nb X) (Kij X).
(** chains of hard spheres without any attraction *)
Definition athermal (X : mixture) : mixture :=
  mkMix (N X) (M X) (Sg X) (fun _ => 0) (fun _ => 0) (fun _ => 0) (fun _ => 0) (fun _ => 0) (fun _ => 0) (fun _ => 0) (fun _ _ => 0).

Section Weak.
  Variables (X : mixture) (rho : nat -> R).
  Let Y := weakened X.
  Lemma Di_weak t i : 0 < t -> Di X t i = Di (Y (/ t)) 1 i.
  Proof. intros Ht. unfold Di. cbn [Y weakened Sg Ep]. do 4 f_equal. field. lra. Qed.
  Lemma Zeta_weak t k : 0 < t -> Zeta X t rho k = Zeta (Y (/ t)) 1 rho k.
  Proof. intros Ht. unfold Zeta. change (N (Y (/ t))) with (N X). change (M (Y (/ t))) with (M X). f_equal. apply Sum_ext. intros i _. rewrite Di_weak by auto. reflexivity. Qed.
  Lemma hs_weak t : 0 < t -> f_hs X t rho = f_hs (Y (/ t)) 1 rho.
  Proof. intros Ht. unfold f_hs. rewrite !Zeta_weak by auto. reflexivity. Qed.
  Lemma G_weak t i j : 0 < t -> Gij X t rho i j = Gij (Y (/ t)) 1 rho i j.
  Proof. intros Ht. unfold Gij. rewrite !Zeta_weak, !Di_weak by auto. reflexivity. Qed.
  Lemma hc_weak t : 0 < t -> f_hc X t rho = f_hc (Y (/ t)) 1 rho.
  Proof. intros Ht. unfold f_hc. change (N (Y (/ t))) with (N X). change (M (Y (/ t))) with (M X). f_equal. apply Sum_ext. intros i _. rewrite G_weak by auto. reflexivity. Qed.
  Lemma Di_0 i : Di (Y 0) 1 i = Di (athermal X) 1 i.
  Proof. unfold Di. cbn [Y weakened athermal Sg Ep]. do 4 f_equal. field. Qed.
  Lemma Di_ath i : Di (athermal X) 1 i = 0.88 * Sg X i.
  Proof. unfold Di. cbn [athermal Sg Ep]. replace (-3 * 0 / 1) with 0 by field. rewrite exp_0. lra. Qed.
  Lemma Zeta_0 k : Zeta (Y 0) 1 rho k = Zeta (athermal X) 1 rho k.
  Proof. unfold Zeta. cbn [Y weakened athermal N M]. f_equal. apply Sum_ext. intros i _. rewrite <- Di_0. reflexivity. Qed.
  Lemma hs_0 : f_hs (Y 0) 1 rho = f_hs (athermal X) 1 rho.
  Proof. unfold f_hs. rewrite !Zeta_0. reflexivity. Qed.
  Lemma G_0 i j : Gij (Y 0) 1 rho i j = Gij (athermal X) 1 rho i j.
  Proof. unfold Gij. rewrite !Zeta_0, !Di_0. reflexivity. Qed.
  Lemma hc_0 : f_hc (Y 0) 1 rho = f_hc (athermal X) 1 rho.
  Proof. unfold f_hc. cbn [Y weakened athermal N M]. f_equal. apply Sum_ext. intros i _. rewrite <- G_0. reflexivity. Qed.
  Lemma Di_c i : continuous (fun s => Di (Y s) 1 i) 0.
  Proof. unfold Di. cbn [Y weakened Sg Ep]. cont. lra. Qed.
  Lemma Zeta_c k : continuous (fun s => Zeta (Y s) 1 rho k) 0.
  Proof. unfold Zeta. cbn [Y weakened N M]. cont. apply (Di_c a). Qed.
End Weak.

Section C53.
  Variable p : params RNum.
  Hypothesis W : wfp p.
  Hypothesis Hph : phys p.
  Variables (v : R) (moles : list R).
  Hypothesis Hv : 0 < v.
  Hypothesis Hlen : length moles = length (p_m p).
  Hypothesis Hnn : forall i, (i < length (p_m p))%nat -> 0 <= nth i moles 0.
  Hypothesis Hne : exists i, (i < length (p_m p))%nat /\ 0 < nth i moles 0.
  Let X := mix_of p.
  Let n := length (p_m p).
  Let rho := fun i => nth i moles 0 / v.
  Let st t := @state_new RNum t v moles.
  (** packing fraction of the athermal fluid *)
  Hypothesis Hpack : Zeta (athermal X) 1 rho 3 < 1.
  Let Y := weakened X.

  Lemma zc k : continuous (fun s => Zeta (Y s) 1 rho k) 0. Proof. apply (Zeta_c X rho k). Qed.
  Lemma z3_0 : Zeta (Y 0) 1 rho 3 < 1. Proof. unfold Y. rewrite Zeta_0. exact Hpack. Qed.
  Lemma eventually_hot : exists T1, 0 < T1 /\ forall t, T1 < t -> phys_state p t v moles.
  Proof.
    destruct (continuous_bound _ (zc 3) (1 - Zeta (Y 0) 1 rho 3)) as (d & Hd & HB); [pose proof z3_0; lra | ]. exists (/ d). split; [apply Rinv_0_lt_compat; auto | ]. intros t Ht.
    destruct (inv_small d t Hd Ht) as [Pt Hi]. constructor; auto. unfold Eta. fold rho X. rewrite Zeta_weak by auto. specialize (HB (/ t) ltac:(lra)). cbv beta in HB. apply Rabs_def2 in HB. fold Y. lra.
  Qed.
  Lemma d0_pos i : (i < n)%nat -> 0 < Di (Y 0) 1 i.
  Proof. intros Hi. unfold Y. rewrite Di_0, Di_ath. destruct (Hph i Hi) as (_ & Ps & _). change (0 < Sg X i) in Ps. lra. Qed.
  Lemma z0_pos k : 0 < Zeta (Y 0) 1 rho k.
  Proof.
    unfold Zeta. pose proof PI_RGT_0. apply Rmult_lt_0_compat; [lra | ]. destruct Hne as (i & Hi & Pi). change (N (Y 0)) with n. apply (rsum_pos _ _ i).
    - intros j Hj. apply seq_in in Hj. pose proof (d0_pos j Hj). destruct (Hph j Hj) as (Pm & _). specialize (Hnn j Hj). apply Rmult_le_pos; [apply Rmult_le_pos; [apply Rmult_le_pos; [exact Hnn | left; apply Rinv_0_lt_compat; auto] | left; exact Pm] | apply pow_le; lra].
    - apply in_seq. unfold n. lia.
    - pose proof (d0_pos i Hi). destruct (Hph i Hi) as (Pm & _). apply Rmult_lt_0_compat; [apply Rmult_lt_0_compat; [apply Rdiv_lt_0_compat; auto | exact Pm] | apply pow_lt; auto].
  Qed.
  (** hard spheres *)
  Theorem C53_hard_sphere : tends (fun t => a_hs p (st t)) (v * f_hs (athermal X) 1 rho).
  Proof.
    destruct eventually_hot as (T1 & P1 & HT). apply (tends_eq _ (v * f_hs (Y 0) 1 rho)); [unfold Y; rewrite hs_0; reflexivity | ].
    apply (tends_cont (fun s => v * f_hs (Y s) 1 rho) _ T1).
    - pose proof (zc 0). pose proof (zc 1). pose proof (zc 2). pose proof (zc 3). pose proof z3_0. pose proof (z0_pos 3). pose proof PI_RGT_0. unfold f_hs. cont; try (apply Rmult_integral_contrapositive; split); try apply pow_nonzero; lra.
    - intros t Ht. unfold st. rewrite (hs_textbook p W Hph t v moles (HT t Ht)). fold rho X. rewrite hs_weak by lra. reflexivity.
  Qed.
  Lemma gc i : (i < n)%nat -> continuous (fun s => Gij (Y s) 1 rho i i) 0.
  Proof. intros Hi. pose proof (zc 2). pose proof (zc 3). assert (Cd : continuous (fun s => Di (Y s) 1 i) 0) by apply (Di_c X i). pose proof (d0_pos i Hi). pose proof z3_0. unfold Gij. cbv zeta. cont; try apply pow_nonzero; lra. Qed.
  Lemma g0_pos i : (i < n)%nat -> 0 < Gij (Y 0) 1 rho i i.
  Proof.
    intros Hi. pose proof (d0_pos i Hi) as Pd. pose proof z3_0 as P3. pose proof (z0_pos 2) as P2. unfold Gij. cbv zeta. set (d := Di (Y 0) 1 i) in *. set (z2 := Zeta (Y 0) 1 rho 2) in *. set (z3 := Zeta (Y 0) 1 rho 3) in *. clearbody d z2 z3.
    assert (0 < d * d / (d + d)) by (apply Rdiv_lt_0_compat; [apply Rmult_lt_0_compat; auto | lra]). set (D := d * d / (d + d)) in *. clearbody D. assert (0 < / (1 - z3)) by (apply Rinv_0_lt_compat; lra).
    assert (0 < D * (3 * z2 / (1 - z3) ^ 2)) by (apply Rmult_lt_0_compat; [auto | apply Rdiv_lt_0_compat; [lra | apply pow_lt; lra]]).
    assert (0 < D ^ 2 * (2 * z2 ^ 2 / (1 - z3) ^ 3)) by (apply Rmult_lt_0_compat; [apply pow_lt; auto | apply Rdiv_lt_0_compat; [apply Rmult_lt_0_compat; [lra | apply pow_lt; auto] | apply pow_lt; lra]]). replace (1 / (1 - z3)) with (/ (1 - z3)) by (unfold Rdiv; ring). lra.
  Qed.
  Theorem C53_hard_chain : tends (fun t => a_hc p (st t)) (v * f_hc (athermal X) 1 rho).
  Proof.
    destruct eventually_hot as (T1 & P1 & HT). apply (tends_eq _ (v * f_hc (Y 0) 1 rho)); [unfold Y; rewrite hc_0; reflexivity | ].
    apply (tends_cont (fun s => v * f_hc (Y s) 1 rho) _ T1).
    - unfold f_hc. change (fun s => v * - (Sum i < N (Y s), rho i * (M (Y s) i - 1) * ln (Gij (Y s) 1 rho i i))) with (fun s => v * - (Sum i < n, rho i * (M X i - 1) * ln (Gij (Y s) 1 rho i i))).
      apply c_mult; [apply c_const | ]. apply c_opp. apply (continuous_rsum (seq 0 n) (fun i s => rho i * (M X i - 1) * ln (Gij (Y s) 1 rho i i))). intros i Hi. apply seq_in in Hi. pose proof (gc i Hi). cont. apply g0_pos; auto.
    - intros t Ht. unfold st. rewrite (hc_textbook p W Hph t v moles (HT t Ht)). fold rho X. rewrite hc_weak by lra. reflexivity.
  Qed.

  (** dispersion: decays like 1/T, with the coefficient of the athermal fluid *)
  Let Mb := Mbar X rho.
  Lemma Mb_pos : 0 < Mb.
  Proof.
    destruct Hne as (i & Hi & Pi). assert (R1 : forall j, (j < n)%nat -> 0 <= rho j) by (intros j Hj; apply Rmult_le_pos; [apply Hnn; auto | left; apply Rinv_0_lt_compat; auto]).
    assert (R2 : 0 < rho i) by (apply Rdiv_lt_0_compat; auto).
    unfold Mb, Mbar, Rho. change (N X) with n. apply Rdiv_lt_0_compat.
    - apply (rsum_pos _ _ i); [ | apply in_seq; unfold n; lia | ].
      + intros j Hj. apply seq_in in Hj. destruct (Hph j Hj) as (Pm & _). apply Rmult_le_pos; [auto | left; exact Pm].
      + destruct (Hph i Hi) as (Pm & _). apply Rmult_lt_0_compat; auto.
    - apply (rsum_pos _ _ i); [ | apply in_seq; unfold n; lia | auto]. intros j Hj. apply seq_in in Hj. auto.
  Qed.
  Definition series (c0 c1 c2 : list Q) (h : R) : R :=
    Sum i < 7, (lit c0 i + (Mb - 1) / Mb * lit c1 i + (Mb - 1) / Mb * ((Mb - 2) / Mb) * lit c2 i) * h ^ i.
  Let z (s : R) := Zeta (Y s) 1 rho 3.
  Let F_disp (s : R) : R :=
    v * (- 2 * PI * series A0 A1 A2 (z s) * mixsum X 1 rho 1 - PI * Mb * (1 / inv_compressibility Mb (z s)) * series B0 B1 B2 (z s) * (s * mixsum X 1 rho 2)).
  Lemma series_c c0 c1 c2 : continuous (fun s => series c0 c1 c2 (z s)) 0.
  Proof. unfold series. assert (continuous z 0) by apply (zc 3). cont. Qed.
  Lemma mixsum_t k t : 0 < t -> mixsum X t rho k = (/ t) ^ k * mixsum X 1 rho k.
  Proof.
    intros Ht. unfold mixsum. rewrite <- rsum_scal. apply Sum_ext; intros i _. rewrite <- rsum_scal. apply Sum_ext; intros j _.
    replace (Eij X i j / t) with (/ t * (Eij X i j / 1)) by (field; lra). rewrite Rpow_mult_distr. ring.
  Qed.
  Theorem C53_dispersion :
    tends (fun t => t * a_disp p (st t)) (v * (- 2 * PI * series A0 A1 A2 (Zeta (athermal X) 1 rho 3) * mixsum X 1 rho 1)).
  Proof.
    destruct eventually_hot as (T1 & P1 & HT). apply (tends_eq _ (F_disp 0)).
    { unfold F_disp, z, Y. rewrite Zeta_0. ring. }
    apply (tends_cont F_disp _ T1).
    - unfold F_disp. pose proof (series_c A0 A1 A2). pose proof (series_c B0 B1 B2).
      assert (Cz : continuous z 0) by apply (zc 3). pose proof z3_0. pose proof (z0_pos 3). pose proof Mb_pos as PM.
      assert (K : continuous (fun s => 1 / inv_compressibility Mb (z s)) 0).
      { apply (continuous_Rdiv (fun _ => 1)); [apply c_const | | pose proof (inv_compressibility_ge1 Mb (z 0) PM ltac:(unfold z; lra)); lra].
        unfold inv_compressibility. cont; try apply pow_nonzero; try (apply Rmult_integral_contrapositive; split); unfold z; lra. }
      cont.
    - intros t Ht. unfold st. rewrite (disp_textbook p W t v moles (HT t Ht)). fold rho X. unfold F_disp, f_disp. rewrite (mixsum_t 1 t), (mixsum_t 2 t) by lra.
      change (power_series X t rho A0 A1 A2) with (series A0 A1 A2 (Zeta X t rho 3)). change (power_series X t rho B0 B1 B2) with (series B0 B1 B2 (Zeta X t rho 3)).
      change (C1 X t rho) with (1 / inv_compressibility Mb (Zeta X t rho 3)). rewrite Zeta_weak by lra. fold Y. fold (z (/ t)). fold Mb. set (q := 1 / inv_compressibility Mb (z (/ t))). clearbody q. field. lra.
  Qed.

  (** polar terms *)
  Definition pairs (C : R) (w : nat -> nat -> R) (a b : list (list Q)) (s : R) : R :=
    C * Sum i < n, Sum j < n, w i j * (Sum l < length a, (cm a l (m2 X i j) + cm b l (m2 X i j) * (Eij0 X i j * s)) * z s ^ l).
  Definition triples (C : R) (w : nat -> nat -> nat -> R) (c : nat -> nat -> nat -> nat -> R) (L : nat) (s : R) : R :=
    C * Sum i < n, Sum j < n, Sum k < n, w i j k * (Sum l < L, c l i j k * z s ^ l).
  Lemma pairs_c C w a b : continuous (pairs C w a b) 0.
  Proof. assert (Cz : continuous z 0) by apply (zc 3). unfold pairs. cont. Qed.
  Lemma triples_c C w c L : continuous (triples C w c L) 0.
  Proof. assert (Cz : continuous z 0) by apply (zc 3). unfold triples. cont. Qed.
  Lemma pairs_or C w a b : (forall i j, (i < n)%nat -> (j < n)%nat -> 0 <= w i j) ->
    (forall i j, (i < n)%nat -> (j < n)%nat -> w i j <> 0 -> 0 < Sum l < length a, (cm a l (m2 X i j) + cm b l (m2 X i j) * 0) * z 0 ^ l) ->
    C <> 0 -> pairs C w a b 0 <> 0 \/ forall s, pairs C w a b s = 0.
  Proof.
    intros Hw HJ HC. set (J := fun i j => Sum l < length a, (cm a l (m2 X i j) + cm b l (m2 X i j) * 0) * z 0 ^ l).
    assert (E0 : pairs C w a b 0 = C * Sum i < n, Sum j < n, w i j * J i j).
    { unfold pairs, J. f_equal. apply Sum_ext; intros i _. apply Sum_ext; intros j _. f_equal. apply Sum_ext; intros l _. rewrite Rmult_0_r. reflexivity. }
    assert (NN : forall i j, (i < n)%nat -> (j < n)%nat -> 0 <= w i j * J i j).
    { intros i j Hi Hj. destruct (Req_dec (w i j) 0) as [-> | Nz]; [lra | ]. apply Rmult_le_pos; auto. left. apply HJ; auto. }
    destruct (Req_dec (Sum i < n, Sum j < n, w i j * J i j) 0) as [Z | Z].
    - right. intros s. assert (W0 : forall i j, (i < n)%nat -> (j < n)%nat -> w i j = 0).
      { intros i j Hi Hj. destruct (Req_dec (w i j) 0) as [ | Nz]; auto. exfalso.
        assert (0 < w i j * J i j) by (apply Rmult_lt_0_compat; [specialize (Hw i j Hi Hj); lra | apply HJ; auto]).
        assert (P : 0 < Sum i < n, Sum j < n, w i j * J i j); [ | lra].
        apply (rsum_pos _ _ i); [ | apply in_seq; lia | ].
        - intros i' Hi'. apply seq_in in Hi'. apply rsum_nonneg. intros j' Hj'. apply seq_in in Hj'. apply NN; auto.
        - apply (rsum_pos _ _ j); [ | apply in_seq; lia | auto]. intros j' Hj'. apply seq_in in Hj'. apply NN; auto. }
      unfold pairs. rewrite (rsum_zero (seq 0 n)); [ring | ]. intros i Hi. apply seq_in in Hi. apply rsum_zero. intros j Hj. apply seq_in in Hj. rewrite W0 by auto. ring.
    - left. rewrite E0. apply Rmult_integral_contrapositive; auto.
  Qed.
  Lemma pade_hot (f : R -> R) A B T1 : 0 < T1 -> continuous A 0 -> continuous B 0 -> A 0 <> 0 \/ (forall s, A s = 0) ->
    (forall t, T1 < t -> f t = v * pade2 ((/ t) ^ 2 * A (/ t)) ((/ t) ^ 3 * B (/ t))) -> tends (fun t => t ^ 2 * f t) (v * A 0).
  Proof.
    intros P1 CA CB [H | H] E.
    - apply (tends_eq _ (v * (A 0 ^ 2 / (A 0 - 0 * B 0)))); [field; lra | ].
      apply (tends_cont (fun s => v * (A s ^ 2 / (A s - s * B s))) _ T1).
      + cont. lra.
      + intros t Ht. rewrite E by auto. set (a := A (/ t)). set (b := B (/ t)). clearbody a b. set (s := / t). assert (Ps : 0 < s) by (apply Rinv_0_lt_compat; lra). replace t with (/ s) by (unfold s; apply Rinv_inv).
        clearbody s. unfold pade2. replace (s ^ 2 * a - s ^ 3 * b) with (s ^ 2 * (a - s * b)) by ring. unfold Rdiv. rewrite Rinv_mult. set (q := / (a - s * b)). clearbody q. field. lra.
    - apply (tends_eq _ (v * (0 * 0))); [rewrite H; ring | ]. apply (tends_cont (fun _ => v * (0 * 0)) _ T1); [apply c_const | ]. intros t Ht. rewrite E, H by auto. unfold pade2, Rdiv. rewrite Rmult_0_r. ring.
  Qed.
  Hypothesis Hmu : forall i, (i < n)%nat -> 0 <= Mu2 X i.
  Hypothesis Hq : forall i, (i < n)%nat -> 0 <= Qu2 X i.
  (** polar components have at least one segment, and the packing fraction is that of a fluid *)
  Hypothesis Hm1 : forall i, (i < n)%nat -> Mu2 X i <> 0 \/ Qu2 X i <> 0 -> 1 <= M X i.
  Hypothesis Hdense : Zeta (athermal X) 1 rho 3 <= 74 / 100.

  Lemma mp1 i : 1 <= M X i -> 1 <= mp X i <= 2. Proof. intros H. unfold mp. split; [apply Rmin_glb; lra | apply Rmin_r]. Qed.
  Lemma m21 i j : 1 <= M X i -> 1 <= M X j -> 1 <= m2 X i j <= 2.
  Proof.
    intros Hi Hj. apply mp1 in Hi, Hj. unfold m2. split.
    - rewrite <- sqrt_1. apply sqrt_le_1_alt. nra.
    - rewrite <- (sqrt_pow2 2) by lra. apply sqrt_le_1_alt. nra.
  Qed.
  Lemma z0_range : 0 <= z 0 <= 74 / 100. Proof. split; [left; apply (z0_pos 3) | unfold z, Y; rewrite Zeta_0; exact Hdense]. Qed.
  Lemma rho_nn i : (i < n)%nat -> 0 <= rho i. Proof. intros Hi. apply Rmult_le_pos; [apply Hnn; auto | left; apply Rinv_0_lt_compat; auto]. Qed.
  Lemma W1_nn k i : (i < n)%nat -> 0 <= Wi X 1 k i.
  Proof. intros Hi. destruct (Hph i Hi) as (_ & Ps & Pe). unfold Wi. change (0 < Sg X i) in Ps. change (0 < Ep X i) in Pe. apply Rmult_le_pos; [lra | apply pow_le; lra]. Qed.
  Lemma Wi_t t k i : 0 < t -> Wi X t k i = / t * Wi X 1 k i.
  Proof. intros Ht. unfold Wi. field. lra. Qed.
  Lemma J2_t a b t i j : 0 < t -> J2 X t rho a b i j = Sum l < length a, (cm a l (m2 X i j) + cm b l (m2 X i j) * (Eij0 X i j * / t)) * z (/ t) ^ l.
  Proof. intros Ht. unfold J2, Eta. rewrite Zeta_weak by auto. reflexivity. Qed.
  Lemma w2nn ki kj i j (d x y : R) : (i < n)%nat -> (j < n)%nat -> 0 < d -> 0 <= x -> 0 <= y -> 0 <= rho i * rho j * Wi X 1 ki i * Wi X 1 kj j / d * x * y.
  Proof.
    intros Hi Hj Hd Hx Hy. pose proof (rho_nn i Hi). pose proof (rho_nn j Hj). pose proof (W1_nn ki i Hi). pose proof (W1_nn kj j Hj). assert (0 < / d) by (apply Rinv_0_lt_compat; auto).
    unfold Rdiv. set (a := rho i) in *. set (b := rho j) in *. set (c := Wi X 1 ki i) in *. set (e := Wi X 1 kj j) in *. clearbody a b c e. repeat apply Rmult_le_pos; auto; lra.
  Qed.
  Lemma Sg_p i : (i < n)%nat -> 0 < Sg X i. Proof. intros Hi. destruct (Hph i Hi) as (_ & Ps & _). exact Ps. Qed.
  Lemma S_p i j : (i < n)%nat -> (j < n)%nat -> 0 < Sij X i j. Proof. intros Hi Hj. pose proof (Sg_p i Hi). pose proof (Sg_p j Hj). unfold Sij. lra. Qed.

  (** leading coefficients in 1/T^2: pair sums over the athermal fluid *)
  Definition pair_limit (C : R) (w : nat -> nat -> R) (a : list (list Q)) : R :=
    C * Sum i < n, Sum j < n, w i j * (Sum l < length a, cm a l (m2 X i j) * Zeta (athermal X) 1 rho 3 ^ l).
  Lemma pairs_0 C w a b : pairs C w a b 0 = pair_limit C w a.
  Proof.
    unfold pairs, pair_limit. f_equal. apply Sum_ext; intros i _. apply Sum_ext; intros j _. f_equal. apply Sum_ext; intros l _. unfold z, Y. rewrite Zeta_0. ring.
  Qed.
  Let w_dd i j := rho i * rho j * Wi X 1 3 i * Wi X 1 3 j / Sij X i j ^ 3 * Mu2 X i * Mu2 X j.
  Let w_qq i j := rho i * rho j * Wi X 1 5 i * Wi X 1 5 j / Sg X (Nat.min i j) ^ 7 * Qu2 X i * Qu2 X j.
  Let w_dq var i j := rho i * rho j * Wi X 1 (fst (dq_exps var)) i * Wi X 1 (snd (dq_exps var)) j / Sij X i j ^ 5 * Mu2 X i * Qu2 X j.
  Definition c_dd : R := pair_limit (- PI) w_dd AD.
  Definition c_qq : R := pair_limit (- PI * (3 / 4) ^ 2) w_qq AQ.
  Definition c_dq var : R := pair_limit (- (9 / 4) * PI) (w_dq var) ADQ.

  Lemma scal_swap (a C x y : R) : x = a * y -> C * x = a * (C * y). Proof. intros ->. ring. Qed.
  Ltac pairform t := rewrite <- rsum_scal; apply Sum_ext; intros i _; rewrite <- rsum_scal; apply Sum_ext; intros j _; rewrite J2_t by lra; rewrite !(Wi_t t) by lra; unfold w_dd, w_qq, w_dq, Rdiv; ring.
  Theorem C53_dipole : tends (fun t => t ^ 2 * a_dipole p (st t)) (v * c_dd).
  Proof.
    destruct eventually_hot as (T1 & P1 & HT). pose proof PI_RGT_0. unfold c_dd. rewrite <- (pairs_0 _ _ AD BD).
    apply (pade_hot _ (pairs (- PI) w_dd AD BD) (triples (- (4 * PI ^ 2 / 3)) (fun i j k => rho i * rho j * rho k * Wi X 1 3 i * Wi X 1 3 j * Wi X 1 3 k / (Sij X i j * Sij X i k * Sij X j k)
      * Mu2 X i * Mu2 X j * Mu2 X k) (fun l i j k => cm CD l (m3 X i j k)) (length CD)) T1); auto using pairs_c, triples_c.
    - apply pairs_or; [ | | lra].
      + intros i j Hi Hj. apply w2nn; auto. apply pow_lt, S_p; auto.
      + intros i j Hi Hj Nz. apply J2_dd_pos; [ | lra | apply z0_range]. apply m21; apply Hm1; auto; left; intros E; apply Nz; unfold w_dd; rewrite E; ring.
    - intros t Ht. unfold st. rewrite (dipole_textbook p W Hph t v moles (HT t Ht)). fold rho X. unfold f_dd. f_equal. f_equal.
      + unfold dd2, pairs. change (N X) with n. apply scal_swap. pairform t.
      + unfold dd3, triples. change (N X) with n. apply scal_swap.
        rewrite <- rsum_scal. apply Sum_ext; intros i _. rewrite <- rsum_scal. apply Sum_ext; intros j _. rewrite <- rsum_scal. apply Sum_ext; intros k _. rewrite !(Wi_t t) by lra.
        unfold J3, Eta. rewrite Zeta_weak by lra. fold Y. fold (z (/ t)). unfold Rdiv. ring.
  Qed.
  Theorem C53_quadrupole : tends (fun t => t ^ 2 * a_quadrupole p (st t)) (v * c_qq).
  Proof.
    destruct eventually_hot as (T1 & P1 & HT). pose proof PI_RGT_0. unfold c_qq. rewrite <- (pairs_0 _ _ AQ BQ).
    apply (pade_hot _ (pairs (- PI * (3 / 4) ^ 2) w_qq AQ BQ) (triples (4 * PI ^ 2 / 3 * (3 / 4) ^ 3) (fun i j k => rho i * rho j * rho k * Wi X 1 5 i * Wi X 1 5 j * Wi X 1 5 k / (Sij X i j * Sij X i k * Sij X j k) ^ 3
      * Qu2 X i * Qu2 X j * Qu2 X k) (fun l i j k => cm CQ l (m3 X i j k)) (length CQ)) T1); auto using pairs_c, triples_c.
    - apply pairs_or; [ | | lra].
      + intros i j Hi Hj. apply w2nn; auto. apply pow_lt, Sg_p. lia.
      + intros i j Hi Hj Nz. apply J2_qq_pos; [ | lra | apply z0_range]. apply m21; apply Hm1; auto; right; intros E; apply Nz; unfold w_qq; rewrite E; ring.
    - intros t Ht. unfold st. rewrite (quadrupole_code p W Hph t v moles (HT t Ht)). fold rho X. f_equal. f_equal.
      + unfold qq2_code, pairs. change (N X) with n. apply scal_swap. pairform t.
      + unfold qq3, triples. change (N X) with n. apply scal_swap.
        rewrite <- rsum_scal. apply Sum_ext; intros i _. rewrite <- rsum_scal. apply Sum_ext; intros j _. rewrite <- rsum_scal. apply Sum_ext; intros k _. rewrite !(Wi_t t) by lra.
        unfold J3, Eta. rewrite Zeta_weak by lra. fold Y. fold (z (/ t)). unfold Rdiv. ring.
  Qed.
  Theorem C53_dipole_quadrupole var : tends (fun t => t ^ 2 * a_dq p var (st t)) (v * c_dq var).
  Proof.
    destruct eventually_hot as (T1 & P1 & HT). pose proof PI_RGT_0. unfold c_dq. rewrite <- (pairs_0 _ _ ADQ BDQ).
    apply (pade_hot _ (pairs (- (9 / 4) * PI) (w_dq var) ADQ BDQ) (triples (PI ^ 2) (fun i j k => rho i * rho j * rho k * Wi X 1 4 i * Wi X 1 4 j * Wi X 1 4 k / (Sij X i j * Sij X i k * Sij X j k) ^ 2
      * (Mu2 X i * Qu2 X j * Mu2 X k + Rlit ALPHA * Mu2 X i * Qu2 X j * Qu2 X k)) (fun l i j k => lit2 CDQ l 0 + q1 (m3 X i j k) * lit2 CDQ l 1) (length CDQ)) T1); auto using pairs_c, triples_c.
    - apply pairs_or; [ | | lra].
      + intros i j Hi Hj. apply w2nn; auto. apply pow_lt, S_p; auto.
      + intros i j Hi Hj Nz. apply J2_dq_pos; [ | lra | apply z0_range]. apply m21; apply Hm1; auto; [left | right]; intros E; apply Nz; unfold w_dq; rewrite E; ring.
    - intros t Ht. unfold st. rewrite (dq_textbook p W Hph t v moles (HT t Ht)). fold rho X. unfold f_dq. f_equal. f_equal.
      + unfold dq2, pairs. change (N X) with n. apply scal_swap. pairform t.
      + unfold dq3, triples. change (N X) with n. apply scal_swap.
        rewrite <- rsum_scal. apply Sum_ext; intros i _. rewrite <- rsum_scal. apply Sum_ext; intros j _. rewrite <- rsum_scal. apply Sum_ext; intros k _. rewrite !(Wi_t t) by lra.
        unfold J3dq, Eta. rewrite Zeta_weak by lra. fold Y. fold (z (/ t)). unfold Rdiv. ring.
  Qed.

  (** association of one component: vanishes *)
  Section OneSite.
    Variable a : nat.
    Hypothesis Ha : p_assoc_comp p = [a].
    Let d_u (s : R) : R := Gij (Y s) 1 rho a a * Sij X a a ^ 3 * Kapij X a a * (exp (Eab X a * s) - 1) * rho a.
    Lemma a_lt : (a < n)%nat.
    Proof. assert (E : In a (p_assoc_comp p)) by (rewrite Ha; left; reflexivity). rewrite (w_ass _ W) in E. apply filter_In in E. destruct E as [E _]. apply in_seq in E. unfold n. lia. Qed.
    Lemma du_c : continuous d_u 0.
    Proof. unfold d_u. pose proof (gc a a_lt). cont. Qed.
    Lemma du_0 : d_u 0 = 0.
    Proof. unfold d_u. rewrite Rmult_0_r, exp_0. ring. Qed.
    Lemma du_t t : 0 < t -> Delta X t rho a a * rho a = d_u (/ t).
    Proof.
      intros Ht. unfold Delta, d_u. rewrite G_weak by auto. fold Y. replace ((Eab X a + Eab X a) / 2 / t) with (Eab X a * / t) by (field; lra). reflexivity.
    Qed.
    Let na := Na X a.
    Let nb := Nb X a.
    Let x_ab (d : R) : R := 1 + d * nb * (d * (nb + na) - 1).
    Let x_a (d : R) : R := 1 + d * na * (d * na * 2 - 1).
    Lemma fx_c (x : R -> R) : continuous x 0 -> x 0 = 1 -> continuous (fun s => fx (x s)) 0.
    Proof. intros Hx H1. unfold fx. cont; lra. Qed.
    Theorem C53_association : tends (fun t => a_assoc p (st t)) 0.
    Proof.
      destruct eventually_hot as (T1 & P1 & HT). pose proof du_c as Cd. pose proof du_0 as D0.
      destruct (continuous_bound d_u Cd (/ 67108864)) as (e & He & HB); [lra | ].
      assert (Hred : forall t, Rmax T1 (/ e) < t -> a_assoc p (st t) =
        if Rltb 0 nb then nth a moles 0 * (fx (x_ab (d_u (/ t))) * na + fx ((x_ab (d_u (/ t)) - 1) * (na / nb) + 1) * nb)
        else nth a moles 0 * fx (x_a (d_u (/ t))) * na).
      { intros t Ht. pose proof (Rmax_l T1 (/ e)). pose proof (Rmax_r T1 (/ e)). assert (PS : phys_state p t v moles) by (apply HT; lra).
        destruct (inv_small e t He) as [_ Hi]; [lra | ]. specialize (HB (/ t) ltac:(lra)). rewrite D0, Rminus_0_r in HB. pose proof (Rle_abs (d_u (/ t))).
        unfold a_assoc. rewrite Ha. change (ixn [a] 0) with a. cbv zeta.
        change (s_t (st t)) with t. unfold st.
        rewrite (assoc_deltarho p W Hph t v moles PS a Ha).
        change (Delta (mix_of p) t (fun i : nat => nth i moles 0 / v) a a * (nth a moles 0 / v)) with (Delta X t rho a a * rho a).
        rewrite du_t by lra.
        change (@ix RNum (p_na p) a) with na. change (@ix RNum (p_nb p) a) with nb.
        change (@ix RNum (s_moles (@state_new RNum t v moles)) a) with (nth a moles 0).
        change (@nltb RNum n0 nb) with (Rltb (@n0 RNum) nb). replace (@n0 RNum) with 0 by (rn; lra).
        destruct (Rltb 0 nb).
        - rewrite !f_assoc_R. unfold assoc_site_frac_ab. rewrite sqrt_eps_R.
          change (@nltb RNum) with Rltb. rewrite (proj2 (Rltb_false _ _)) by lra.
          set (d := d_u (/ t)). unfold x_ab. rn. f_equal.
        - rewrite !f_assoc_R. unfold assoc_site_frac_a. rewrite sqrt_eps_R.
          change (@nltb RNum) with Rltb. rewrite (proj2 (Rltb_false _ _)) by lra.
          set (d := d_u (/ t)). unfold x_a. rn. f_equal. }
      assert (X0 : x_ab (d_u 0) = 1) by (rewrite D0; unfold x_ab; ring).
      assert (A0 : x_a (d_u 0) = 1) by (rewrite D0; unfold x_a; ring).
      assert (Cab : continuous (fun s => x_ab (d_u s)) 0) by (unfold x_ab; cont).
      assert (Ca : continuous (fun s => x_a (d_u s)) 0) by (unfold x_a; cont).
      destruct (Rltb 0 nb).
      - set (F := fun s => nth a moles 0 * (fx (x_ab (d_u s)) * na + fx ((x_ab (d_u s) - 1) * (na / nb) + 1) * nb)).
        apply (tends_eq _ (F 0)).
        + unfold F. rewrite X0. replace ((1 - 1) * (na / nb) + 1) with 1 by ring. rewrite fx_1. ring.
        + apply (tends_cont F _ (Rmax T1 (/ e))); auto. unfold F.
          assert (continuous (fun s => fx (x_ab (d_u s))) 0) by (apply (fx_c (fun s => x_ab (d_u s))); auto).
          assert (continuous (fun s => fx ((x_ab (d_u s) - 1) * (na / nb) + 1)) 0) by (apply (fx_c (fun s => (x_ab (d_u s) - 1) * (na / nb) + 1)); [cont | rewrite X0; ring]).
          cont.
      - set (F := fun s => nth a moles 0 * fx (x_a (d_u s)) * na). apply (tends_eq _ (F 0)).
        + unfold F. rewrite A0, fx_1. ring.
        + apply (tends_cont F _ (Rmax T1 (/ e))); auto. unfold F.
          assert (continuous (fun s => fx (x_a (d_u s))) 0) by (apply (fx_c (fun s => x_a (d_u s))); auto). cont.
    Qed.
  End OneSite.

  (** The residual Helmholtz energy tends to that of hard chains of segments of diameter 0.88 sigma. *)
  Theorem C53_residual lu o : (p_nassoc p <= 1)%nat ->
    exists f, (forall t, residual lu (with_options p o) (st t) = Some (f t))
      /\ tends f (v * (f_hs (athermal X) 1 rho + f_hc (athermal X) 1 rho)).
  Proof.
    intros H1. assert (A : exists g, (forall t, assoc_term lu o p (st t) = Some (g t)) /\ tends g 0).
    { unfold assoc_term. destruct (p_nassoc p) as [ | [ | k]] eqn:E; [ | | lia].
      - exists (fun _ => 0). split; auto. intros e He. exists 0. intros t _. rewrite Rminus_0_r, Rabs_R0. exact He.
      - assert (exists a, p_assoc_comp p = [a]) as (a & Ha).
        { rewrite (w_na _ W) in E. destruct (p_assoc_comp p) as [ | a [ | b l]]; try discriminate. exists a; auto. }
        exists (fun t => a_assoc p (st t)). split; auto. apply (C53_association a Ha). }
    destruct A as (g & Eg & Tg). exists (fun t => a_hs p (st t) + a_hc p (st t) + a_disp p (st t) + a_dipole p (st t) + a_quadrupole p (st t) + a_dq p (o_dq o) (st t) + g t).
    split; [intros t; rewrite residual_total, Eg; reflexivity | ].
    assert (S2 : forall f l, tends (fun t => t ^ 2 * f t) l -> tends f 0).
    { intros f l H. apply (tends_scale f 0). apply (tends_scale (fun t => t * f t) l). apply (tends_ext (fun t => t ^ 2 * f t)); auto. intros t. ring. }
    pose proof (tends_scale _ _ C53_dispersion) as T3. pose proof (S2 _ _ C53_dipole) as T4. pose proof (S2 _ _ C53_quadrupole) as T5. pose proof (S2 _ _ (C53_dipole_quadrupole (o_dq o))) as T6.
    eapply tends_eq; [ | exact (tends_plus _ _ _ _ (tends_plus _ _ _ _ (tends_plus _ _ _ _ (tends_plus _ _ _ _ (tends_plus _ _ _ _ (tends_plus _ _ _ _ C53_hard_sphere C53_hard_chain) T3) T4) T5) T6) Tg)]. ring.
  Qed.
End C53.

(** Parameters read from records: the moments are non-negative, so only the packing fraction and the segment numbers of
    the polar components matter. *)
Theorem C53_high_temperature prs bin p (Hp : from_records prs bin = Some p) (Hph : phys p) v moles lu o :
  0 < v -> length moles = length (p_m p) ->
  (forall i, (i < length (p_m p))%nat -> 0 <= nth i moles 0) -> (exists i, (i < length (p_m p))%nat /\ 0 < nth i moles 0) ->
  (forall i, (i < length (p_m p))%nat -> Mu2 (mix_of p) i <> 0 \/ Qu2 (mix_of p) i <> 0 -> 1 <= M (mix_of p) i) ->
  PI / 6 * (Sum i < length (p_m p), nth i moles 0 / v * M (mix_of p) i * (0.88 * Sg (mix_of p) i) ^ 3) <= 74 / 100 ->
  (p_nassoc p <= 1)%nat ->
  exists f, (forall t, residual lu (with_options p o) (@state_new RNum t v moles) = Some (f t))
    /\ tends f (v * (f_hs (athermal (mix_of p)) 1 (fun i => nth i moles 0 / v) + f_hc (athermal (mix_of p)) 1 (fun i => nth i moles 0 / v))).
Proof.
  intros Hv Hlen Hnn Hne Hm1 Hd Ha.
  assert (E : Zeta (athermal (mix_of p)) 1 (fun i => nth i moles 0 / v) 3 <= 74 / 100).
  { unfold Zeta. change (N (athermal (mix_of p))) with (length (p_m p)). change (M (athermal (mix_of p))) with (M (mix_of p)). erewrite Sum_ext; [exact Hd | ]. intros i _. cbv beta. rewrite Di_ath. reflexivity. }
  apply (C53_residual p (wfp_from_records _ _ _ Hp) Hph v moles Hv Hlen Hnn Hne); auto.
  - lra.
  - intros i Hi. apply (mu2_nn prs bin p Hp Hph i Hi).
  - intros i Hi. apply (qu2_nn prs bin p Hp Hph i Hi).
Qed.

(** dimethyl ether + carbon dioxide + water at a liquid-like density *)
Example C53_case : exists f, (forall t, residual (fun _ _ => None) (with_options sample default_options) (@state_new RNum t 1000 [1; 2; 3]) = Some (f t))
  /\ tends f (1000 * (f_hs (athermal (mix_of sample)) 1 (fun i => nth i [1; 2; 3] 0 / 1000) + f_hc (athermal (mix_of sample)) 1 (fun i => nth i [1; 2; 3] 0 / 1000))).
Proof.
  apply (C53_high_temperature _ _ _ sample_ok sample_phys).
  - lra.
  - reflexivity.
  - intros i Hi. cbn in Hi. destruct i as [ | [ | [ | i]]]; cbn; try lra; lia.
  - exists 0%nat. cbn. split; [lia | lra].
  - intros i Hi Hpol. cbn in Hi. destruct i as [ | [ | [ | i]]]; try lia.
    + cbn; lra.
    + cbn; lra.
    + cbn; lra.
  - pose proof PI_4. pose proof PI_RGT_0. cbn [sample]. cbn -[PI]. lra.
  - change (p_nassoc sample) with (length (p_assoc_comp sample)). rewrite (proj2 (proj2 C17_case)). cbn. lia.
Qed.
Print Assumptions C53_high_temperature.
Print Assumptions C53_dispersion.
Print Assumptions C53_dipole.
Print Assumptions C53_quadrupole.
Print Assumptions C53_dipole_quadrupole.
Print Assumptions C53_association.
