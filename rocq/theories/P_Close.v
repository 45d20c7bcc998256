(** C55: close packing.  At fixed temperature and amounts the volume can only be lowered to that of the segments; the
    residual Helmholtz energy grows without bound on the way there.  With w = 1/(1 - packing fraction) the hard-sphere
    term grows like w^2, chains and association only like ln w, everything else stays bounded. *)
From Coq Require Import ZArith QArith Reals Lra Lia String List Bool Psatz.
From Coquelicot Require Import Coquelicot.
From Verif Require Import Num RNum RSum Tables M_Params F_Params M_Eos Spec F_Spec F_SpecPolar
  F_SpecAssoc F_Contrib F_Total Samples F_Limit P_Basic P_Profile P_Limit P_Finite2 P_Params P_HighT.
Import ListNotations.
Local Open Scope R_scope.
Set Bullet Behavior "Strict Subproofs".
Notation length := List.length.

(** P holds for all volumes slightly above v0 *)
Definition above (v0 : R) (P : R -> Prop) : Prop := exists d, 0 < d /\ forall v, v0 < v < v0 + d -> P v.
(** f grows beyond every bound as the volume decreases to v0 *)
Definition diverges (v0 : R) (f : R -> R) : Prop := forall B, above v0 (fun v => B < f v).

Lemma above_and v0 P Q : above v0 P -> above v0 Q -> above v0 (fun v => P v /\ Q v).
Proof.
  intros (d & Hd & HP) (e & He & HQ). exists (Rmin d e). split; [apply Rmin_pos; auto | ]. intros v Hv. pose proof (Rmin_l d e). pose proof (Rmin_r d e).
  split; [apply HP | apply HQ]; lra.
Qed.
Lemma above_imp v0 (P Q : R -> Prop) : (forall v, v0 < v -> P v -> Q v) -> above v0 P -> above v0 Q.
Proof. intros H (d & Hd & HP). exists d. split; auto. intros v Hv. apply H; [lra | auto]. Qed.
Lemma ln_le_self x : 1 <= x -> 0 <= ln x <= x.
Proof. intros H. split; [rewrite <- ln_1; destruct H as [H | <-]; [left; apply ln_increasing; lra | lra] | ]. pose proof (exp_ineq1_le (ln x)). rewrite exp_ln in H0 by lra. lra. Qed.

(** negative parts bounded by a multiple of w = 1/(1 - v0/v) *)
Definition wide (v0 v : R) : R := / (1 - v0 / v).
Definition mild (v0 : R) (f : R -> R) : Prop := exists B, 0 <= B /\ above v0 (fun v => - (B * wide v0 v) <= f v).
Lemma wide_eq v0 v : 0 < v0 -> v0 < v -> wide v0 v = v / (v - v0).
Proof. intros H0 Hv. unfold wide. field. lra. Qed.
Lemma wide_ge1 v0 v : 0 < v0 -> v0 < v -> 1 <= wide v0 v.
Proof. intros H0 Hv. rewrite wide_eq by auto. apply Rmult_le_reg_r with (v - v0); [lra | ]. unfold Rdiv. rewrite Rmult_assoc, Rinv_l; lra. Qed.
Lemma wide_diverges v0 : 0 < v0 -> diverges v0 (wide v0).
Proof.
  intros H0 B. set (K := Rmax B 1). assert (HK : 1 <= K) by apply Rmax_r. assert (HB : B <= K) by apply Rmax_l. exists (v0 / K). split; [apply Rdiv_lt_0_compat; lra | ].
  intros v Hv. rewrite wide_eq by lra. apply Rle_lt_trans with K; auto. apply Rmult_lt_reg_r with (v - v0); [lra | ]. unfold Rdiv at 1. rewrite Rmult_assoc, Rinv_l, Rmult_1_r by lra.
  apply Rlt_trans with v0; [ | lra]. apply Rlt_le_trans with (K * (v0 / K)); [apply Rmult_lt_compat_l; lra | right; field; lra].
Qed.
Lemma mild_plus v0 f g : mild v0 f -> mild v0 g -> mild v0 (fun v => f v + g v).
Proof.
  intros (B & HB & Hf) (C & HC & Hg). exists (B + C). split; [lra | ]. eapply above_imp; [ | exact (above_and _ _ _ Hf Hg)]. cbv beta. intros v _ [H1 H2]. lra.
Qed.
Lemma mild_bounded v0 f B : 0 < v0 -> above v0 (fun v => - B <= f v) -> mild v0 f.
Proof.
  intros H0 H. exists (Rabs B). split; [apply Rabs_pos | ]. eapply above_imp; [ | exact H]. cbv beta. intros v Hv HB. pose proof (wide_ge1 v0 v H0 Hv). pose proof (Rle_abs B). pose proof (Rabs_pos B). nra.
Qed.
(** functions continuous in the density at close packing *)
Lemma mild_cont v0 (F f : R -> R) : 0 < v0 -> continuous F (/ v0) -> above v0 (fun v => f v = F (/ v)) -> mild v0 f.
Proof.
  intros H0 C E. apply (mild_bounded v0 f (- F (/ v0) + 1)); auto. destruct (C (fun y => Rabs (y - F (/ v0)) < 1)) as (d & Hd).
  { exists (mkposreal 1 Rlt_0_1). intros y Hy. exact Hy. }
  assert (A : above v0 (fun v => Rabs (F (/ v) - F (/ v0)) < 1)).
  { exists (pos d * v0 * v0). split; [pose proof (cond_pos d); apply Rmult_lt_0_compat; [apply Rmult_lt_0_compat | ]; auto | ]. intros v Hv. apply Hd. change (Rabs (/ v - / v0) < d).
    assert (v0 < v) by lra. replace (/ v - / v0) with (- ((v - v0) / (v * v0))) by (field; lra). rewrite Rabs_Ropp, Rabs_right.
    - apply Rmult_lt_reg_r with (v * v0); [apply Rmult_lt_0_compat; lra | ]. unfold Rdiv. rewrite Rmult_assoc, Rinv_l, Rmult_1_r by (apply Rmult_integral_contrapositive; lra).
      apply Rlt_le_trans with (pos d * v0 * v0); [lra | ]. pose proof (cond_pos d). rewrite Rmult_assoc. apply Rmult_le_compat_l; [lra | ]. apply Rmult_le_compat_r; lra.
    - apply Rle_ge. left. apply Rdiv_lt_0_compat; [lra | apply Rmult_lt_0_compat; lra]. }
  eapply above_imp; [ | exact (above_and _ _ _ E A)]. cbv beta. intros v _ [-> H]. apply Rabs_def2 in H. lra.
Qed.
Lemma diverges_dominated v0 f g A B : 0 < v0 -> 0 < A -> 0 <= B -> above v0 (fun v => A * wide v0 v ^ 2 - B * wide v0 v <= f v) -> mild v0 g -> diverges v0 (fun v => f v + g v).
Proof.
  intros H0 HA HB Hf (C & HC & Hg) K. pose proof (wide_diverges v0 H0 ((B + C + Rabs K) / A + 1)) as Hw.
  eapply above_imp; [ | exact (above_and _ _ _ (above_and _ _ _ Hf Hg) Hw)]. cbv beta. intros v Hv [[H1 H2] H3]. pose proof (wide_ge1 v0 v H0 Hv) as H4. set (w := wide v0 v) in *. clearbody w.
  pose proof (Rle_abs K). pose proof (Rabs_pos K). assert (Q5 : B + C + Rabs K < A * w).
  { assert (X : (B + C + Rabs K) / A < w) by lra. apply (Rmult_lt_compat_l A) in X; auto. replace (A * ((B + C + Rabs K) / A)) with (B + C + Rabs K) in X by (field; lra). exact X. }
  assert (Q6 : (B + C + Rabs K) * w < A * w * w) by (apply Rmult_lt_compat_r; lra). nra.
Qed.

Section Close.
  Variable p : params RNum.
  Hypothesis W : wfp p.
  Hypothesis Hph : phys p.
  Variables (t : R) (moles : list R).
  Hypothesis Ht : 0 < t.
  Hypothesis Hlen : length moles = length (p_m p).
  Hypothesis Hnn : forall i, (i < length (p_m p))%nat -> 0 <= nth i moles 0.
  Hypothesis Hne : exists i, (i < length (p_m p))%nat /\ 0 < nth i moles 0.
  Let X := mix_of p.
  Let n := length (p_m p).
  Let nn := fun i => nth i moles 0.
  Let rho (v : R) := fun i => nth i moles 0 / v.
  Let Z k := Zeta X t nn k.
  Let st v := @state_new RNum t v moles.
  (** volume of the segments: the packing fraction of a state of volume v is close / v *)
  Definition close : R := PI / 6 * Sum i < length (p_m p), nth i moles 0 * M (mix_of p) i * Di (mix_of p) t i ^ 3.
  Lemma close_Z : close = Z 3. Proof. reflexivity. Qed.
  Lemma Zp k : 0 < Z k. Proof. exact (Z_pos p Hph t moles Ht Hnn Hne k). Qed.
  Lemma close_pos : 0 < close. Proof. rewrite close_Z. apply Zp. Qed.
  Lemma PSv v : close < v -> phys_state p t v moles. Proof. intros H. exact (eventually_state p Hph t moles Ht Hlen Hnn Hne v H). Qed.
  Let w := wide close.
  Lemma w1 v : close < v -> 1 <= w v. Proof. intros H. apply wide_ge1; auto. apply close_pos. Qed.
  Lemma w_inv v : 1 - / v * Z 3 = / w v.
  Proof. unfold w, wide. rewrite Rinv_inv, close_Z. unfold Rdiv. ring. Qed.
  Lemma ln_w v : close < v -> ln (1 - / v * Z 3) = - ln (w v).
  Proof. intros H. pose proof (w1 v H). rewrite w_inv, ln_Rinv by lra. reflexivity. Qed.

  (** hard spheres: at least a multiple of w^2 *)
  Lemma hs_lower : exists A B, 0 < A /\ 0 <= B /\ above close (fun v => A * w v ^ 2 - B * w v <= a_hs p (st v)).
  Proof.
    pose proof PI_RGT_0 as HPI. pose proof close_pos as Hc. pose proof (Zp 1) as P1. pose proof (Zp 2) as P2. pose proof (Zp 3) as P3.
    set (c := Z 2 ^ 3 / Z 3 ^ 2 - Z 0).
    exists (6 / PI * (/ (2 * Z 3) * (Z 2 ^ 3 / Z 3))), (6 / PI * Rabs c).
    assert (P6 : 0 < 6 / PI) by (apply Rdiv_lt_0_compat; lra). assert (PZ : 0 < Z 2 ^ 3 / Z 3) by (apply Rdiv_lt_0_compat; [apply pow_lt | ]; auto).
    split; [apply Rmult_lt_0_compat; [exact P6 | apply Rmult_lt_0_compat; [apply Rinv_0_lt_compat; lra | exact PZ]] | ]. split; [apply Rmult_le_pos; [lra | apply Rabs_pos] | ].
    exists close. split; auto. intros v Hv. assert (Hv1 : close < v) by lra. unfold st. rewrite (hs_textbook p W Hph t v moles (PSv v Hv1)).
    change (6 / PI * (/ (2 * Z 3) * (Z 2 ^ 3 / Z 3)) * w v ^ 2 - 6 / PI * Rabs c * w v <= v * f_hs X t (rho v)).
    assert (E : v * f_hs X t (rho v) = 6 / PI * (/ v * (3 * Z 1 * Z 2) * w v + / v * (Z 2 ^ 3 / Z 3) * w v ^ 2 - c * ln (w v))).
    { unfold f_hs. unfold rho. rewrite !(Zeta_v p t moles v). fold X. change (Zeta X t (fun i => nth i moles 0)) with Z. rewrite ln_w by auto. rewrite w_inv. pose proof (w1 v Hv1). set (y := w v) in *. clearbody y. unfold c. set (l := ln y). clearbody l.
      set (z0 := Z 0) in *. set (z1 := Z 1) in *. set (z2 := Z 2) in *. set (z3 := Z 3) in *. clearbody z0 z1 z2 z3. field. repeat split; lra. }
    rewrite E. pose proof (w1 v Hv1) as Hw. destruct (ln_le_self (w v) Hw) as [L0 L1].
    assert (Hv2 : v < 2 * Z 3) by (rewrite close_Z in Hv; lra). assert (Hvp : 0 < v) by lra.
    assert (I : / (2 * Z 3) <= / v) by (apply Rinv_le_contravar; lra). assert (Iv : 0 < / v) by (apply Rinv_0_lt_compat; auto).
    set (y := w v) in *. set (l := ln y) in *. clearbody y l. set (q := Z 2 ^ 3 / Z 3) in *. set (k := 3 * Z 1 * Z 2). assert (Pk : 0 < k) by (unfold k; apply Rmult_lt_0_compat; lra). clearbody c q k. set (u := / v) in *. set (u0 := / (2 * Z 3)) in *. clearbody u u0. set (a := 6 / PI) in *. clearbody a.
    replace (a * (u0 * q) * y ^ 2 - a * Rabs c * y) with (a * (u0 * q * y ^ 2 - Rabs c * y)) by ring. apply Rmult_le_compat_l; [lra | ].
    assert (T1 : 0 <= u * k * y) by (repeat apply Rmult_le_pos; lra). assert (T2 : u0 * q * y ^ 2 <= u * q * y ^ 2) by (apply Rmult_le_compat_r; [apply pow_le; lra | apply Rmult_le_compat_r; lra]).
    assert (T3 : c * l <= Rabs c * y) by (pose proof (Rle_abs c); pose proof (Rabs_pos c); apply Rle_trans with (Rabs c * l); [apply Rmult_le_compat_r | apply Rmult_le_compat_l]; lra). lra.
  Qed.
  Theorem C55_hard_sphere : diverges close (fun v => a_hs p (st v)).
  Proof.
    destruct hs_lower as (A & B & HA & HB & H). intros K. pose proof close_pos as Hc.
    assert (M0 : mild close (fun _ => 0)) by (apply (mild_bounded _ _ 0); auto; exists 1; split; [lra | intros; lra]).
    pose proof (diverges_dominated close _ _ A B Hc HA HB H M0 K) as D. eapply above_imp; [ | exact D]. cbv beta. intros v _ Hv. lra.
  Qed.

  (** contact value: at most a multiple of w^3 *)
  Lemma g_upper i j : (i < n)%nat -> (j < n)%nat -> exists G, 1 <= G /\ forall v, close < v -> 1 <= Gij X t (rho v) i j <= G * w v ^ 3.
  Proof.
    intros Hi Hj. pose proof close_pos as Hc. pose proof (Zp 2) as P2. pose proof (Zp 3) as P3.
    assert (Pi : 0 < Di X t i) by (apply Di_pos; auto). assert (Pj : 0 < Di X t j) by (apply Di_pos; auto).
    set (D := Di X t i * Di X t j / (Di X t i + Di X t j)). assert (PD : 0 < D) by (apply Rdiv_lt_0_compat; [apply Rmult_lt_0_compat; auto | lra]).
    set (e := D * (/ Z 3 * Z 2)). assert (Pe : 0 < e) by (unfold e; apply Rmult_lt_0_compat; [exact PD | apply Rmult_lt_0_compat; [apply Rinv_0_lt_compat; exact P3 | exact P2]]).
    exists (1 + 3 * e + 2 * e ^ 2). split; [nra | ]. intros v Hv.
    assert (E : Gij X t (rho v) i j = w v + 3 * (D * (/ v * Z 2)) * w v ^ 2 + 2 * (D * (/ v * Z 2)) ^ 2 * w v ^ 3).
    { change (Gij X t (rho v) i j) with (Gij (mix_of p) t (fun i => nth i moles 0 / v) i j). rewrite (g_v p t moles v i j). unfold g_u. fold X. fold D. change (Zeta X t (fun i => nth i moles 0)) with Z. rewrite w_inv. pose proof (w1 v Hv). set (y := w v) in *. clearbody y D. set (z := / v * Z 2). clearbody z. field. lra. }
    rewrite E. pose proof (w1 v Hv) as Hw. assert (0 < v) by lra. assert (I : / v <= / Z 3) by (apply Rinv_le_contravar; [auto | rewrite close_Z in Hv; lra]). assert (Iv : 0 < / v) by (apply Rinv_0_lt_compat; auto).
    set (f := D * (/ v * Z 2)). assert (Pf : 0 < f <= e) by (unfold f, e; split; [apply Rmult_lt_0_compat; [exact PD | apply Rmult_lt_0_compat; auto] | apply Rmult_le_compat_l; [lra | apply Rmult_le_compat_r; lra]]).
    set (y := w v) in *. clearbody f e y. assert (Y2 : 1 <= y ^ 2) by nra. assert (Y3 : y ^ 2 <= y ^ 3) by (replace (y ^ 3) with (y ^ 2 * y) by ring; nra). assert (Y1 : y <= y ^ 3) by nra.
    assert (F2 : f ^ 2 <= e ^ 2) by (apply pow_incr; lra). assert (F20 : 0 <= f ^ 2) by apply pow2_ge_0. split; [nra | ].
    replace ((1 + 3 * e + 2 * e ^ 2) * y ^ 3) with (y ^ 3 + 3 * (e * y ^ 3) + 2 * (e ^ 2 * y ^ 3)) by ring.
    assert (f * y ^ 2 <= e * y ^ 3) by (apply Rmult_le_compat; lra). assert (f ^ 2 * y ^ 3 <= e ^ 2 * y ^ 3) by (apply Rmult_le_compat_r; lra). lra.
  Qed.
  Lemma ln_g i : (i < n)%nat -> exists G, 0 <= G /\ forall v, close < v -> 0 <= ln (Gij X t (rho v) i i) <= G * w v.
  Proof.
    intros Hi. destruct (g_upper i i Hi Hi) as (G & HG & H). exists (ln G + 3). destruct (ln_le_self G HG) as [L0 _]. split; [lra | ]. intros v Hv. specialize (H v Hv). pose proof (w1 v Hv) as Hw.
    split; [apply ln_le_self; lra | ]. assert (Y : 0 < w v ^ 3) by (apply pow_lt; lra). apply Rle_trans with (ln (G * w v ^ 3)).
    - destruct (proj2 H) as [L | <-]; [left; apply ln_increasing; lra | lra].
    - rewrite ln_mult by lra. replace (w v ^ 3) with (w v * (w v * w v)) by ring. rewrite !ln_mult by nra. destruct (ln_le_self (w v) Hw). nra.
  Qed.
  Lemma sum_mild (l : list nat) (c : nat -> R) (f : nat -> R -> R) : (forall i, In i l -> exists G, 0 <= G /\ forall v, close < v -> 0 <= f i v <= G * w v) ->
    exists G, 0 <= G /\ forall v, close < v -> Rabs (rsum l (fun i => c i * f i v)) <= G * w v.
  Proof.
    induction l as [ | a l IH]; intros H.
    - exists 0. split; [lra | ]. intros v Hv. cbn [rsum]. rewrite Rabs_R0. lra.
    - destruct IH as (G & HG & IH); [intros i Hi; apply H; right; auto | ]. destruct (H a (or_introl eq_refl)) as (K & HK & Ha).
      pose proof (Rabs_pos (c a)). exists (G + Rabs (c a) * K). split; [nra | ]. intros v Hv. cbn [rsum]. specialize (IH v Hv). specialize (Ha v Hv). pose proof (Rabs_triang (c a * f a v) (rsum l (fun i => c i * f i v))) as T.
      rewrite Rabs_mult in T. rewrite (Rabs_right (f a v)) in T by lra. assert (Rabs (c a) * f a v <= Rabs (c a) * (K * w v)) by (apply Rmult_le_compat_l; lra). lra.
  Qed.
  (** chains: at most logarithmic growth, of either sign *)
  Theorem C55_hard_chain : exists G, 0 <= G /\ forall v, close < v -> Rabs (a_hc p (st v)) <= G * w v.
  Proof.
    destruct (sum_mild (seq 0 n) (fun i => - (nn i * (M X i - 1))) (fun i v => ln (Gij X t (rho v) i i))) as (G & HG & H).
    { intros i Hi. apply seq_in in Hi. apply ln_g; auto. }
    exists G. split; auto. intros v Hv. unfold st. rewrite (hc_textbook p W Hph t v moles (PSv v Hv)). eapply Rle_trans; [right | exact (H v Hv)]. f_equal.
    unfold f_hc. change (N (mix_of p)) with n. pose proof close_pos. rewrite Ropp_mult_distr_r_reverse, <- rsum_scal, <- rsum_opp. apply Sum_ext. intros i Hi. unfold nn. fold X. set (y := ln (Gij X t (rho v) i i)).
    change (- (v * (nth i moles 0 / v * (M X i - 1) * y)) = - (nth i moles 0 * (M X i - 1)) * y). clearbody y. field. lra.
  Qed.
  Lemma hc_mild : mild close (fun v => a_hc p (st v)).
  Proof.
    destruct C55_hard_chain as (G & HG & H). exists G. split; auto. exists 1. split; [lra | ]. intros v Hv. specialize (H v ltac:(lra)). pose proof (Rle_abs (- a_hc p (st v))) as L. rewrite Rabs_Ropp in L. fold w. lra.
  Qed.

  (** dispersion: bounded *)
  Let mb := Mbar X nn.
  Lemma mb_pos : 0 < mb.
  Proof.
    destruct Hne as (i & Hi & Pi). unfold mb, Mbar, Rho, nn. change (N X) with n. apply Rdiv_lt_0_compat.
    - apply (rsum_pos _ _ i); [ | apply in_seq; unfold n; lia | ].
      + intros j Hj. apply seq_in in Hj. destruct (Hph j Hj) as (Pm & _). apply Rmult_le_pos; [auto | left; exact Pm].
      + destruct (Hph i Hi) as (Pm & _). apply Rmult_lt_0_compat; auto.
    - apply (rsum_pos _ _ i); [ | apply in_seq; unfold n; lia | auto]. intros j Hj. apply seq_in in Hj. auto.
  Qed.
  Lemma ps_c c0 c1 c2 x : continuous (ps_u p t moles c0 c1 c2) x. Proof. unfold ps_u. cont. Qed.
  Lemma cont_bound (F : R -> R) v0 : 0 < v0 -> continuous F (/ v0) -> exists B, 0 <= B /\ above v0 (fun v => Rabs (F (/ v)) <= B).
  Proof.
    intros H0 C. assert (C' : continuous (fun s => - F s) (/ v0)) by (apply c_opp; auto).
    destruct (C (fun y => Rabs (y - F (/ v0)) < 1)) as (d & Hd).
    { exists (mkposreal 1 Rlt_0_1). intros y Hy. exact Hy. }
    exists (Rabs (F (/ v0)) + 1). split; [pose proof (Rabs_pos (F (/ v0))); lra | ]. exists (pos d * v0 * v0). split; [pose proof (cond_pos d); apply Rmult_lt_0_compat; [apply Rmult_lt_0_compat | ]; auto | ]. intros v Hv.
    assert (A : Rabs (F (/ v) - F (/ v0)) < 1).
    { apply Hd. change (Rabs (/ v - / v0) < d). assert (v0 < v) by lra. replace (/ v - / v0) with (- ((v - v0) / (v * v0))) by (field; lra). rewrite Rabs_Ropp, Rabs_right.
      - apply Rmult_lt_reg_r with (v * v0); [apply Rmult_lt_0_compat; lra | ]. unfold Rdiv. rewrite Rmult_assoc, Rinv_l, Rmult_1_r by (apply Rmult_integral_contrapositive; lra).
        apply Rlt_le_trans with (pos d * v0 * v0); [lra | ]. pose proof (cond_pos d). rewrite Rmult_assoc. apply Rmult_le_compat_l; [lra | ]. apply Rmult_le_compat_r; lra.
      - apply Rle_ge. left. apply Rdiv_lt_0_compat; [lra | apply Rmult_lt_0_compat; lra]. }
    replace (F (/ v)) with ((F (/ v) - F (/ v0)) + F (/ v0)) by ring. pose proof (Rabs_triang (F (/ v) - F (/ v0)) (F (/ v0))). lra.
  Qed.
  Theorem C55_dispersion : exists B, 0 <= B /\ above close (fun v => Rabs (a_disp p (st v)) <= B).
  Proof.
    pose proof close_pos as Hc.
    destruct (cont_bound (fun s => s * (- 2 * PI * ps_u p t moles A0 A1 A2 s * mixsum X t nn 1)) close Hc) as (b1 & P1 & H1).
    { pose proof (ps_c A0 A1 A2 (/ close)). cont. }
    destruct (cont_bound (fun s => s * (PI * mb * ps_u p t moles B0 B1 B2 s * mixsum X t nn 2)) close Hc) as (b2 & P2 & H2).
    { pose proof (ps_c B0 B1 B2 (/ close)). cont. }
    exists (b1 + b2). split; [lra | ]. eapply above_imp; [ | exact (above_and _ _ _ H1 H2)]. cbv beta. intros v Hv [Q1 Q2].
    assert (E : a_disp p (st v) = disp_u p t moles (/ v)).
    { unfold st. rewrite (disp_textbook p W t v moles (PSv v Hv)). assert (Pv : 0 < v) by lra.
      change (v * f_disp X t (rho v) = disp_u p t moles (/ v)). unfold f_disp, disp_u. unfold rho, X.
      rewrite !(mixsum_v p t moles v), (Mbar_v p moles v) by auto.
      replace (power_series (mix_of p) t (fun i => nth i moles 0 / v) A0 A1 A2) with (ps_u p t moles A0 A1 A2 (/ v))
        by (unfold power_series, ps_u, Eta; rewrite (Zeta_v p t moles v), (Mbar_v p moles v) by auto; reflexivity).
      replace (power_series (mix_of p) t (fun i => nth i moles 0 / v) B0 B1 B2) with (ps_u p t moles B0 B1 B2 (/ v))
        by (unfold power_series, ps_u, Eta; rewrite (Zeta_v p t moles v), (Mbar_v p moles v) by auto; reflexivity).
      replace (C1 (mix_of p) t (fun i => nth i moles 0 / v)) with (c1_u p t moles (/ v))
        by (unfold C1, c1_u, Eta; rewrite (Zeta_v p t moles v), (Mbar_v p moles v) by auto; reflexivity).
      set (a1 := ps_u p t moles A0 A1 A2 (/ v)). set (a2 := ps_u p t moles B0 B1 B2 (/ v)). set (a3 := c1_u p t moles (/ v)). clearbody a1 a2 a3.
      match goal with |- v * (_ * (_ * ?x) - _ * ?y * _ * _ * (_ * ?z)) = _ => set (q1 := x); set (q2 := z); set (q3 := y) end. clearbody q1 q2 q3. field. lra. }
    assert (C01 : 0 < c1_u p t moles (/ v) <= 1).
    { change (c1_u p t moles (/ v)) with (1 / inv_compressibility mb (/ v * Z 3)). pose proof (Zp 3). assert (0 < v) by lra. assert (0 < / v) by (apply Rinv_0_lt_compat; auto).
      assert (0 < 1 - / v * Z 3) by exact (usmall p Hph t moles Ht Hlen Hnn Hne v Hv).
      assert (0 <= / v * Z 3) by (apply Rmult_le_pos; lra). pose proof (inv_compressibility_ge1 mb (/ v * Z 3) mb_pos ltac:(lra)) as I. set (y := inv_compressibility _ _) in *. clearbody y. unfold Rdiv. rewrite Rmult_1_l.
      split; [apply Rinv_0_lt_compat; lra | ]. rewrite <- Rinv_1. apply Rinv_le_contravar; lra. }
    rewrite E. unfold disp_u. fold X nn mb. set (c := c1_u p t moles (/ v)) in *. set (a := ps_u p t moles A0 A1 A2 (/ v)) in *. set (b := ps_u p t moles B0 B1 B2 (/ v)) in *. clearbody a b c.
    replace (/ v * (-2 * PI * a * mixsum X t nn 1 - PI * mb * c * b * mixsum X t nn 2)) with (/ v * (-2 * PI * a * mixsum X t nn 1) + - (c * (/ v * (PI * mb * b * mixsum X t nn 2)))) by ring.
    eapply Rle_trans; [apply Rabs_triang | ]. apply Rplus_le_compat; [exact Q1 | ]. rewrite Rabs_Ropp, Rabs_mult, (Rabs_right c) by lra. pose proof (Rabs_pos (/ v * (PI * mb * b * mixsum X t nn 2))). nra.
  Qed.
  Lemma disp_mild : mild close (fun v => a_disp p (st v)).
  Proof.
    destruct C55_dispersion as (B & HB & H). apply (mild_bounded _ _ B); [apply close_pos | ]. eapply above_imp; [ | exact H]. cbv beta. intros v _ Hv. pose proof (Rle_abs (- a_disp p (st v))) as L. rewrite Rabs_Ropp in L. lra.
  Qed.

  (** polar terms: bounded unless the second and third order terms coincide at close packing *)
  Lemma pade_mild (f A B : R -> R) : (forall s, continuous A s) -> (forall s, continuous B s) ->
    (/ close) ^ 2 * A (/ close) <> (/ close) ^ 3 * B (/ close) -> (forall v, close < v -> f v = v * pade2 ((/ v) ^ 2 * A (/ v)) ((/ v) ^ 3 * B (/ v))) -> mild close f.
  Proof.
    intros CA CB Hne' E. pose proof close_pos as Hc. apply (mild_cont close (fun s => / s * (((s ^ 2 * A s) ^ 2) / (s ^ 2 * A s - s ^ 3 * B s)))); auto.
    - specialize (CA (/ close)). specialize (CB (/ close)). assert (Is : continuous (fun s : R => / s) (/ close)).
      { apply (ex_derive_continuous Rinv). auto_derive. apply Rinv_neq_0_compat. lra. }
      cont. lra.
    - exists 1. split; [lra | ]. intros v Hv. rewrite E by lra. unfold pade2. rewrite Rinv_inv. reflexivity.
  Qed.
  Lemma mild_0 (f : R -> R) : (forall v, f v = 0) -> mild close f.
  Proof. intros H. apply (mild_bounded _ _ 0); [apply close_pos | ]. exists 1. split; [lra | ]. intros v _. rewrite H. lra. Qed.
  Let rc := fun i => nth i moles 0 / close.
  Lemma dipole_mild : p_ndipole p = 0%nat \/ dd2 X t rc <> dd3 X t rc -> mild close (fun v => a_dipole p (st v)).
  Proof.
    intros [H | H]; [apply mild_0; intros v; apply a_dipole_none; auto | ].
    apply (pade_mild _ (polyn (dd_alpha p t moles) 5) (polyn (dd_beta p t moles) 4)); [intros; apply polyn_cont | intros; apply polyn_cont | | ].
    - rewrite <- (dd2_v p t moles close), <- (dd3_v p t moles close). exact H.
    - intros v Hv. unfold st. rewrite (dipole_textbook p W Hph t v moles (PSv v Hv)). unfold f_dd. f_equal. f_equal; [apply dd2_v | apply dd3_v].
  Qed.
  Lemma quadrupole_mild : p_nquadpole p = 0%nat \/ qq2_code X t rc <> qq3 X t rc -> mild close (fun v => a_quadrupole p (st v)).
  Proof.
    intros [H | H]; [apply mild_0; intros v; apply a_quadrupole_none; auto | ].
    apply (pade_mild _ (polyn (qq_alpha p t moles) 5) (polyn (qq_beta p t moles) 4)); [intros; apply polyn_cont | intros; apply polyn_cont | | ].
    - rewrite <- (qq2_v p t moles close), <- (qq3_v p t moles close). exact H.
    - intros v Hv. unfold st. rewrite (quadrupole_code p W Hph t v moles (PSv v Hv)). f_equal. f_equal; [apply qq2_v | apply qq3_v].
  Qed.
  Lemma dq_mild var : p_ndipole p = 0%nat \/ p_nquadpole p = 0%nat \/ dq2 X t rc (fst (dq_exps var)) (snd (dq_exps var)) <> dq3 X t rc -> mild close (fun v => a_dq p var (st v)).
  Proof.
    intros [H | [H | H]]; [apply mild_0; intros v; apply a_dq_none_d; auto | apply mild_0; intros v; apply a_dq_none_q; auto | ].
    apply (pade_mild _ (polyn (dq_alpha p t moles var) 4) (polyn (dq_beta p t moles) 3)); [intros; apply polyn_cont | intros; apply polyn_cont | | ].
    - rewrite <- (dq2_v p t moles var close), <- (dq3_v p t moles close). exact H.
    - intros v Hv. unfold st. rewrite (dq_textbook p W Hph t v moles (PSv v Hv)). unfold f_dq. f_equal. f_equal; [apply dq2_v | apply dq3_v].
  Qed.

  (** association of one component with both kinds of sites *)
  Section OneSite.
    Variable a : nat.
    Hypothesis Ha : p_assoc_comp p = [a].
    Hypothesis Hna : 0 < Na X a.
    Hypothesis Hnb : 0 < Nb X a.
    Hypothesis He : 0 <= Eab X a.
    Lemma alt : (a < n)%nat. Proof. exact (assoc_lt p W a Ha). Qed.
    Lemma d_upper : exists K, 0 <= K /\ forall v, close < v -> 0 <= Delta X t (rho v) a a * rho v a <= K * w v ^ 3.
    Proof.
      destruct (g_upper a a alt alt) as (G & HG & H). pose proof close_pos as Hc.
      set (c := Sij X a a ^ 3 * Kapij X a a * (exp ((Eab X a + Eab X a) / 2 / t) - 1)).
      assert (Pc : 0 <= c).
      { destruct (Hph a alt) as (_ & Hs & _). change (0 < Sg X a) in Hs. assert (HS : 0 < Sij X a a) by (unfold Sij; lra). unfold c. apply Rmult_le_pos; [apply Rmult_le_pos | ].
        - left; apply pow_lt; auto.
        - unfold Kapij. apply Rmult_le_pos; [apply sqrt_pos | ]. apply pow_le. apply Rmult_le_pos; [apply sqrt_pos | ]. left; apply Rinv_0_lt_compat; auto.
        - assert (E0 : 0 <= (Eab X a + Eab X a) / 2 / t) by (apply Rmult_le_pos; [lra | left; apply Rinv_0_lt_compat; auto]). pose proof (exp_ineq1_le ((Eab X a + Eab X a) / 2 / t)). lra. }
      pose proof (Hnn a alt) as Pa. assert (Ic : 0 < / close) by (apply Rinv_0_lt_compat; auto).
      exists (G * (c * (nth a moles 0 * / close))). split; [apply Rmult_le_pos; [lra | apply Rmult_le_pos; [exact Pc | apply Rmult_le_pos; lra]] | ]. intros v Hv. specialize (H v Hv). pose proof (w1 v Hv) as Hw.
      assert (Iv : 0 < / v <= / close) by (split; [apply Rinv_0_lt_compat; lra | apply Rinv_le_contravar; lra]).
      replace (Delta X t (rho v) a a * rho v a) with (Gij X t (rho v) a a * (c * (nth a moles 0 * / v))) by (unfold Delta, c, rho, Rdiv; ring).
      replace (G * (c * (nth a moles 0 * / close)) * w v ^ 3) with (G * w v ^ 3 * (c * (nth a moles 0 * / close))) by ring.
      assert (R1 : 0 <= c * (nth a moles 0 * / v)) by (apply Rmult_le_pos; [exact Pc | apply Rmult_le_pos; lra]).
      split; [apply Rmult_le_pos; lra | ]. apply Rmult_le_compat; try lra. apply Rmult_le_compat_l; auto. apply Rmult_le_compat_l; lra.
    Qed.
    Lemma fx_lower x xl xu : 0 < xl <= x -> x <= xu -> ln xl - xu / 2 <= fx x.
    Proof. intros H1 H2. unfold fx. assert (ln xl <= ln x) by (destruct (proj2 H1) as [L | <-]; [left; apply ln_increasing; lra | lra]). lra. Qed.
    (** both fractions of unbonded sites are bounded below by a multiple of 1/(1 + d N) *)
    Lemma fractions d na nb : 0 <= d -> 0 < na -> 0 < nb -> let x := @assoc_site_frac_ab RNum d na nb in let y := (x - 1) * (na / nb) + 1 in
      3 / 4 * / (1 + d * nb) <= x <= 1 + (na + nb) ^ 2 /\ 3 / 4 * / (1 + d * na) <= y <= 1 + (na + nb) ^ 2.
    Proof.
      intros Hd Pa Pb x y. assert (Sq : 0 <= (na + nb) ^ 2) by apply pow2_ge_0.
      assert (Da : 0 <= d * na) by (apply Rmult_le_pos; lra). assert (Db : 0 <= d * nb) by (apply Rmult_le_pos; lra).
      assert (I : forall q, 0 <= q -> 0 < / (1 + q) <= 1) by (intros q Hq; split; [apply Rinv_0_lt_compat; lra | rewrite <- Rinv_1 at 2; apply Rinv_le_contravar; lra]).
      pose proof (I _ Da) as Ia. pose proof (I _ Db) as Ib.
      destruct (Rlt_dec (/ 67108864) d) as [L | L].
      - unfold y, x. rewrite assoc_site_frac_ab_above by auto. destruct (frac_ab_law d na nb) as (B1 & B2 & L1 & L2); auto; [lra | ].
        set (xa := frac_ab d na nb) in *. set (xb := (xa - 1) * (na / nb) + 1) in *. clearbody xb xa.
        assert (G : forall q z r, 0 <= q -> 0 < z < 1 -> 0 < r < 1 -> z * (1 + q * r) = 1 -> / (1 + q) <= z).
        { intros q z r Hq Hz Hr E. apply Rmult_le_reg_r with (1 + q); [lra | ]. rewrite Rinv_l by lra. rewrite <- E. apply Rmult_le_compat_l; [lra | ]. nra. }
        pose proof (G _ _ _ Db B1 B2 L1). pose proof (G _ _ _ Da B2 B1 L2). lra.
      - apply Rnot_lt_le in L. unfold y, x. rewrite assoc_site_frac_ab_below by auto.
        replace ((1 + d * nb * (d * (nb + na) - 1) - 1) * (na / nb) + 1) with (1 + d * na * (d * (nb + na) - 1)) by (field; lra).
        set (s := d * (nb + na)). assert (Es : s = d * na + d * nb) by (unfold s; ring). set (qa := d * na) in *. set (qb := d * nb) in *. clearbody qa qb.
        assert (S2 : s ^ 2 <= (na + nb) ^ 2). { apply pow_incr. unfold s. split; [apply Rmult_le_pos; lra | ]. assert (d * (nb + na) <= 1 * (nb + na)) by (apply Rmult_le_compat_r; lra). lra. }
        clearbody s. assert (Q : forall q, 0 <= q <= s -> 3 / 4 <= 1 + q * (s - 1) <= 1 + s ^ 2).
        { intros q Hq. split.
          - destruct (Rle_dec 1 s); [assert (0 <= q * (s - 1)) by (apply Rmult_le_pos; lra); lra | ]. assert (q * (1 - s) <= s * (1 - s)) by (apply Rmult_le_compat_r; lra). assert (s * (1 - s) <= 1 / 4) by (pose proof (pow2_ge_0 (s - 1 / 2)); nra). lra.
          - assert (q * s <= s * s) by (apply Rmult_le_compat_r; lra). replace (s ^ 2) with (s * s) by ring. lra. }
        pose proof (Q qa ltac:(lra)). pose proof (Q qb ltac:(lra)). lra.
    Qed.
    Theorem C55_association : mild close (fun v => a_assoc p (st v)).
    Proof.
      destruct d_upper as (K & HK & H). set (U := (1 + (Na X a + Nb X a) ^ 2) / 2).
      assert (Hl : forall q, 0 <= q -> forall v, close < v -> forall d, 0 <= d <= K * w v ^ 3 -> - ((K * q + 4) * w v) <= ln (3 / 4 * / (1 + d * q))).
      { intros q Hq v Hv d Hd. pose proof (w1 v Hv) as Hw. assert (P1 : 0 < 1 + d * q) by (assert (0 <= d * q) by (apply Rmult_le_pos; lra); lra).
        rewrite ln_mult by (try (apply Rinv_0_lt_compat); lra). rewrite ln_Rinv by lra. assert (L34 : -1 <= ln (3 / 4)).
        { replace (ln (3 / 4)) with (ln (1 - 1 / 4)) by (f_equal; lra). destruct (ln_lower (1 / 4)); lra. }
        assert (Y : 1 <= w v ^ 3) by (apply pow_R1_Rle; auto). assert (KQ : 0 <= K * q) by (apply Rmult_le_pos; lra).
        assert (L1 : ln (1 + d * q) <= ln ((1 + K * q) * w v ^ 3)).
        { assert (LE : 1 + d * q <= (1 + K * q) * w v ^ 3). { assert (d * q <= K * w v ^ 3 * q) by (apply Rmult_le_compat_r; lra). lra. } destruct LE as [LE | <-]; [left; apply ln_increasing; lra | lra]. }
        rewrite ln_mult in L1 by lra. replace (w v ^ 3) with (w v * (w v * w v)) in L1 by ring. rewrite !ln_mult in L1 by nra. destruct (ln_le_self (w v) Hw).
        assert (ln (1 + K * q) <= K * q) by (pose proof (exp_ineq1_le (ln (1 + K * q))) as X1; rewrite exp_ln in X1 by lra; lra). nra. }
      exists (nth a moles 0 * (Na X a * (K * Nb X a + 4 + U) + Nb X a * (K * Na X a + 4 + U))).
      pose proof (Hnn a alt) as Pa. assert (PU : 0 <= U) by (unfold U; pose proof (pow2_ge_0 (Na X a + Nb X a)); lra).
      assert (KA : 0 <= K * Na X a) by (apply Rmult_le_pos; lra). assert (KB : 0 <= K * Nb X a) by (apply Rmult_le_pos; lra).
      split; [apply Rmult_le_pos; [auto | ]; apply Rplus_le_le_0_compat; apply Rmult_le_pos; lra | ].
      exists 1. split; [lra | ]. intros v [Hv _]. fold w. pose proof close_pos as Hc. specialize (H v Hv).
      unfold st. rewrite (assoc_two_site_energy p W Hph t v moles (PSv v Hv) a Ha) by auto.
      fold X. change (fun i => nth i moles 0 / v) with (rho v). unfold f_assoc_xx. change (N X) with n. rewrite (Sum_single n a); [ | apply alt | ].
      2:{ intros j Hj Hn. unfold xb_code, xa_code. apply Nat.eqb_neq in Hn. rewrite Hn, fx_1. ring. }
      unfold xb_code, xa_code. rewrite Nat.eqb_refl. fold X. change (nth a moles 0 / v) with (rho v a).
      change (fun i => nth i moles 0 / v) with (rho v).
      destruct (fractions _ _ _ (proj1 H) Hna Hnb) as [F1 F2]. set (d := Delta X t (rho v) a a * rho v a) in *.
      set (x := @assoc_site_frac_ab RNum d (Na X a) (Nb X a)) in *. set (y := (x - 1) * (Na X a / Nb X a) + 1) in *. clearbody y x.
      pose proof (Hl (Nb X a) ltac:(lra) v Hv d H) as L1. pose proof (Hl (Na X a) ltac:(lra) v Hv d H) as L2. pose proof (w1 v Hv) as Hw.
      assert (Db : 0 <= d * Nb X a) by (apply Rmult_le_pos; lra). assert (Da : 0 <= d * Na X a) by (apply Rmult_le_pos; lra).
      assert (Ib : 0 < / (1 + d * Nb X a)) by (apply Rinv_0_lt_compat; lra). assert (Ia : 0 < / (1 + d * Na X a)) by (apply Rinv_0_lt_compat; lra).
      pose proof (fx_lower x _ _ (conj (Rmult_lt_0_compat (3 / 4) _ ltac:(lra) Ib) (proj1 F1)) (proj2 F1)) as X1. pose proof (fx_lower y _ _ (conj (Rmult_lt_0_compat (3 / 4) _ ltac:(lra) Ia) (proj1 F2)) (proj2 F2)) as X2.
      fold U in X1, X2. set (f1 := fx x) in *. set (f2 := fx y) in *. clearbody f1 f2. set (W0 := w v) in *. clearbody W0.
      assert (UW : U <= U * W0) by nra. assert (B1 : - ((K * Nb X a + 4 + U) * W0) <= f1) by lra. assert (B2 : - ((K * Na X a + 4 + U) * W0) <= f2) by lra.
      replace (v * (rho v a * (Na X a * f1 + Nb X a * f2))) with (nth a moles 0 * (Na X a * f1 + Nb X a * f2)) by (unfold rho; field; lra).
      apply (Rmult_le_compat_l (Na X a)) in B1; [ | lra]. apply (Rmult_le_compat_l (Nb X a)) in B2; [ | lra].
      replace (- (nth a moles 0 * (Na X a * (K * Nb X a + 4 + U) + Nb X a * (K * Na X a + 4 + U)) * W0)) with (nth a moles 0 * (Na X a * - ((K * Nb X a + 4 + U) * W0) + Nb X a * - ((K * Na X a + 4 + U) * W0))) by ring.
      apply Rmult_le_compat_l; lra.
    Qed.
  End OneSite.

  (** The residual Helmholtz energy exceeds every bound as the volume decreases to that of the segments. *)
  Theorem C55_residual lu o :
    (p_ndipole p = 0%nat \/ dd2 X t rc <> dd3 X t rc) ->
    (p_nquadpole p = 0%nat \/ qq2_code X t rc <> qq3 X t rc) ->
    (p_ndipole p = 0%nat \/ p_nquadpole p = 0%nat \/ dq2 X t rc (fst (dq_exps (o_dq o))) (snd (dq_exps (o_dq o))) <> dq3 X t rc) ->
    (p_nassoc p <= 1)%nat -> (forall a, p_assoc_comp p = [a] -> 0 < Na X a /\ 0 < Nb X a /\ 0 <= Eab X a) ->
    exists f, (forall v, residual lu (with_options p o) (st v) = Some (f v)) /\ diverges close f.
  Proof.
    intros H1 H2 H3 Hle Has. assert (A : exists g, (forall v, assoc_term lu o p (st v) = Some (g v)) /\ mild close g).
    { unfold assoc_term. destruct (p_nassoc p) as [ | [ | k]] eqn:E; [ | | lia].
      - exists (fun _ => 0). split; auto. apply mild_0. auto.
      - assert (exists a, p_assoc_comp p = [a]) as (a & Ha).
        { rewrite (w_na _ W) in E. destruct (p_assoc_comp p) as [ | a [ | b l]]; try discriminate. exists a; auto. }
        exists (fun v => a_assoc p (st v)). split; auto. destruct (Has a Ha) as (Q1 & Q2 & Q3). apply (C55_association a Ha); auto. }
    destruct A as (g & Eg & Tg). exists (fun v => a_hs p (st v) + a_hc p (st v) + a_disp p (st v) + a_dipole p (st v) + a_quadrupole p (st v) + a_dq p (o_dq o) (st v) + g v).
    split; [intros v; rewrite residual_total, Eg; reflexivity | ].
    destruct hs_lower as (A & B & HA & HB & H). pose proof close_pos as Hc.
    pose proof (mild_plus _ _ _ (mild_plus _ _ _ (mild_plus _ _ _ (mild_plus _ _ _ (mild_plus _ _ _ hc_mild disp_mild) (dipole_mild H1)) (quadrupole_mild H2)) (dq_mild (o_dq o) H3)) Tg) as Mi.
    intros K. pose proof (diverges_dominated close _ _ A B Hc HA HB H Mi K) as D. eapply above_imp; [ | exact D]. cbv beta. intros v _ Hv. lra.
  Qed.
End Close.

(** Parameters read from records, without polar components. *)
Theorem C55_close_packing prs bin p (Hp : from_records prs bin = Some p) (Hph : phys p) t moles lu o :
  0 < t -> length moles = length (p_m p) ->
  (forall i, (i < length (p_m p))%nat -> 0 <= nth i moles 0) -> (exists i, (i < length (p_m p))%nat /\ 0 < nth i moles 0) ->
  p_ndipole p = 0%nat -> p_nquadpole p = 0%nat ->
  (p_nassoc p <= 1)%nat -> (forall a, p_assoc_comp p = [a] -> 0 < nth a (p_na p) 0 /\ 0 < nth a (p_nb p) 0 /\ 0 <= nth a (p_epsilon_k_ab p) 0) ->
  exists f, (forall v, residual lu (with_options p o) (@state_new RNum t v moles) = Some (f v)) /\
    forall B, exists d, 0 < d /\ forall v, close p t moles < v < close p t moles + d -> B < f v.
Proof.
  intros Ht Hlen Hnn Hne Hd Hq H1 Ha. apply (C55_residual p (wfp_from_records _ _ _ Hp) Hph t moles Ht Hlen Hnn Hne lu o); auto.
Qed.

Definition bw : params RNum := from_records_raw [pr_butane; pr_water] (zeros 2).
Lemma bw_ok : from_records [pr_butane; pr_water] (zeros 2) = Some bw. Proof. reflexivity. Qed.
Lemma bw_phys : phys bw.
Proof. intros i Hi. cbn in Hi. destruct i as [ | [ | i]]; cbn; try lra; lia. Qed.
Lemma bw_recs : forall pr, In pr [pr_butane; pr_water] -> physical_record (pr_model pr).
Proof. intros pr [<- | [<- | []]]; unfold physical_record; cbn; lra. Qed.
Lemma none_set prs l (q : pcsaft_record RNum -> Prop) : index_set prs l q -> (forall pr, In pr prs -> ~ q (pr_model pr)) -> l = [].
Proof.
  intros (_ & _ & I) H. destruct l as [ | a l]; auto. exfalso. destruct (proj1 (I a) (or_introl eq_refl)) as (pr & E & Q). apply (H pr); auto. eapply nth_error_In; eauto.
Qed.
Lemma bw_none : p_ndipole bw = 0%nat /\ p_nquadpole bw = 0%nat.
Proof.
  destruct (C17_index_sets _ _ _ bw_ok bw_recs) as (A & B & _ & E1 & E2 & _). rewrite E1, E2.
  rewrite (none_set _ _ _ A), (none_set _ _ _ B); auto; intros pr [<- | [<- | []]]; cbn; lra.
Qed.
Lemma bw_comp : p_assoc_comp bw = [1%nat].
Proof.
  change (p_assoc_comp bw) with (nonzero_comp (p_kappa_ab bw)). unfold nonzero_comp.
  cbn [bw from_records_raw p_kappa_ab pr_butane pr_water map pr_model r_kappa_ab unwrap_or List.length seq filter ix nth].
  assert (H : @nltb RNum (@n0 RNum) (@nabs RNum 0.034867983) = true).
  { apply Rltb_true. unfold n0. cbn. rewrite Rabs_pos_eq by lra. lra. }
  assert (H0 : @nltb RNum (@n0 RNum) (@nabs RNum (@n0 RNum)) = false).
  { apply Rltb_false. unfold n0. cbn. rewrite Rabs_pos_eq by lra. lra. }
  rewrite H, H0. reflexivity.
Qed.
(** butane + water at 300 K *)
Example C55_case : exists f, (forall v, residual (fun _ _ => None) (with_options bw default_options) (@state_new RNum 300 v [1; 2]) = Some (f v)) /\
    forall B, exists d, 0 < d /\ forall v, close bw 300 [1; 2] < v < close bw 300 [1; 2] + d -> B < f v.
Proof.
  apply (C55_close_packing _ _ _ bw_ok bw_phys).
  - lra.
  - reflexivity.
  - intros i Hi. cbn in Hi. destruct i as [ | [ | i]]; cbn; try lra; lia.
  - exists 0%nat. cbn. split; [lia | lra].
  - apply bw_none.
  - apply bw_none.
  - change (p_nassoc bw) with (length (p_assoc_comp bw)). rewrite bw_comp. cbn. lia.
  - intros a E. rewrite bw_comp in E. assert (a = 1%nat) as -> by congruence. cbn. lra.
Qed.
Print Assumptions C55_close_packing.
Print Assumptions C55_residual.
Print Assumptions C55_hard_sphere.
Print Assumptions C55_hard_chain.
Print Assumptions C55_dispersion.
Print Assumptions C55_association.
Print Assumptions C55_case.
