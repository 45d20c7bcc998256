(** C42 for several associating components: grid points without molecules.

    The routine returns zero with all derivatives zero there.  The exact association energy vanishes
    like the square of the density, so that value and first derivatives are right and the second
    derivatives are not. *)
From Coq Require Import ZArith QArith Reals Lra Lia String List Bool.
From Coquelicot Require Import Coquelicot.
From Interval Require Import Tactic.
From Verif Require Import Num RNum RSum Tables M_Params F_Params M_Eos M_Dft Spec SpecDft F_Spec F_SpecPolar F_SpecAssoc
  F_Contrib F_Newton F_Gauss F_MassAction F_MassAction2 F_NewtonR F_Cross F_Transfer F_TransferS XNum DNum F_Level Samples P_Params
  P_Assoc P_Assoc2 P_Dual P_Dual2 F_DualNewton F_DualGauss P_Dual3 F_Dft F_Dft2 F_DftT F_DftT2 P_DftR P_DftD P_Profile P_Converge P_Dual4 P_Split F_CrossDual P_DftX.
Import ListNotations.
Local Open Scope R_scope.
Set Bullet Behavior "Strict Subproofs".
Notation length := List.length.

(* ------------------------------------------------------------------------- specification *)
(** a small amount [s] of fluid with weighted densities [w] *)
Definition amount (s : R) (w : list R) : list R := map (fun a => s * a) w.
(** a point of the grid without molecules, to be moved along directions of weighted densities *)
Definition no_molecules (wd : list (R * list R)) : Prop := forall md, In md wd -> fst md = 0.

Lemma amount_nth s w i : nth i (amount s w) 0 = s * nth i w 0.
Proof. unfold amount. destruct (Nat.lt_ge_cases i (length w)) as [L | L].
  - rewrite (nth_indep _ 0 (s * 0)) by (rewrite map_length; auto). exact (map_nth (fun a => s * a) w 0 i).
  - rewrite !nth_overflow by (try rewrite map_length; auto). ring.
Qed.
Lemma ln_le_sub1 x : 0 < x -> ln x <= x - 1.
Proof. intros Hx. pose proof (exp_ineq1_le (ln x)) as H. rewrite exp_ln in H by auto. lra. Qed.
Lemma fx_upper x : 0 < x -> fx x <= (x - 1) / 2.
Proof. intros Hx. unfold fx. pose proof (ln_le_sub1 x Hx). lra. Qed.
Lemma fx_lower x : 0 < x <= 1 -> 1 - / x <= fx x.
Proof.
  intros [H0 H1]. unfold fx. assert (H : ln (/ x) <= / x - 1) by (apply ln_le_sub1; apply Rinv_0_lt_compat; auto).
  rewrite ln_Rinv in H by auto. lra.
Qed.

(* ---------------------------------------------------------- the energy of a small amount *)
Lemma nonpos_mul a f : 0 <= a -> f <= 0 -> a * f <= 0.
Proof. nra. Qed.
Section Small.
  Variables (n : nat) (De : nat -> nat -> R) (A B w : nat -> R) (s DM del : R) (a : nat).
  Notation Ro := (fun i => s * w i).
  Hypothesis HDe : forall i j, (i < n)%nat -> (j < n)%nat -> 0 <= De i j <= DM.
  Hypothesis HAB : forall i, (i < n)%nat -> 0 <= A i /\ 0 <= B i /\ 0 <= w i.
  Hypothesis Hs : 0 < s.
  Let Sg := Sum i < n, w i * (A i + B i).
  Hypothesis Hsm : s * (DM * Sg) <= 1.
  Variable x : list R.
  Hypothesis Hx : site_law n De A B Ro x.
  Let Px i : (i < n)%nat -> 0 < fa x i /\ 0 < fb n x i.
  Proof. intros Hi. destruct Hx as (_ & P & _). exact (P i Hi). Qed.
  Let Ba i : (i < n)%nat -> 0 <= bonds_a n De B Ro x i.
  Proof.
    intros Hi. unfold bonds_a. apply rsum_nonneg. intros j Hj. apply seq_in in Hj. destruct (HAB j Hj) as (HA & HB & Hw). destruct (Px j Hj) as [_ Pb].
    destruct (HDe i j Hi Hj) as [HD _]. apply Rmult_le_pos; [ | exact HD]. apply Rmult_le_pos; [ | lra]. apply Rmult_le_pos; [ | exact HB]. apply Rmult_le_pos; lra.
  Qed.
  Let Bb i : (i < n)%nat -> 0 <= bonds_b n De A Ro x i.
  Proof.
    intros Hi. unfold bonds_b. apply rsum_nonneg. intros j Hj. apply seq_in in Hj. destruct (HAB j Hj) as (HA & HB & Hw). destruct (Px j Hj) as [Pa _].
    destruct (HDe i j Hi Hj) as [HD _]. apply Rmult_le_pos; [ | exact HD]. apply Rmult_le_pos; [ | lra]. apply Rmult_le_pos; [ | exact HA]. apply Rmult_le_pos; lra.
  Qed.
  Let Le1 i : (i < n)%nat -> fa x i <= 1 /\ fb n x i <= 1.
  Proof.
    intros Hi. destruct Hx as (_ & _ & H). destruct (H i Hi) as [H1 H2]. destruct (Px i Hi) as [Pa Pb].
    pose proof (Rmult_le_pos _ _ (Rlt_le _ _ Pa) (Ba i Hi)). pose proof (Rmult_le_pos _ _ (Rlt_le _ _ Pb) (Bb i Hi)). lra.
  Qed.
  Let Ua i : (i < n)%nat -> bonds_a n De B Ro x i <= s * (DM * Sg).
  Proof.
    intros Hi. unfold bonds_a, Sg. rewrite <- rsum_scal. rewrite <- rsum_scal. apply rsum_le. intros j Hj. apply seq_in in Hj.
    destruct (HAB j Hj) as (HA & HB & Hw). destruct (Px j Hj) as [_ Pb]. destruct (Le1 j Hj) as [_ Lb]. destruct (HDe i j Hi Hj) as [HD1 HD2].
    assert (P1 : 0 <= s * w j) by (apply Rmult_le_pos; lra). assert (P2 : 0 <= s * w j * B j) by (apply Rmult_le_pos; auto).
    assert (P3 : s * w j * B j * fb n x j * De i j <= s * w j * B j * 1 * DM).
    { apply Rmult_le_compat; auto; [apply Rmult_le_pos; lra | apply Rmult_le_compat_l; lra]. }
    assert (P4 : 0 <= s * w j * A j * DM) by (apply Rmult_le_pos; [apply Rmult_le_pos; auto | lra]). lra.
  Qed.
  Let Ub i : (i < n)%nat -> bonds_b n De A Ro x i <= s * (DM * Sg).
  Proof.
    intros Hi. unfold bonds_b, Sg. rewrite <- rsum_scal. rewrite <- rsum_scal. apply rsum_le. intros j Hj. apply seq_in in Hj.
    destruct (HAB j Hj) as (HA & HB & Hw). destruct (Px j Hj) as [Pa _]. destruct (Le1 j Hj) as [La _]. destruct (HDe i j Hi Hj) as [HD1 HD2].
    assert (P1 : 0 <= s * w j) by (apply Rmult_le_pos; lra). assert (P2 : 0 <= s * w j * A j) by (apply Rmult_le_pos; auto).
    assert (P3 : s * w j * A j * fa x j * De i j <= s * w j * A j * 1 * DM).
    { apply Rmult_le_compat; auto; [apply Rmult_le_pos; lra | apply Rmult_le_compat_l; lra]. }
    assert (P4 : 0 <= s * w j * B j * DM) by (apply Rmult_le_pos; [apply Rmult_le_pos; auto | lra]). lra.
  Qed.
  Let Fl i : (i < n)%nat -> - (s * (DM * Sg)) <= fx (fa x i) /\ - (s * (DM * Sg)) <= fx (fb n x i).
  Proof.
    intros Hi. destruct Hx as (_ & _ & H). destruct (H i Hi) as [H1 H2]. destruct (Px i Hi) as [Pa Pb]. destruct (Le1 i Hi) as [La Lb].
    assert (Ea : / fa x i = 1 + bonds_a n De B Ro x i) by (apply Rmult_eq_reg_l with (fa x i); [rewrite Rinv_r by lra; lra | lra]).
    assert (Eb : / fb n x i = 1 + bonds_b n De A Ro x i) by (apply Rmult_eq_reg_l with (fb n x i); [rewrite Rinv_r by lra; lra | lra]).
    pose proof (fx_lower (fa x i) (conj Pa La)) as F1. pose proof (fx_lower (fb n x i) (conj Pb Lb)) as F2. rewrite Ea in F1. rewrite Eb in F2.
    pose proof (Ua i Hi). pose proof (Ub i Hi). split; lra.
  Qed.
  Lemma small_lower : - (s ^ 2 * (DM * Sg ^ 2)) <= site_energy n A B Ro x.
  Proof.
    replace (- (s ^ 2 * (DM * Sg ^ 2))) with (- (s * (DM * Sg)) * (s * Sg)) by ring. unfold site_energy. unfold Sg at 2. rewrite <- !rsum_scal. apply rsum_le. intros i Hi. apply seq_in in Hi.
    destruct (Fl i Hi) as [F1 F2]. destruct (HAB i Hi) as (HA & HB & Hw). assert (P1 : 0 <= s * w i) by (apply Rmult_le_pos; lra).
    pose proof (Rmult_le_compat_l (A i) _ _ HA F1). pose proof (Rmult_le_compat_l (B i) _ _ HB F2).
    replace (- (s * (DM * Sg)) * (s * (w i * (A i + B i)))) with (s * w i * (A i * - (s * (DM * Sg)) + B i * - (s * (DM * Sg)))) by ring.
    apply Rmult_le_compat_l; lra.
  Qed.
  Lemma small_nonpos : site_energy n A B Ro x <= 0.
  Proof.
    assert (Q : 0 <= - site_energy n A B Ro x); [ | lra].
    unfold site_energy. rewrite <- rsum_opp. apply rsum_nonneg. intros i Hi. apply seq_in in Hi. destruct (HAB i Hi) as (H1' & H2' & H3').
    destruct (Px i Hi) as [Pa Pb]. destruct (Le1 i Hi) as [La Lb]. pose proof (fx_upper (fa x i) Pa). pose proof (fx_upper (fb n x i) Pb).
    pose proof (nonpos_mul (A i) (fx (fa x i)) H1' ltac:(lra)). pose proof (nonpos_mul (B i) (fx (fb n x i)) H2' ltac:(lra)).
    pose proof (nonpos_mul (s * w i) (A i * fx (fa x i) + B i * fx (fb n x i)) ltac:(apply Rmult_le_pos; lra) ltac:(lra)). lra.
  Qed.
  Lemma small_upper : (a < n)%nat -> 0 <= del <= De a a -> site_energy n A B Ro x <= - (s ^ 2 * (w a ^ 2 * (A a * B a) * del / 8)).
  Proof.
    intros Ia Hd. pose proof Hx as (_ & _ & H). destruct (H a Ia) as [H1 H2]. destruct (Px a Ia) as [Pa Pb]. destruct (Le1 a Ia) as [La Lb].
    destruct (HAB a Ia) as (HA & HB & Hw). pose proof (Ua a Ia). pose proof (Ub a Ia). pose proof (Ba a Ia) as P0. pose proof (Bb a Ia) as P0'.
    assert (Ga : / 2 <= fa x a) by nra. assert (Gb : / 2 <= fb n x a) by nra.
    assert (T : - site_energy n A B Ro x >= - (s * w a * (A a * fx (fa x a) + B a * fx (fb n x a)))).
    { unfold site_energy. rewrite <- rsum_opp. apply Rle_ge.
      apply (rsum_ge_term (seq 0 n) (fun i => - (s * w i * (A i * fx (fa x i) + B i * fx (fb n x i)))) a); [ | apply in_seq; lia].
      intros i Hi. apply seq_in in Hi. destruct (Px i Hi) as [Qa Qb]. destruct (Le1 i Hi) as [Ma Mb]. destruct (HAB i Hi) as (H1' & H2' & H3').
      pose proof (fx_upper (fa x i) Qa). pose proof (fx_upper (fb n x i) Qb).
      pose proof (nonpos_mul (A i) (fx (fa x i)) H1' ltac:(lra)). pose proof (nonpos_mul (B i) (fx (fb n x i)) H2' ltac:(lra)).
      pose proof (nonpos_mul (s * w i) (A i * fx (fa x i) + B i * fx (fb n x i)) ltac:(apply Rmult_le_pos; lra) ltac:(lra)). lra. }
    pose proof (fx_upper (fa x a) Pa) as F1. pose proof (fx_upper (fb n x a) Pb) as F2.
    assert (Bl : s * w a * B a * / 2 * del <= bonds_a n De B Ro x a).
    { unfold bonds_a. eapply Rle_trans; [ | apply (rsum_ge_term (seq 0 n) (fun j => s * w j * B j * fb n x j * De a j) a)].
      - apply Rmult_le_compat; [ | lra | | lra]; [apply Rmult_le_pos; [ | lra]; apply Rmult_le_pos; auto; apply Rmult_le_pos; lra | ].
        apply Rmult_le_compat_l; [apply Rmult_le_pos; auto; apply Rmult_le_pos; lra | lra].
      - intros j Hj. apply seq_in in Hj. destruct (HAB j Hj) as (H1' & H2' & H3'). destruct (Px j Hj) as [_ Qb]. destruct (HDe a j Ia Hj).
        apply Rmult_le_pos; auto. apply Rmult_le_pos; [ | lra]. apply Rmult_le_pos; auto. apply Rmult_le_pos; lra.
      - apply in_seq. lia. }
    assert (Q0 : 0 <= s * w a) by (apply Rmult_le_pos; lra).
    assert (Q1 : fx (fa x a) <= - (s * w a * B a * del / 8)).
    { assert (1 - fa x a = fa x a * bonds_a n De B Ro x a) by lra.
      assert (/ 2 * bonds_a n De B Ro x a <= fa x a * bonds_a n De B Ro x a) by (apply Rmult_le_compat_r; auto). lra. }
    pose proof (nonpos_mul (B a) (fx (fb n x a)) HB ltac:(lra)) as Q2.
    assert (Q3 : A a * fx (fa x a) <= A a * - (s * w a * B a * del / 8)) by (apply Rmult_le_compat_l; auto).
    assert (Q4 : s * w a * (A a * fx (fa x a) + B a * fx (fb n x a)) <= s * w a * (A a * - (s * w a * B a * del / 8))) by (apply Rmult_le_compat_l; lra).
    replace (- (s ^ 2 * (w a ^ 2 * (A a * B a) * del / 8))) with (s * w a * (A a * - (s * w a * B a * del / 8))) by field. lra.
  Qed.
End Small.

Section Empty.
  Variables (prs : list (pure_record RNum)) (bin : list (list R)) (p : params RNum).
  Hypothesis Hp : from_records prs bin = Some p.
  Hypothesis Hph : phys p.
  Hypothesis Hap : assoc_phys p.
  Let W : wfp p := wfp_from_records prs bin p Hp.
  Notation X := (mix_of p). Notation c := (length (p_m p)). Notation m := (p_nassoc p).
  Variables (t : R) (dim : nat).
  Hypothesis Ht : 0 < t.

  Section Direction.
    Variable w : list R.
    Hypothesis Lw : length w = (c * (dim + 1) + 1)%nat.
    Hypothesis Hw : forall i, (i < c)%nat -> 0 <= nth i w 0.
    Let W3 := nth (c * (dim + 1)) w 0.
    Let n2 := n2_all p t w.
    Let total := Sum i < c, nth i w 0.
    Let D i j := Di X t i * Di X t j / (Di X t i + Di X t j).
    Let pre i j := Sij X i j ^ 3 * Kapij X i j * (exp ((Eab X i + Eab X j) / 2 / t) - 1).
    Let top i j := (2 + 2 * D i j * n2 + D i j ^ 2 * n2 ^ 2) * pre i j.
    Definition small (s : R) : Prop := 0 < s <= 1 /\ s * total < / 10 ^ 9 /\ Rabs (s * W3) <= / 2.
    Let n2_pos : 0 <= n2.
    Proof.
      unfold n2, n2_all. apply rsum_nonneg. intros k Hk. apply seq_in in Hk. apply Rmult_le_pos; [apply Hw; auto | ].
      unfold surface. pose proof PI_RGT_0. destruct (Hph k Hk) as (M1 & _). pose proof (pow2_ge_0 (Di X t k)). apply Rmult_le_pos; auto. apply Rmult_le_pos; [lra | ].
      left. exact M1.
    Qed.
    Let D_pos i j : (i < c)%nat -> (j < c)%nat -> 0 <= D i j.
    Proof.
      intros Hi Hj. pose proof (Di_pos p Hph t Ht i Hi) as D1. pose proof (Di_pos p Hph t Ht j Hj) as D2. left. apply Rdiv_lt_0_compat; [apply Rmult_lt_0_compat; auto | lra].
    Qed.
    Let pre_pos i j : (i < c)%nat -> (j < c)%nat -> 0 <= pre i j.
    Proof.
      intros Hi Hj. destruct (Hap i Hi) as (K1 & E1 & _). destruct (Hap j Hj) as (K2 & E2 & _). destruct (Hph i Hi) as (_ & S1 & _). destruct (Hph j Hj) as (_ & S2 & _).
      change (0 < Sg X i) in S1. change (0 < Sg X j) in S2. change (0 <= Eab X i) in E1. change (0 <= Eab X j) in E2. unfold pre.
      apply Rmult_le_pos; [apply Rmult_le_pos | ].
      - apply pow_le. unfold Sij. lra.
      - unfold Kapij. apply Rmult_le_pos; [apply sqrt_pos | ]. apply pow_le. apply Rmult_le_pos; [apply sqrt_pos | left; apply Rinv_0_lt_compat]. unfold Sij. lra.
      - assert (0 <= (Eab X i + Eab X j) / 2 / t) by (apply Rmult_le_pos; [lra | left; apply Rinv_0_lt_compat; lra]).
        pose proof (exp_ineq1_le ((Eab X i + Eab X j) / 2 / t)). lra.
    Qed.
    Let below s i : small s -> (i < c)%nat -> s * nth i w 0 < / 10 ^ 9.
    Proof.
      intros (Hs & H1 & _) Hi. eapply Rle_lt_trans; [ | exact H1]. apply Rmult_le_compat_l; [lra | ].
      apply (rsum_ge_term (seq 0 c) (fun i => nth i w 0) i); [ | apply in_seq; lia]. intros j Hj. apply seq_in in Hj. auto.
    Qed.
    Let E9 : / 1000000000 = / 10 ^ 9. Proof. f_equal. lra. Qed.
    Lemma amount_rho s i : small s -> (i < c)%nat -> rho_eff p t i dim (amount s w) = s * nth i w 0.
    Proof.
      intros Hs Hi. unfold rho_eff. rewrite amount_nth, E9, (proj2 (Rltb_true _ _)); [reflexivity | ]. apply below; auto.
    Qed.
    Lemma amount_sum s : (Sum i < c, nth i (amount s w) 0) = s * total.
    Proof. unfold total. rewrite <- rsum_scal. apply rsum_ext. intros i _. apply amount_nth. Qed.
    Lemma amount_strength s i j : small s -> (i < c)%nat -> (j < c)%nat -> 2 / 3 * pre i j <= pair_strength p t dim (amount s w) i j <= top i j.
    Proof.
      intros Hs Hi Hj. pose proof Hs as (H0 & H1 & H3). unfold pair_strength. cbv zeta.
      assert (Ex : xi_all p t dim (amount s w) = 1) by (unfold xi_all; rewrite amount_sum, E9, (proj2 (Rltb_true _ _)); auto).
      assert (E2 : n2_all p t (amount s w) = s * n2).
      { unfold n2_all, n2, n2_all. rewrite <- rsum_scal. apply rsum_ext. intros k _. rewrite amount_nth. ring. }
      rewrite Ex, E2, amount_nth. fold W3. fold (D i j). pose proof (D_pos i j Hi Hj) as HD. pose proof (pre_pos i j Hi Hj) as HP. pose proof n2_pos as HN.
      unfold top. unfold pre in *. set (P := Sij X i j ^ 3 * Kapij X i j * (exp ((Eab X i + Eab X j) / 2 / t) - 1)) in *.
      match goal with |- _ <= ?k * Sij _ _ _ ^ 3 * Kapij _ _ _ * _ <= _ => replace (k * Sij X i j ^ 3 * Kapij X i j * (exp ((Eab X i + Eab X j) / 2 / t) - 1)) with (k * P) by (unfold P; ring) end.
      generalize dependent P. intros P HP. generalize dependent (D i j). intros d HD. clearbody n2. clearbody W3.
      assert (Hu : / 2 <= 1 - s * W3 <= 3 / 2) by (apply Rabs_le_between in H3; lra).
      set (u := 1 - s * W3) in *. clearbody u.
      assert (Iu : 2 / 3 <= / u <= 2).
      { split; [replace (2 / 3) with (/ (3 / 2)) by lra | replace 2 with (/ / 2) by lra]; apply Rinv_le_contravar; lra. }
      assert (Ed : d * (s * n2) <= d * n2) by (apply Rmult_le_compat_l; [lra | rewrite <- (Rmult_1_l n2) at 2; apply Rmult_le_compat_r; lra]).
      assert (Ed0 : 0 <= d * (s * n2)) by (apply Rmult_le_pos; [lra | apply Rmult_le_pos; lra]).
      replace (1 / u + d * (s * n2) * 1 / (2 * u ^ 2) + d ^ 2 * (s * n2) ^ 2 * 1 / (18 * u ^ 3))
        with (/ u + d * (s * n2) * (/ u) ^ 2 / 2 + (d * (s * n2)) ^ 2 * (/ u) ^ 3 / 18) by (field; lra).
      replace (2 + 2 * d * n2 + d ^ 2 * n2 ^ 2) with (2 + 2 * (d * n2) + (d * n2) ^ 2) by ring.
      set (v := / u) in *. set (y := d * (s * n2)) in *. set (z := d * n2) in *. clearbody v y z.
      assert (V2 : 0 <= v ^ 2 <= 4) by (split; [apply pow2_ge_0 | nra]).
      assert (V3 : 0 <= v ^ 3 <= 8) by (split; [apply pow_le; lra | replace (v ^ 3) with (v * v ^ 2) by ring; nra]).
      assert (Y2 : 0 <= y ^ 2 <= z ^ 2) by (split; [apply pow2_ge_0 | apply pow_incr; lra]).
      assert (G : 2 / 3 <= v + y * v ^ 2 / 2 + y ^ 2 * v ^ 3 / 18 <= 2 + 2 * z + z ^ 2).
      { generalize dependent (v ^ 2). intros v2 V2. generalize dependent (v ^ 3). intros v3 V3. generalize dependent (y ^ 2). intros y2 Y2. generalize dependent (z ^ 2). intros z2 Y2.
        assert (0 <= y * v2 <= z * 4) by (split; [apply Rmult_le_pos; lra | apply Rmult_le_compat; lra]).
        assert (0 <= y2 * v3 <= z2 * 8) by (split; [apply Rmult_le_pos; lra | apply Rmult_le_compat; lra]). lra. }
      split; apply Rmult_le_compat_r; lra.
    Qed.
    Let DM := Sum i < m, Sum j < m, top (comp p i) (comp p j).
    Let top_pos i j : (i < c)%nat -> (j < c)%nat -> 0 <= top i j.
    Proof.
      intros Hi Hj. unfold top. apply Rmult_le_pos; [ | apply pre_pos; auto]. pose proof (D_pos i j Hi Hj). pose proof n2_pos.
      assert (0 <= D i j * n2) by (apply Rmult_le_pos; auto). pose proof (pow2_ge_0 (D i j * n2)) as Q. rewrite Rpow_mult_distr in Q. lra.
    Qed.
    Let DM_top i j : (i < m)%nat -> (j < m)%nat -> top (comp p i) (comp p j) <= DM.
    Proof.
      intros Hi Hj. pose proof (comp_lt p W) as Cl. unfold DM. eapply Rle_trans; [ | apply (rsum_ge_term (seq 0 m) (fun i => Sum j < m, top (comp p i) (comp p j)) i)].
      - apply (rsum_ge_term (seq 0 m) (fun j => top (comp p i) (comp p j)) j); [ | apply in_seq; lia]. intros k Hk. apply seq_in in Hk. apply top_pos; apply Cl; auto.
      - intros k Hk. apply seq_in in Hk. apply rsum_nonneg. intros l Hl. apply seq_in in Hl. apply top_pos; apply Cl; auto.
      - apply in_seq. lia.
    Qed.
    Let Sgm := Sum i < m, nth (comp p i) w 0 * (Na X (comp p i) + Nb X (comp p i)).
    Let sites i : (i < m)%nat -> 0 <= Na X (comp p i) /\ 0 <= Nb X (comp p i) /\ 0 <= nth (comp p i) w 0.
    Proof. intros Hi. pose proof (comp_lt p W i Hi) as L. destruct (Hap _ L) as (_ & _ & A & B). split; [exact A | ]. split; [exact B | ]. auto. Qed.
    Let Sg_pos : 0 <= Sgm.
    Proof. apply rsum_nonneg. intros i Hi. apply seq_in in Hi. destruct (sites i Hi) as (A & B & C). apply Rmult_le_pos; lra. Qed.
    Let DM_pos : 0 <= DM.
    Proof.
      pose proof (comp_lt p W) as Cl. unfold DM. apply rsum_nonneg. intros k Hk. apply seq_in in Hk. apply rsum_nonneg. intros l Hl. apply seq_in in Hl. apply top_pos; apply Cl; auto.
    Qed.
    (** the largest amount considered *)
    Lemma small_enough : exists s0, 0 < s0 /\ forall s, 0 < s < s0 -> small s /\ s * (DM * Sgm) <= 1.
    Proof.
      assert (T0 : 0 <= total) by (apply rsum_nonneg; intros i Hi; apply seq_in in Hi; auto).
      pose proof (Rabs_pos W3) as A3. pose proof (Rmult_le_pos _ _ DM_pos Sg_pos) as Q.
      set (q := DM * Sgm) in *. clearbody q. pose (k := 10 ^ 10 * (1 + total + Rabs W3 + q)). assert (K0 : 0 < k) by (unfold k; apply Rmult_lt_0_compat; [apply pow_lt; lra | lra]).
      exists (/ k). split; [apply Rinv_0_lt_compat; auto | ]. intros s [H0 H1].
      assert (Hk : s * k < 1) by (apply (Rmult_lt_compat_r k) in H1; [rewrite Rinv_l in H1; lra | auto]). unfold k in Hk.
      assert (B1 : 0 <= s * total) by (apply Rmult_le_pos; lra). assert (B2 : 0 <= s * Rabs W3) by (apply Rmult_le_pos; lra). assert (B3 : 0 <= s * q) by (apply Rmult_le_pos; lra).
      split; [split; [lra | split; [lra | ]] | lra]. rewrite Rabs_mult, (Rabs_right s) by lra. lra.
    Qed.
    Let law s (x : list R) : small s -> point_law p t dim (amount s w) x ->
      site_law m (fun i j => pair_strength p t dim (amount s w) (comp p i) (comp p j)) (fun i => Na X (comp p i)) (fun i => Nb X (comp p i)) (fun i => s * nth (comp p i) w 0) x.
    Proof.
      intros Hs H. eapply site_law_ext; [ | | exact H]; [reflexivity | ]. intros i Hi. cbv beta. rewrite (amount_rho s) by (auto; exact (comp_lt p W i Hi)). auto.
    Qed.
    Let energy s (x : list R) : small s -> point_energy p t dim (amount s w) x =
      site_energy m (fun i => Na X (comp p i)) (fun i => Nb X (comp p i)) (fun i => s * nth (comp p i) w 0) x.
    Proof. intros Hs. apply site_energy_ext. intros i Hi. rewrite (amount_rho s) by (auto; exact (comp_lt p W i Hi)). auto. Qed.
    Let bound s i j : small s -> (i < m)%nat -> (j < m)%nat -> 0 <= pair_strength p t dim (amount s w) (comp p i) (comp p j) <= DM.
    Proof.
      intros Hs Hi Hj. pose proof (comp_lt p W i Hi) as Ci. pose proof (comp_lt p W j Hj) as Cj.
      destruct (amount_strength s _ _ Hs Ci Cj) as [H1 H2]. pose proof (pre_pos _ _ Ci Cj). pose proof (DM_top i j Hi Hj). lra.
    Qed.

    (** the exact energy vanishes like the square of the amount: value and first derivatives at an
        empty point are zero *)
    Theorem C42_cross_energy : exists C s0, 0 < s0 /\ forall s, 0 < s < s0 ->
      (exists x, point_law p t dim (amount s w) x) /\
      forall x, point_law p t dim (amount s w) x -> - (C * s ^ 2) <= point_energy p t dim (amount s w) x <= 0.
    Proof.
      destruct small_enough as (s0 & H0 & H). exists (DM * Sgm ^ 2), s0. split; auto. intros s Hs. destruct (H s Hs) as [Sm S1]. split.
      - destruct (C14_exists_unique m (fun i j => pair_strength p t dim (amount s w) (comp p i) (comp p j)) (fun i => Na X (comp p i)) (fun i => Nb X (comp p i))
          (fun i => rho_eff p t (comp p i) dim (amount s w))) as (x & Hx & _).
        + intros i j Hi Hj. apply bound; auto.
        + intros i Hi. destruct (sites i Hi) as (A & B & C). rewrite (amount_rho s) by (auto; exact (comp_lt p W i Hi)). split; auto. split; auto. apply Rmult_le_pos; lra.
        + exists x. exact Hx.
      - intros x Hx. rewrite (energy s x Sm). pose proof (law s x Sm Hx) as Lx. split.
        + pose proof (small_lower m _ _ _ (fun i => nth (comp p i) w 0) s DM (fun i j Hi Hj => bound s i j Sm Hi Hj) sites (proj1 Hs) x Lx) as Q. replace (DM * Sgm ^ 2 * s ^ 2) with (s ^ 2 * (DM * Sgm ^ 2)) by ring. exact Q.
        + exact (small_nonpos m _ _ _ (fun i => nth (comp p i) w 0) s DM (fun i j Hi Hj => bound s i j Sm Hi Hj) sites (proj1 Hs) x Lx).
    Qed.
    (** a component with both kinds of sites: not faster than the square *)
    Theorem C42_cross_second_order a : (a < m)%nat -> 0 < nth (comp p a) w 0 -> 0 < Na X (comp p a) -> 0 < Nb X (comp p a) -> 0 < Kab X (comp p a) -> 0 < Eab X (comp p a) ->
      exists k s0, 0 < k /\ 0 < s0 /\ forall s x, 0 < s < s0 -> point_law p t dim (amount s w) x -> point_energy p t dim (amount s w) x <= - (k * s ^ 2).
    Proof.
      intros Ha Pw PA PB PK PE. destruct small_enough as (s0 & H0 & H). pose proof (comp_lt p W a Ha) as Ca. set (b := comp p a) in *.
      assert (Pp : 0 < pre b b).
      { destruct (Hph b Ca) as (_ & S1 & _). change (0 < Sg X b) in S1. unfold pre.
        assert (Es : Sij X b b = Sg X b) by (unfold Sij; lra).
        assert (Ek : Kapij X b b = Kab X b).
        { unfold Kapij. rewrite Es, !sqrt_square by lra. field. lra. }
        rewrite Es, Ek. apply Rmult_lt_0_compat; [apply Rmult_lt_0_compat; auto; apply pow_lt; auto | ].
        assert (0 < (Eab X b + Eab X b) / 2 / t) by (apply Rdiv_lt_0_compat; lra). pose proof (exp_ineq1 _ (Rgt_not_eq _ _ H1)). lra. }
      exists (nth b w 0 ^ 2 * (Na X b * Nb X b) * (2 / 3 * pre b b) / 8), s0. split; [ | split; auto].
      { apply Rdiv_lt_0_compat; [ | lra]. apply Rmult_lt_0_compat; [ | lra]. apply Rmult_lt_0_compat; [apply pow_lt; auto | apply Rmult_lt_0_compat; auto]. }
      intros s x Hs Hx. destruct (H s Hs) as [Sm S1]. rewrite (energy s x Sm). pose proof (law s x Sm Hx) as Lx.
      destruct (amount_strength s b b Sm Ca Ca) as [Q1 _]. assert (Q0 : 0 <= 2 / 3 * pre b b) by (apply Rmult_le_pos; lra).
      pose proof (small_upper m _ _ _ (fun i => nth (comp p i) w 0) s DM (2 / 3 * pre b b) a (fun i j Hi Hj => bound s i j Sm Hi Hj) sites (proj1 Hs) S1 x Lx Ha (conj Q0 Q1)) as Q.
      cbv beta in Q. fold b in Q. set (k := _ / 8) in *. rewrite (Rmult_comm k). exact Q.
    Qed.
  End Direction.
End Empty.

(* ------------------------------------------------- what the functional returns there *)
Section Returned.
  Variables (prs : list (pure_record RNum)) (bin : list (list R)) (p : params RNum).
  Hypothesis Hp : from_records prs bin = Some p.
  Hypothesis Hph : phys p.
  Variables (n : nat) (t : R) (dt : list R).
  Hypothesis Ht : 0 < t.
  Notation c := (length (p_m p)). Notation m := (p_nassoc p).
  Lemma empty_regular dim (wd : list (R * list R)) : length wd = (c * (dim + 1) + 1)%nat -> no_molecules wd -> point_regular p t dim (map fst wd) /\ rho_total p t dim (map fst wd) = 0.
  Proof.
    intros L H. assert (Z : forall i, nth i (map fst wd) 0 = 0) by (intros i; apply empty_nth; exact H).
    assert (P9 : 0 < / 10 ^ 9) by (apply Rinv_0_lt_compat; apply pow_lt; lra).
    assert (Er : forall i, rho_eff p t i dim (map fst wd) = 0) by (intros i; unfold rho_eff; rewrite Z, (proj2 (Rltb_true _ _)) by lra; reflexivity).
    assert (Es : (Sum i < c, nth i (map fst wd) 0) = 0) by (apply rsum_zero; intros; apply Z).
    split; [ | unfold rho_total; apply rsum_zero; intros; apply Er].
    split; [rewrite map_length; exact L | ]. split; [intros i _; rewrite Z; lra | ]. split; [rewrite Es; lra | ]. split; [rewrite Z; lra | ].
    split; [intros i _; rewrite Er; lra | ]. unfold xi_all. rewrite Es, (proj2 (Rltb_true _ _)) by lra. lra.
  Qed.
  Lemma coef_n0 k s : coef k s (@n0 (lK (dual k))) = Fin 0.
  Proof. revert s. induction k as [ | k IH]; intros s; [cbn; unfold Rlit; cbn; f_equal; lra | ]. cbn [coef]. destruct (hd false s); apply IH. Qed.
  (** every solver, tolerance and number of iterations, any number of empty points: value and all
      derivatives of all orders are zero *)
  Theorem C42_cross_association lu max_iter tol dim (wds : list (list (R * list R))) : (2 <= m)%nat ->
    (forall wd, In wd wds -> length wd = (c * (dim + 1) + 1)%nat /\ no_molecules wd) ->
    exists l, phi_assoc lu max_iter tol (plift (emb (TRn n)) p) (seed n t dt) (map (wdd n) wds) = Ok l /\ length l = length wds /\
      forall a s, In a l -> length s = n -> coef n s a = Fin 0.
  Proof.
    intros Hm H. exists (map (fun _ => n0) wds). split; [ | split; [apply map_length | ]].
    - unfold phi_assoc. change (p_nassoc (plift (emb (TRn n)) p)) with m. destruct (Nat.eqb_spec m 1) as [C | _]; [lia | ].
      assert (Guess : repeat (@nlit (lK (dual n)) (2 # 10)) (2 * m) = map (emb (TRn n)) (repeat (2 / 10) (2 * m))).
      { rewrite P_Dual4.map_repeat'. f_equal. eapply (rel_fun (dual n)); [exact (tr_lit _ _ (TRn n) (2 # 10)) | ].
        pose proof (tr_emb _ _ (TRn n) (2 / 10)) as Te. eapply (rel_eq (TRn n)); [ | exact Te]. intros z. cbn. unfold Rlit. cbn. lra. }
      match goal with |- context [repeat ?w (2 * m)] => change (repeat w (2 * m)) with (repeat (@nlit (lK (dual n)) (2 # 10)) (2 * m)) end. rewrite Guess.
      generalize (repeat (2 / 10) (2 * m)). induction wds as [ | wd wds IH]; intros x; [reflexivity | ].
      destruct (H wd ltac:(left; auto)) as [L E]. destruct (empty_regular dim wd L E) as [Rg Tt].
      cbn [map phi_assoc_cross]. rewrite (at_dilute prs bin p Hp Hph n t dt Ht wd dim Rg lu max_iter tol x).
      2: { rewrite Tt. apply Rinv_0_lt_compat. apply pow_lt. lra. }
      cbn [unwrap_or]. rewrite IH; [reflexivity | ]. intros wd' Hwd'. apply H. right. auto.
    - intros a s Ha _. apply in_map_iff in Ha. destruct Ha as (? & <- & _). apply coef_n0.
  Qed.
End Returned.

(** the second derivatives are therefore wrong: two isotopologues of water at 350 K, moved twice along
    the same direction of densities *)
Theorem C42_second_derivative_refuted : exists prs bin p w, from_records prs bin = Some p /\ phys p /\ assoc_phys p /\ p_nassoc p = 2%nat /\
  (forall lu max_iter tol, exists a,
    phi_assoc lu max_iter tol (plift (emb (TRn 2)) p) (seed 2 350 [0; 0]) [wdd 2 (map (fun d => (0, [d; d])) w)] = Ok [a] /\ coef 2 [true; true] a = Fin 0) /\
  exists k s0, 0 < k /\ 0 < s0 /\ forall s, 0 < s < s0 ->
    (exists x, point_law p 350 1 (amount s w) x) /\ forall x, point_law p 350 1 (amount s w) x -> point_energy p 350 1 (amount s w) x <= - (k * s ^ 2).
Proof.
  exists [pr_water; pr_water], (zeros 2), ww, [1; 1; 0; 0; 0]. split; [exact ww_ok | ]. split; [exact ww_phys | ]. split; [exact ww_assoc | ]. split; [exact ww_nassoc | ].
  assert (H350 : 0 < 350) by lra. split.
  - intros lu mi tol. destruct (C42_cross_association _ _ _ ww_ok ww_phys 2 350 [0; 0] H350 lu mi tol 1 [map (fun d => (0, [d; d])) [1; 1; 0; 0; 0]]) as (l & El & Ll & Cl).
    + rewrite ww_nassoc. lia.
    + intros wd [<- | []]. split; [reflexivity | ]. intros md Hmd. apply in_map_iff in Hmd. destruct Hmd as (? & <- & _). reflexivity.
    + destruct l as [ | a [ | ? ?]]; try discriminate. exists a. split; [exact El | ]. apply Cl; [left; auto | reflexivity].
  - assert (P0 : forall i, (i < length (p_m ww))%nat -> 0 <= nth i [1; 1; 0; 0; 0] 0) by (intros [ | [ | i]] Hi; cbn in *; [lra | lra | lia]).
    assert (C0 : comp ww 0 = 0%nat) by (apply ww_cmp; lia).
    destruct (ww_sites 0%nat ltac:(lia)) as [Sa Sb].
    destruct (C42_cross_energy _ _ _ ww_ok ww_phys ww_assoc 350 1 H350 [1; 1; 0; 0; 0] eq_refl P0) as (Cc & s1 & H1 & Q1).
    destruct (C42_cross_second_order _ _ _ ww_ok ww_phys ww_assoc 350 1 H350 [1; 1; 0; 0; 0] eq_refl P0 0%nat) as (k & s2 & Hk & H2 & Q2).
    + rewrite ww_nassoc. lia.
    + rewrite C0. cbn. lra.
    + rewrite C0, Sa. lra.
    + rewrite C0, Sb. lra.
    + rewrite C0. change (Kab (mix_of ww) 0) with 0.034867983. lra.
    + rewrite C0. change (Eab (mix_of ww) 0) with 2500.6706. lra.
    + exists k, (Rmin s1 s2). split; auto. split; [apply Rmin_pos; auto | ]. intros s Hs. pose proof (Rmin_l s1 s2). pose proof (Rmin_r s1 s2).
      split; [apply Q1; lra | intros x Hx; apply Q2; auto; lra].
Qed.
(** an empty point next to the wall, any order *)
Example C42_cross_case n dt lu max_iter tol (d : list R) : exists l,
  phi_assoc lu max_iter tol (plift (emb (TRn n)) ww) (seed n 350 dt) [wdd n (repeat (0, d) 5)] = Ok l /\ length l = 1%nat /\ forall a s, In a l -> length s = n -> coef n s a = Fin 0.
Proof.
  apply (C42_cross_association _ _ _ ww_ok ww_phys n 350 dt ltac:(lra) lu max_iter tol 1 [repeat (0, d) 5]).
  - rewrite ww_nassoc. lia.
  - intros wd [<- | []]. split; [reflexivity | ]. intros md Hmd. apply repeat_spec in Hmd. subst. reflexivity.
Qed.

Print Assumptions C42_cross_energy.
Print Assumptions C42_cross_second_order.
Print Assumptions C42_cross_association.
Print Assumptions C42_second_derivative_refuted.
