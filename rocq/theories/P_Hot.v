(** C57, continued: at sufficiently high temperature the pressure of every pure non-polar non-associating fluid falls
    strictly with the volume, so that no two volumes coexist.  The inverse compressibility of the hard chain is the
    expression that also enters the dispersion term and is at least one; dispersion changes it by at most a multiple of
    1/T, uniformly up to close packing. *)
From Coq Require Import ZArith QArith Reals Lra Lia String List Bool Psatz.
From Coquelicot Require Import Coquelicot.
From Verif Require Import Num RNum RSum Tables M_Params F_Params M_Eos Spec F_Spec F_SpecPolar
  F_SpecAssoc F_Contrib F_Cross F_Total Samples F_Limit P_Basic P_Limit P_HighT P_Params P_Select XNum DNum F_Transfer F_Transfer2 F_Transfer3 F_Level P_Dual P_Dual2 P_Close P_Npt P_Vle.
Import ListNotations.
Local Open Scope R_scope.
Set Bullet Behavior "Strict Subproofs".
Notation length := List.length.

(* ------------------------------------------------------------------ twice differentiable functions on [0, 1] *)
Definition smooth (f f1 f2 : R -> R) : Prop := forall x, 0 <= x <= 1 -> is_derive f x (f1 x) /\ is_derive f1 x (f2 x) /\ continuous f2 x.
Definition smooth2 (f : R -> R) : Prop := exists f1 f2, smooth f f1 f2.
Lemma d_cont (f : R -> R) x l : is_derive f x l -> continuous f x.
Proof. intros H. apply (ex_derive_continuous f). exists l. exact H. Qed.
Lemma sm_const c : smooth2 (fun _ => c).
Proof. exists (fun _ => 0), (fun _ => 0). intros x _. split; [auto_derive; auto | ]. split; [auto_derive; auto | apply c_const]. Qed.
Lemma sm_id : smooth2 (fun x => x).
Proof. exists (fun _ => 1), (fun _ => 0). intros x _. split; [auto_derive; auto | ]. split; [auto_derive; auto | apply c_const]. Qed.
Lemma sm_plus f g : smooth2 f -> smooth2 g -> smooth2 (fun x => f x + g x).
Proof.
  intros (f1 & f2 & F) (g1 & g2 & G). exists (fun x => f1 x + g1 x), (fun x => f2 x + g2 x). intros x Hx. destruct (F x Hx) as (A & B & C). destruct (G x Hx) as (A' & B' & C').
  split; [exact (is_derive_plus f g x _ _ A A') | ]. split; [exact (is_derive_plus f1 g1 x _ _ B B') | apply c_plus; auto].
Qed.
Lemma d_mult (f g : R -> R) x a b : is_derive f x a -> is_derive g x b -> is_derive (fun y => f y * g y) x (a * g x + f x * b).
Proof. intros A B. exact (is_derive_mult f g x a b A B Rmult_comm). Qed.
Lemma sm_mult f g : smooth2 f -> smooth2 g -> smooth2 (fun x => f x * g x).
Proof.
  intros (f1 & f2 & F) (g1 & g2 & G). exists (fun x => f1 x * g x + f x * g1 x), (fun x => (f2 x * g x + f1 x * g1 x) + (f1 x * g1 x + f x * g2 x)). intros x Hx. destruct (F x Hx) as (A & B & C). destruct (G x Hx) as (A' & B' & C').
  pose proof (d_cont _ _ _ A). pose proof (d_cont _ _ _ B). pose proof (d_cont _ _ _ A'). pose proof (d_cont _ _ _ B').
  split; [apply d_mult; auto | ]. split; [ | cont].
  apply (is_derive_plus (fun x => f1 x * g x) (fun x => f x * g1 x)); apply d_mult; auto.
Qed.
Lemma d_inv (f : R -> R) x a : is_derive f x a -> f x <> 0 -> is_derive (fun y => / f y) x (- (a * (/ f x * / f x))).
Proof.
  intros A N. replace (- (a * (/ f x * / f x))) with (- a / f x ^ 2) by (field; auto). exact (is_derive_inv f x a A N).
Qed.
Lemma c_inv (f : R -> R) x : continuous f x -> f x <> 0 -> continuous (fun y => / f y) x.
Proof. intros C N. apply (continuous_comp_R f Rinv); auto. apply continuous_Rinv; auto. Qed.
Lemma sm_inv f : smooth2 f -> (forall x, 0 <= x <= 1 -> f x <> 0) -> smooth2 (fun x => / f x).
Proof.
  intros (f1 & f2 & F) N. exists (fun x => - (f1 x * (/ f x * / f x))).
  exists (fun x => - (f2 x * (/ f x * / f x) + f1 x * (- (f1 x * (/ f x * / f x)) * / f x + / f x * - (f1 x * (/ f x * / f x))))).
  intros x Hx. destruct (F x Hx) as (A & B & C). specialize (N x Hx). pose proof (d_cont _ _ _ A) as CA. pose proof (d_cont _ _ _ B) as CB. pose proof (c_inv f x CA N) as Ci.
  pose proof (d_inv f x (f1 x) A N) as Di. split; [exact Di | ]. set (i := fun y => / f y) in *.
  change (is_derive (fun y => - (f1 y * (i y * i y))) x (- (f2 x * (i x * i x) + f1 x * (- (f1 x * (i x * i x)) * i x + i x * - (f1 x * (i x * i x)))))
    /\ continuous (fun x => - (f2 x * (i x * i x) + f1 x * (- (f1 x * (i x * i x)) * i x + i x * - (f1 x * (i x * i x))))) x).
  change (is_derive i x (- (f1 x * (i x * i x)))) in Di. change (continuous i x) in Ci. clearbody i. split; [ | cont].
  apply (is_derive_opp (fun x => f1 x * (i x * i x))). apply (d_mult f1 (fun x => i x * i x)); auto. apply (d_mult i i); auto.
Qed.
Lemma sm_ext f g : (forall x, f x = g x) -> smooth2 f -> smooth2 g.
Proof. intros E (f1 & f2 & F). exists f1, f2. intros x Hx. destruct (F x Hx) as (A & B & C). split; auto. eapply is_derive_ext; [exact E | exact A]. Qed.
Lemma sm_pow f k : smooth2 f -> smooth2 (fun x => f x ^ k).
Proof. intros H. induction k as [ | k IH]; cbn [pow]; [apply sm_const | apply sm_mult; auto]. Qed.
Lemma sm_sum l (f : nat -> R -> R) : (forall i, smooth2 (f i)) -> smooth2 (fun x => rsum l (fun i => f i x)).
Proof. intros H. induction l as [ | a l IH]; [apply (sm_const 0) | ]. apply (sm_plus (f a) (fun x => rsum l (fun i => f i x))); auto. Qed.

(** The term of the pressure belonging to an energy f(eta) per molecule, eta^2 f'(eta), grows at a bounded rate. *)
Lemma sm_bound f : smooth2 f -> exists f1 B, 0 <= B /\ forall x, 0 <= x <= 1 -> is_derive f x (f1 x) /\
  exists g, is_derive (fun x => x ^ 2 * f1 x) x g /\ Rabs g <= B.
Proof.
  intros (f1 & f2 & F). set (g := fun x => 2 * x * f1 x + x ^ 2 * f2 x).
  assert (C : forall x, 0 <= x <= 1 -> continuous g x).
  { intros x Hx. destruct (F x Hx) as (_ & B & Cc). pose proof (d_cont _ _ _ B). unfold g. cont. }
  destruct (continuity_ab_maj (fun x => Rabs (g x)) 0 1 ltac:(lra)) as (m & Hm & _).
  { intros x Hx. apply continuity_pt_filterlim. apply (continuous_comp_R g Rabs); [apply C; auto | apply continuous_Rabs]. }
  exists f1, (Rabs (g m)). split; [apply Rabs_pos | ]. intros x Hx. destruct (F x Hx) as (A & B & _). split; auto. exists (g x). split; [ | apply Hm; auto].
  unfold g. apply (d_mult (fun x => x ^ 2) f1); auto. auto_derive; auto. ring.
Qed.

(* ------------------------------------------------------------------ the pure fluid in terms of the packing fraction *)
Section Reduced.
  Variable m : R.
  Hypothesis Hm : 0 < m.
  (** hard chain: Carnahan-Starling spheres and their contact value *)
  Definition chain (x : R) : R := m * ((4 * x - 3 * x ^ 2) / (1 - x) ^ 2) - (m - 1) * ln ((1 - x / 2) / (1 - x) ^ 3).
  Definition chain1 (x : R) : R := m * ((4 - 2 * x) / (1 - x) ^ 3) - (m - 1) * (3 / (1 - x) - 1 / (2 - x)).
  Lemma chain_d x : 0 <= x < 1 -> is_derive chain x (chain1 x).
  Proof.
    intros Hx. unfold chain, chain1. assert (0 < (1 - x) ^ 3) by (apply pow_lt; lra).
    auto_derive.
    - assert (P2 : 0 < (1 + - x) * ((1 + - x) * 1)) by (apply Rmult_lt_0_compat; lra).
      assert (P3 : 0 < (1 + - x) * ((1 + - x) * ((1 + - x) * 1))) by (apply Rmult_lt_0_compat; lra).
      assert (P4 : 0 < (1 + - (x * / 2)) * / ((1 + - x) * ((1 + - x) * ((1 + - x) * 1)))) by (apply Rmult_lt_0_compat; [lra | apply Rinv_0_lt_compat; auto]).
      repeat split; auto; try lra.
    - field. repeat split; lra.
  Qed.
  Lemma chain_pressure x : 0 <= x < 1 -> is_derive (fun x => x + x ^ 2 * chain1 x) x (inv_compressibility m x).
  Proof.
    intros Hx. unfold chain1, inv_compressibility. auto_derive.
    - assert (P2 : 0 < (1 + - x) * ((1 + - x) * 1)) by (apply Rmult_lt_0_compat; lra).
      assert (P3 : 0 < (1 + - x) * ((1 + - x) * ((1 + - x) * 1))) by (apply Rmult_lt_0_compat; lra). repeat split; auto; lra.
    - field. repeat split; lra.
  Qed.
  (** dispersion *)
  Definition cfm (c0 c1 c2 : list Q) (i : nat) : R := lit c0 i + (m - 1) / m * lit c1 i + (m - 1) / m * ((m - 2) / m) * lit c2 i.
  Definition serm (c0 c1 c2 : list Q) (x : R) : R := Sum i < 7, cfm c0 c1 c2 i * x ^ i.
  Definition denom (x : R) : R :=
    (1 - x) ^ 4 * (2 - x) ^ 2 + m * (8 * x - 2 * x ^ 2) * (2 - x) ^ 2 + (1 - m) * (20 * x - 27 * x ^ 2 + 12 * x ^ 3 - 2 * x ^ 4) * (1 - x) ^ 2.
  Definition compm (x : R) : R := (1 - x) ^ 4 * (2 - x) ^ 2 * / denom x.
  Lemma denom_eq x : 0 <= x < 1 -> denom x = (1 - x) ^ 4 * (2 - x) ^ 2 * inv_compressibility m x.
  Proof. intros Hx. unfold denom, inv_compressibility. field. split; lra. Qed.
  Lemma denom_pos x : 0 <= x <= 1 -> denom x <> 0.
  Proof.
    intros Hx. destruct (Req_dec x 1) as [-> | N].
    - unfold denom. replace ((1 - 1) ^ 4 * (2 - 1) ^ 2 + m * (8 * 1 - 2 * 1 ^ 2) * (2 - 1) ^ 2 + (1 - m) * (20 * 1 - 27 * 1 ^ 2 + 12 * 1 ^ 3 - 2 * 1 ^ 4) * (1 - 1) ^ 2) with (6 * m) by ring. lra.
    - rewrite denom_eq by lra. pose proof (inv_compressibility_ge1 m x Hm ltac:(lra)). apply Rmult_integral_contrapositive. split; [ | lra].
      apply Rmult_integral_contrapositive. split; apply pow_nonzero; lra.
  Qed.
  Lemma compm_eq x : 0 <= x < 1 -> compm x = / inv_compressibility m x.
  Proof.
    intros Hx. unfold compm. rewrite denom_eq by auto. pose proof (inv_compressibility_ge1 m x Hm Hx). field. repeat split; lra.
  Qed.
  Lemma sm_minus f g : smooth2 f -> smooth2 g -> smooth2 (fun x => f x - g x).
  Proof.
    intros F G. apply (sm_ext (fun x => f x + (- 1) * g x)); [intros x; ring | ]. apply (sm_plus f (fun x => -1 * g x)); auto. apply (sm_mult (fun _ => -1) g); auto. apply sm_const.
  Qed.
  Ltac sm := cbv beta; lazymatch goal with
      | |- smooth2 (fun s => s) => exact sm_id
      | |- smooth2 (fun _ => ?c) => exact (sm_const c)
      | |- smooth2 (fun s => @?f s + @?g s) => refine (sm_plus f g _ _); sm
      | |- smooth2 (fun s => @?f s - @?g s) => refine (sm_minus f g _ _); sm
      | |- smooth2 (fun s => @?f s * @?g s) => refine (sm_mult f g _ _); sm
      | |- smooth2 (fun s => @?f s ^ ?k) => refine (sm_pow f k _); sm
      end.
  Lemma sm_serm c0 c1 c2 : smooth2 (serm c0 c1 c2).
  Proof. unfold serm. apply (sm_sum _ (fun i x => cfm c0 c1 c2 i * x ^ i)). intros i. sm. Qed.
  Lemma sm_first : smooth2 (fun x => x * serm A0 A1 A2 x).
  Proof. pose proof (sm_serm A0 A1 A2). apply (sm_mult (fun x => x) (serm A0 A1 A2)); auto. apply sm_id. Qed.
  Lemma sm_second : smooth2 (fun x => x * (compm x * serm B0 B1 B2 x)).
  Proof.
    pose proof (sm_serm B0 B1 B2). assert (Sd : smooth2 denom) by (unfold denom; sm). assert (Si : smooth2 (fun x => / denom x)) by (apply sm_inv; [exact Sd | apply denom_pos]).
    apply (sm_mult (fun x => x) (fun x => compm x * serm B0 B1 B2 x)); [apply sm_id | ]. apply (sm_mult compm (serm B0 B1 B2)); auto.
    unfold compm. apply (sm_mult (fun x => (1 - x) ^ 4 * (2 - x) ^ 2) (fun x => / denom x)); auto. sm.
  Qed.

  (** with weak dispersion the pressure rises with the packing fraction *)
  Lemma weak_monotone : exists b1 b2 (g1 g2 : R -> R), 0 <= b1 /\ 0 <= b2 /\
    (forall x, 0 <= x < 1 -> is_derive (fun x => x * serm A0 A1 A2 x) x (g1 x)) /\
    (forall x, 0 <= x < 1 -> is_derive (fun x => x * (compm x * serm B0 B1 B2 x)) x (g2 x)) /\
    forall k1 k2, Rabs k1 * b1 + Rabs k2 * b2 < 1 -> forall x y, 0 < x < y -> y < 1 ->
      x + x ^ 2 * (chain1 x - k1 * g1 x - k2 * g2 x) < y + y ^ 2 * (chain1 y - k1 * g1 y - k2 * g2 y).
  Proof.
    destruct (sm_bound _ sm_first) as (g1 & b1 & HB1 & P1). destruct (sm_bound _ sm_second) as (g2 & b2 & HB2 & P2).
    exists b1, b2, g1, g2. split; auto. split; auto. split; [intros x Hx; apply P1; lra | ]. split; [intros x Hx; apply P2; lra | ].
    intros k1 k2 Hk x y Hxy Hy. set (G := fun x => x + x ^ 2 * (chain1 x - k1 * g1 x - k2 * g2 x)). change (G x < G y).
    assert (DG : forall z, 0 < z < 1 -> exists l, is_derive G z l /\ 0 < l).
    { intros z Hz. destruct (P1 z ltac:(lra)) as (_ & h1 & D1 & L1). destruct (P2 z ltac:(lra)) as (_ & h2 & D2 & L2). pose proof (chain_pressure z ltac:(lra)) as D0.
      exists (inv_compressibility m z - k1 * h1 - k2 * h2). split.
      - apply (is_derive_ext (fun x => (x + x ^ 2 * chain1 x) - k1 * (x ^ 2 * g1 x) - k2 * (x ^ 2 * g2 x))).
        { intros w. unfold G. change (AbsRing.sort R_AbsRing) with R in *. apply Rminus_diag_uniq. ring. }
        apply (is_derive_minus (fun x => (x + x ^ 2 * chain1 x) - k1 * (x ^ 2 * g1 x)) (fun x => k2 * (x ^ 2 * g2 x))).
        + apply (is_derive_minus (fun x => x + x ^ 2 * chain1 x) (fun x => k1 * (x ^ 2 * g1 x))); auto. apply (is_derive_scal (fun x => x ^ 2 * g1 x)); auto.
        + apply (is_derive_scal (fun x => x ^ 2 * g2 x)); auto.
      - pose proof (inv_compressibility_ge1 m z Hm ltac:(lra)) as I. assert (k1 * h1 <= Rabs k1 * b1).
        { eapply Rle_trans; [apply Rle_abs | ]. rewrite Rabs_mult. apply Rmult_le_compat_l; [apply Rabs_pos | auto]. }
        assert (k2 * h2 <= Rabs k2 * b2). { eapply Rle_trans; [apply Rle_abs | ]. rewrite Rabs_mult. apply Rmult_le_compat_l; [apply Rabs_pos | auto]. } lra. }
    apply (incr_function G 0 1 (Derive G)); try (cbn; lra).
    - intros z Z1 Z2. cbn in Z1, Z2. destruct (DG z ltac:(lra)) as (l & D & _). apply Derive_correct. exists l. exact D.
    - intros z Z1 Z2. cbn in Z1, Z2. destruct (DG z ltac:(lra)) as (l & D & Hl). rewrite (is_derive_unique G z l D). exact Hl.
  Qed.
End Reduced.

(* ------------------------------------------------------------------ the equation of state *)
Section Hot.
  Variables (prs : list (pure_record RNum)) (bin : list (list R)) (p : params RNum).
  Hypothesis Hp : from_records prs bin = Some p.
  Hypothesis Hph : phys p.
  Hypothesis H1 : length (p_m p) = 1%nat.
  Variable n : R.
  Hypothesis Hn : 0 < n.
  Hypothesis Hd : p_ndipole p = 0%nat.
  Hypothesis Hq : p_nquadpole p = 0%nat.
  Hypothesis Hass : p_nassoc p = 0%nat.
  Let X := mix_of p.
  Let m := M X 0. Let s := Sg X 0. Let e := Ep X 0. Let q := Eij X 0 0.
  Lemma hms : 0 < m /\ 0 < s /\ 0 < e.
  Proof. destruct (Hph 0%nat ltac:(lia)) as (A & B & C). auto. Qed.

  Section At.
    Variable t : R.
    Hypothesis Ht : 0 < t.
    Let c := close p t [n].
    Let d := Di X t 0.
    (** strengths of first and second order dispersion *)
    Let k1 := 12 * m * (s / d) ^ 3 * (q / t).
    Let k2 := 6 * m ^ 2 * (s / d) ^ 3 * (q / t) ^ 2.
    Lemma d_range : 88 / 100 * s < d /\ d < s.
    Proof.
      destruct hms as (A & B & C). unfold d, Di. fold s e. assert (0 < e / t) by (apply Rdiv_lt_0_compat; auto). assert (exp (- 3 * e / t) < 1) by (rewrite <- exp_0; apply exp_increasing; unfold Rdiv in *; lra).
      pose proof (exp_pos (- 3 * e / t)). split.
      - apply Rmult_lt_reg_r with (/ s); [apply Rinv_0_lt_compat; auto | ]. field_simplify; lra.
      - rewrite <- (Rmult_1_r s) at 2. apply Rmult_lt_compat_l; lra.
    Qed.
    Lemma ratio : 0 < (s / d) ^ 3 < 2.
    Proof.
      destruct hms as (A & B & C). destruct d_range as [L U]. assert (Pd : 0 < d) by lra. assert (R0 : 0 < s / d) by (apply Rdiv_lt_0_compat; auto).
      assert (R1 : s / d < 100 / 88). { apply Rmult_lt_reg_r with d; auto. unfold Rdiv at 1. rewrite Rmult_assoc, Rinv_l; lra. }
      split; [apply pow_lt; auto | ]. set (x := s / d) in *. clearbody x. assert ((x ^ 3) < (100 / 88) ^ 3); [ | lra]. assert (x ^ 2 < (100 / 88) ^ 2) by nra. assert (0 < x ^ 2) by (apply pow_lt; auto). nra.
    Qed.
    Lemma c_eq : c = PI / 6 * (n * m * d ^ 3).
    Proof. unfold c, close. rewrite H1. unfold rsum. cbn [seq fold_right map nth]. fold X d m. ring. Qed.
    Lemma hc_pos : 0 < c. Proof. exact (close_pos p Hph t [n] Ht (nn1 p H1 n Hn) (ne1 p H1 n Hn)). Qed.
    (** the residual energy per molecule as a function of the packing fraction *)
    Definition per_molecule (x : R) : R := chain m x - k1 * (x * serm m A0 A1 A2 x) - k2 * (x * (compm m x * serm m B0 B1 B2 x)).
    Lemma energy_eq lu o f v : (forall V, residual lu (with_options p o) (@state_new RNum t V [n]) = Some (f V)) -> c < v -> f v = n * per_molecule (c / v).
    Proof.
      intros Hf Hv. pose proof hc_pos as Pc. assert (Pv : 0 < v) by lra. destruct hms as (A & B & C). destruct d_range as [L U]. assert (Pd : 0 < d) by lra. pose proof PI_RGT_0 as Ppi.
      pose proof (PSv p Hph t [n] Ht (len1 p H1 n) (nn1 p H1 n Hn) (ne1 p H1 n Hn) v Hv) as PS.
      specialize (Hf v). rewrite residual_total in Hf. unfold assoc_term in Hf. rewrite Hass in Hf. apply Some_inj in Hf.
      rewrite a_dipole_none, a_quadrupole_none, a_dq_none_d in Hf by auto. pose proof (wfp_from_records _ _ _ Hp) as W.
      rewrite (hs_textbook p W Hph t v [n] PS), (hc_textbook p W Hph t v [n] PS), (disp_textbook p W t v [n] PS) in Hf. fold X in Hf. rewrite !Rplus_0_r in Hf.
      set (rho := fun i => nth i [n] 0 / v) in *. assert (Er : rho 0%nat = n / v) by reflexivity.
      set (x := c / v). assert (Hx : 0 < x < 1). { split; [apply Rdiv_lt_0_compat; auto | ]. unfold x. apply Rmult_lt_reg_r with v; auto. unfold Rdiv. rewrite Rmult_assoc, Rinv_l; lra. }
      assert (Ez : forall k, Zeta X t rho k = PI / 6 * (n / v * m * d ^ k)).
      { intros k. unfold Zeta. change (Spec.N X) with (length (p_m p)). rewrite H1. unfold rsum. cbn [seq fold_right map]. rewrite Er. fold d m. ring. }
      assert (Ex : Zeta X t rho 3 = x) by (rewrite Ez; unfold x; rewrite c_eq; field; lra).
      assert (Em : Mbar X rho = m).
      { unfold Mbar, Rho. change (Spec.N X) with (length (p_m p)). rewrite H1. unfold rsum. cbn [seq fold_right map]. rewrite Er. fold m. field. lra. }
      assert (Rz : n / v * m * d ^ 3 = 6 / PI * x) by (unfold x; rewrite c_eq; field; lra).
      assert (Y1 : v * f_hs X t rho = n * (m * ((4 * x - 3 * x ^ 2) / (1 - x) ^ 2))).
      { unfold f_hs. rewrite Ex. rewrite !Ez.
        replace ((PI / 6 * (n / v * m * d ^ 2)) ^ 3 / x ^ 2 - PI / 6 * (n / v * m * d ^ 0)) with 0.
        2:{ replace ((PI / 6 * (n / v * m * d ^ 2)) ^ 3) with (PI / 6 * (n / v * m) * (PI / 6 * (n / v * m * d ^ 3)) ^ 2) by ring. rewrite Rz. field. lra. }
        rewrite Rmult_0_l, Rplus_0_r. replace ((PI / 6 * (n / v * m * d ^ 2)) ^ 3) with (PI / 6 * (n / v * m) * (PI / 6 * (n / v * m * d ^ 3)) ^ 2) by ring.
        replace (3 * (PI / 6 * (n / v * m * d ^ 1)) * (PI / 6 * (n / v * m * d ^ 2))) with (3 * (PI / 6 * (n / v * m)) * (PI / 6 * (n / v * m * d ^ 3))) by ring. rewrite Rz. field. repeat split; lra. }
      assert (Y2 : v * f_hc X t rho = n * - ((m - 1) * ln ((1 - x / 2) / (1 - x) ^ 3))).
      { unfold f_hc, Gij. rewrite Ex, !Ez. change (Spec.N X) with (length (p_m p)). rewrite H1. unfold rsum. cbn [seq fold_right map]. rewrite Er. fold d m.
        set (a := ln _). replace a with (ln ((1 - x / 2) / (1 - x) ^ 3)); [field; lra | ]. unfold a. f_equal.
        replace (d * d / (d + d) * (3 * (PI / 6 * (n / v * m * d ^ 2)) / (1 - x) ^ 2)) with (3 / 2 * (PI / 6 * (n / v * m * d ^ 3)) / (1 - x) ^ 2) by (field; repeat split; lra).
        replace ((d * d / (d + d)) ^ 2 * (2 * (PI / 6 * (n / v * m * d ^ 2)) ^ 2 / (1 - x) ^ 3)) with (1 / 2 * (PI / 6 * (n / v * m * d ^ 3)) ^ 2 / (1 - x) ^ 3) by (field; repeat split; lra).
        rewrite Rz. field. repeat split; lra. }
      assert (Ps : forall c0 c1 c2, power_series X t rho c0 c1 c2 = serm m c0 c1 c2 x).
      { intros. unfold power_series, serm, cfm, Eta. rewrite Em, Ex. reflexivity. }
      assert (Ec : C1 X t rho = compm m x).
      { rewrite (compm_eq m A x) by lra. unfold C1, inv_compressibility, Eta. rewrite Em, Ex. unfold Rdiv. rewrite Rmult_1_l. reflexivity. }
      assert (Mx : forall k, mixsum X t rho k = 6 / PI * (n / v * m) * (s / d) ^ 3 * (q / t) ^ k * x).
      { intros k. unfold mixsum. change (Spec.N X) with (length (p_m p)). rewrite H1. unfold rsum. cbn [seq fold_right map]. rewrite Er. fold m q. replace (Sij X 0 0) with s by (unfold Sij; fold s; field).
        rewrite !Rplus_0_r. set (y := (q / t) ^ k). transitivity (n / v * m * y * (s / d) ^ 3 * (n / v * m * d ^ 3)); [field; lra | rewrite Rz; ring]. }
      assert (Y3 : v * f_disp X t rho = n * - (k1 * (x * serm m A0 A1 A2 x) + k2 * (x * (compm m x * serm m B0 B1 B2 x)))).
      { unfold f_disp. rewrite !Ps, Ec, Em, !Mx. unfold k1, k2. set (a := serm m A0 A1 A2 x). set (b := serm m B0 B1 B2 x). set (g := compm m x). set (w := (s / d) ^ 3). set (y := q / t). field. repeat split; lra. }
      rewrite <- Hf. rewrite Y1, Y2, Y3. unfold per_molecule, chain. fold x. apply Rminus_diag_uniq. ring.
    Qed.
    Lemma pressure_eq lu2 o v P (g1 g2 : R -> R) :
      (forall x, 0 <= x < 1 -> is_derive (fun x => x * serm m A0 A1 A2 x) x (g1 x)) ->
      (forall x, 0 <= x < 1 -> is_derive (fun x => x * (compm m x * serm m B0 B1 B2 x)) x (g2 x)) ->
      c < v -> reduced_pressure p t [n] lu2 o v P ->
      P = n / c * (c / v + (c / v) ^ 2 * (chain1 m (c / v) - k1 * g1 (c / v) - k2 * g2 (c / v))).
    Proof.
      intros G1 G2 Hv (a & r & Ea & EP). pose proof hc_pos as Pc. assert (Pv : 0 < v) by lra. destruct hms as (A & _ & _).
      destruct (setting prs bin p Hp Hph H1 t n Ht Hn Hd Hq Hass (fun _ _ => None) lu2 o) as (f & Hf & _ & _ & Dr & Sl).
      destruct (Sl v Hv) as (r' & E2 & Er). rewrite Ea in E2. apply Some_inj in E2. assert (Fin r = Fin r') as E3 by congruence. assert (r = r') as -> by congruence.
      rewrite (total1 p H1 n) in EP. set (x := c / v). assert (Hx : 0 < x < 1). { split; [apply Rdiv_lt_0_compat; auto | ]. unfold x. apply Rmult_lt_reg_r with v; auto. unfold Rdiv. rewrite Rmult_assoc, Rinv_l; lra. }
      set (a1 := chain1 m x - k1 * g1 x - k2 * g2 x).
      assert (Da : is_derive per_molecule x a1).
      { unfold per_molecule, a1. apply (is_derive_minus (fun x => chain m x - k1 * (x * serm m A0 A1 A2 x)) (fun x => k2 * (x * (compm m x * serm m B0 B1 B2 x)))).
        - apply (is_derive_minus (chain m) (fun x => k1 * (x * serm m A0 A1 A2 x))); [apply chain_d; auto; lra | ]. apply (is_derive_scal (fun x => x * serm m A0 A1 A2 x)). apply G1. lra.
        - apply (is_derive_scal (fun x => x * (compm m x * serm m B0 B1 B2 x))). apply G2. lra. }
      assert (Df : is_derive f v (n * (a1 * (- c / v ^ 2)))).
      { apply (is_derive_ext_loc (fun v => n * per_molecule (c / v))).
        - exists (mkposreal (v - c) ltac:(lra)). intros y Hy. change (Rabs (y - v) < v - c) in Hy. apply Rabs_def2 in Hy. symmetry. apply (energy_eq (fun _ _ => None) o); auto. lra.
        - apply (is_derive_scal (fun v => per_molecule (c / v))). rewrite Rmult_comm. apply (is_derive_comp per_molecule (fun v => c / v) v a1 (- c / v ^ 2)); [exact Da | ].
          auto_derive; [lra | field; lra]. }
      rewrite (is_derive_unique f v _ Df) in Er. rewrite <- EP, Er. unfold x. field. lra.
    Qed.
  End At.

  (** Above some temperature the pressure of the fluid falls strictly with the volume. *)
  Theorem C57_high_temperature : exists T1, 0 < T1 /\ forall t, T1 < t -> forall lu2 o va vb Pa Pb, close p t [n] < va < vb ->
    reduced_pressure p t [n] lu2 o va Pa -> reduced_pressure p t [n] lu2 o vb Pb -> Pb < Pa.
  Proof.
    destruct hms as (A & B & C). destruct (weak_monotone m A) as (b1 & b2 & g1 & g2 & P1 & P2 & G1 & G2 & Mono).
    set (S := 24 * m * Rabs q * b1 + 12 * m ^ 2 * q ^ 2 * b2).
    assert (S1 : 0 <= 24 * m * Rabs q * b1) by (apply Rmult_le_pos; auto; apply Rmult_le_pos; [lra | apply Rabs_pos]).
    assert (S2 : 0 <= 12 * m ^ 2 * q ^ 2 * b2). { apply Rmult_le_pos; auto. apply Rmult_le_pos; [ | apply pow2_ge_0]. apply Rmult_le_pos; [lra | apply pow2_ge_0]. }
    assert (PS : 0 <= S) by (unfold S; lra).
    exists (1 + S). split; [lra | ]. intros t Ht lu2 o va vb Pa Pb Hv Ra Rb.
    assert (Ht0 : 0 < t) by lra. pose proof (hc_pos t Ht0) as Pc.
    rewrite (pressure_eq t Ht0 lu2 o va Pa g1 g2 G1 G2 ltac:(lra) Ra), (pressure_eq t Ht0 lu2 o vb Pb g1 g2 G1 G2 ltac:(lra) Rb).
    set (c := close p t [n]) in *. apply Rmult_lt_compat_l; [apply Rdiv_lt_0_compat; auto | ].
    assert (I : forall v, c < v -> c / v < 1). { intros v Hv'. apply Rmult_lt_reg_r with v; [lra | ]. unfold Rdiv. rewrite Rmult_assoc, Rinv_l; lra. }
    apply Mono; [ | split; [apply Rdiv_lt_0_compat; lra | ] | apply I; lra].
    2:{ unfold Rdiv. apply Rmult_lt_compat_l; auto. apply Rinv_lt_contravar; [apply Rmult_lt_0_compat; lra | lra]. }
    destruct (ratio t Ht0) as [W0 W2]. set (w := (s / Di X t 0) ^ 3) in *.
    assert (It : 0 < / t < 1). { split; [apply Rinv_0_lt_compat; auto | ]. rewrite <- Rinv_1. apply Rinv_lt_contravar; lra. }
    rewrite (Rabs_right (6 * m ^ 2 * w * (q / t) ^ 2)).
    2:{ apply Rle_ge. apply Rmult_le_pos; [ | apply pow2_ge_0]. apply Rmult_le_pos; [ | lra]. apply Rmult_le_pos; [lra | apply pow2_ge_0]. }
    assert (E1 : Rabs (12 * m * w * (q / t)) = w * (12 * m * Rabs q * / t)).
    { unfold Rdiv. rewrite !Rabs_mult. rewrite (Rabs_right 12), (Rabs_right m), (Rabs_right w), (Rabs_right (/ t)) by lra. ring. }
    rewrite E1. clearbody w. clear E1.
    assert (L1 : w * (12 * m * Rabs q * / t) * b1 <= 24 * m * Rabs q * b1 * / t).
    { replace (w * (12 * m * Rabs q * / t) * b1) with (w / 2 * (24 * m * Rabs q * b1 * / t)) by lra. rewrite <- (Rmult_1_l (24 * m * Rabs q * b1 * / t)) at 2. apply Rmult_le_compat_r; [apply Rmult_le_pos; lra | lra]. }
    assert (L2 : 6 * m ^ 2 * w * (q / t) ^ 2 * b2 <= 12 * m ^ 2 * q ^ 2 * b2 * / t).
    { replace (6 * m ^ 2 * w * (q / t) ^ 2 * b2) with (w / 2 * / t * (12 * m ^ 2 * q ^ 2 * b2 * / t)) by (unfold Rdiv; set (i := / t); lra). rewrite <- (Rmult_1_l (12 * m ^ 2 * q ^ 2 * b2 * / t)) at 2. apply Rmult_le_compat_r; [apply Rmult_le_pos; lra | ].
      rewrite <- (Rmult_1_l 1). apply Rmult_le_compat; lra. }
    assert (L3 : S * / t < 1). { apply Rmult_lt_reg_r with t; auto. rewrite Rmult_assoc, Rinv_l; lra. }
    replace (S * / t) with (24 * m * Rabs q * b1 * / t + 12 * m ^ 2 * q ^ 2 * b2 * / t) in L3 by (unfold S; ring). lra.
  Qed.
  (** No phase equilibrium above that temperature. *)
  Theorem C57_supercritical : exists T1, 0 < T1 /\ forall t, T1 < t -> forall lu2 o P v1 v2, close p t [n] < v1 < v2 -> ~ coexist p t n lu2 o P v1 v2.
  Proof.
    destruct C57_high_temperature as (T1 & HT & H). exists T1. split; auto. intros t Ht lu2 o P v1 v2 Hv (R1 & R2 & _). specialize (H t Ht lu2 o v1 v2 P P Hv R1 R2). lra.
  Qed.
  (** Every positive pressure belongs to exactly one volume above that temperature. *)
  Theorem C57_one_volume : exists T1, 0 < T1 /\ forall t, T1 < t -> forall lu2 o P, 0 < P -> exists v, close p t [n] < v /\ reduced_pressure p t [n] lu2 o v P /\
    forall v', close p t [n] < v' -> reduced_pressure p t [n] lu2 o v' P -> v' = v.
  Proof.
    destruct C57_high_temperature as (T1 & HT & H). exists T1. split; auto. intros t Ht lu2 o P HP.
    destruct (C56_npt prs bin p Hp Hph t [n] ltac:(lra) (len1 p H1 n) (nn1 p H1 n Hn) (ne1 p H1 n Hn) (fun _ _ => None) lu2 o P Hd Hq Hass HP) as (f & _ & v & Hv & Rv & _).
    exists v. split; auto. split; auto. intros v' Hv' Rv'. destruct (Rtotal_order v v') as [L | [E | L]]; [ | auto | ].
    - specialize (H t Ht lu2 o v v' P P (conj Hv L) Rv Rv'). lra.
    - specialize (H t Ht lu2 o v' v P P (conj Hv' L) Rv' Rv). lra.
  Qed.
End Hot.

(** butane: an equilibrium at low, none at high temperature *)
Example C57_high_temperature_case : exists T1, 0 < T1 /\ forall t, T1 < t -> forall lu2 o P v1 v2, close but t [1] < v1 < v2 -> ~ coexist but t 1 lu2 o P v1 v2.
Proof. destruct but_none as (E1 & E2 & E3). exact (C57_supercritical _ _ _ but_ok but_phys eq_refl 1 ltac:(lra) E1 E2 E3). Qed.
Print Assumptions C57_high_temperature.
Print Assumptions C57_supercritical.
Print Assumptions C57_one_volume.
Print Assumptions C57_high_temperature_case.
