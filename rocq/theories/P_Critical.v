(** C58: every pure non-polar non-associating fluid with an attraction has a critical point: a temperature and a volume
    at which the first two derivatives of the pressure vanish, the pressure there is positive, and above that temperature
    the pressure falls strictly with the volume. *)
From Coq Require Import ZArith QArith Reals Lra Lia String List Bool Psatz.
From Coquelicot Require Import Coquelicot.
From Verif Require Import Num RNum RSum Tables M_Params F_Params M_Eos Spec F_Spec F_SpecPolar
  F_SpecAssoc F_Contrib F_Cross F_Total Samples F_Limit P_Basic P_Limit P_HighT P_Params P_Select XNum DNum F_Transfer F_Transfer2 F_Transfer3 F_Level P_Dual P_Dual2 P_Close P_Npt P_Vle P_Cold P_Hot.
Import ListNotations.
Local Open Scope R_scope.
Set Bullet Behavior "Strict Subproofs".
Notation length := List.length.

(* ------------------------------------------------------------------ n times differentiable functions on [0, 1] *)
Fixpoint diff (n : nat) (f : R -> R) : Prop :=
  match n with
  | O => forall x, 0 <= x <= 1 -> continuous f x
  | S n => exists f1, (forall x, 0 <= x <= 1 -> is_derive f x (f1 x)) /\ diff n f1
  end.
Lemma df_cont n f : diff n f -> forall x, 0 <= x <= 1 -> continuous f x.
Proof. destruct n as [ | n]; [auto | ]. intros (f1 & D & _) x Hx. exact (d_cont f x (f1 x) (D x Hx)). Qed.
Lemma df_lower n : forall f, diff (S n) f -> diff n f.
Proof.
  induction n as [ | n IH]; intros f H; [exact (df_cont 1 f H) | ]. destruct H as (f1 & D & H). exists f1. split; auto.
Qed.
Lemma df_ext n f g : (forall x, f x = g x) -> diff n f -> diff n g.
Proof.
  intros E. destruct n as [ | n].
  - intros H x Hx. apply (continuous_ext f); auto.
  - intros (f1 & D & H). exists f1. split; auto. intros x Hx. eapply is_derive_ext; [exact E | auto].
Qed.
Lemma df_const n : forall c, diff n (fun _ => c).
Proof. induction n as [ | n IH]; intros c; [intros x _; apply c_const | ]. exists (fun _ => 0). split; [intros x _; auto_derive; auto | apply IH]. Qed.
Lemma df_id n : diff n (fun x => x).
Proof. destruct n as [ | n]; [intros x _; apply continuous_id | ]. exists (fun _ => 1). split; [intros x _; auto_derive; auto | apply df_const]. Qed.
Lemma df_plus n : forall f g, diff n f -> diff n g -> diff n (fun x => f x + g x).
Proof.
  induction n as [ | n IH]; intros f g F G.
  - intros x Hx. apply c_plus; [apply F | apply G]; auto.
  - destruct F as (f1 & DF & F). destruct G as (g1 & DG & G). exists (fun x => f1 x + g1 x). split; [ | apply IH; auto].
    intros x Hx. exact (is_derive_plus f g x _ _ (DF x Hx) (DG x Hx)).
Qed.
Lemma df_mult n : forall f g, diff n f -> diff n g -> diff n (fun x => f x * g x).
Proof.
  induction n as [ | n IH]; intros f g F G.
  - intros x Hx. apply c_mult; [apply F | apply G]; auto.
  - pose proof (df_lower n f F) as LF. pose proof (df_lower n g G) as LG. destruct F as (f1 & DF & F). destruct G as (g1 & DG & G).
    exists (fun x => f1 x * g x + f x * g1 x). split.
    + intros x Hx. apply d_mult; auto.
    + apply (df_plus n (fun x => f1 x * g x) (fun x => f x * g1 x)); apply IH; auto.
Qed.
Lemma df_inv n : forall f, diff n f -> (forall x, 0 <= x <= 1 -> f x <> 0) -> diff n (fun x => / f x).
Proof.
  induction n as [ | n IH]; intros f F N.
  - intros x Hx. apply c_inv; [apply F | apply N]; auto.
  - pose proof (IH f (df_lower n f F) N) as I. destruct F as (f1 & DF & F). exists (fun x => (- 1) * (f1 x * (/ f x * / f x))). split.
    + intros x Hx. replace (- 1 * (f1 x * (/ f x * / f x))) with (- (f1 x * (/ f x * / f x))) by ring. apply d_inv; auto.
    + apply (df_mult n (fun _ => - 1) (fun x => f1 x * (/ f x * / f x))); [apply df_const | ]. apply (df_mult n f1 (fun x => / f x * / f x)); auto.
      apply (df_mult n (fun x => / f x) (fun x => / f x)); auto.
Qed.
Lemma df_minus n f g : diff n f -> diff n g -> diff n (fun x => f x - g x).
Proof.
  intros F G. apply (df_ext n (fun x => f x + (- 1) * g x)); [intros x; ring | ]. apply (df_plus n f (fun x => -1 * g x)); auto. apply (df_mult n (fun _ => -1) g); auto. apply df_const.
Qed.
Lemma df_pow n f k : diff n f -> diff n (fun x => f x ^ k).
Proof. intros H. induction k as [ | k IH]; cbn [pow]; [apply df_const | apply (df_mult n f (fun x => f x ^ k)); auto]. Qed.
Lemma df_sum n l (f : nat -> R -> R) : (forall i, diff n (f i)) -> diff n (fun x => rsum l (fun i => f i x)).
Proof. intros H. induction l as [ | a l IH]; [apply (df_const n 0) | ]. apply (df_plus n (f a) (fun x => rsum l (fun i => f i x))); auto. Qed.
Ltac df := cbv beta; lazymatch goal with
    | |- diff ?n (fun s => s) => exact (df_id n)
    | |- diff ?n (fun _ => ?c) => exact (df_const n c)
    | |- diff ?n (fun s => @?f s + @?g s) => refine (df_plus n f g _ _); df
    | |- diff ?n (fun s => @?f s - @?g s) => refine (df_minus n f g _ _); df
    | |- diff ?n (fun s => @?f s * @?g s) => refine (df_mult n f g _ _); df
    | |- diff ?n (fun s => @?f s ^ ?k) => refine (df_pow n f k _); df
    end.
(** the term eta^2 f'(eta) of the pressure, its slope and the slope of that *)
Lemma df_slopes f : diff 3 f -> exists f1 G G1, (forall x, 0 <= x <= 1 -> is_derive f x (f1 x)) /\
  (forall x, 0 <= x <= 1 -> is_derive (fun x => x ^ 2 * f1 x) x (G x)) /\ (forall x, 0 <= x <= 1 -> is_derive G x (G1 x)) /\ G 0 = 0.
Proof.
  intros (f1 & D1 & f2 & D2 & f3 & D3 & _). exists f1, (fun x => 2 * x * f1 x + x ^ 2 * f2 x), (fun x => (2 * f1 x + 2 * x * f2 x) + (2 * x * f2 x + x ^ 2 * f3 x)).
  assert (Q : forall x : R, is_derive (fun x => x ^ 2) x (2 * x)) by (intros x; auto_derive; auto; ring).
  split; [exact D1 | ]. split; [ | split; [ | cbv beta; lra]].
  - intros x Hx. apply (d_mult (fun x => x ^ 2) f1); auto.
  - intros x Hx. apply (is_derive_plus (fun x => 2 * x * f1 x) (fun x => x ^ 2 * f2 x)); [apply (d_mult (fun x => 2 * x) f1) | apply (d_mult (fun x => x ^ 2) f2)]; auto.
    auto_derive; auto. ring.
Qed.
Lemma unit_bound (g : R -> R) : (forall x, 0 <= x <= 1 -> continuous g x) -> exists b, 0 <= b /\ forall x, 0 <= x <= 1 -> Rabs (g x) <= b.
Proof.
  intros C. destruct (continuity_ab_maj (fun x => Rabs (g x)) 0 1 ltac:(lra)) as (m & Hm & _).
  { intros x Hx. apply continuity_pt_filterlim. apply (continuous_comp_R g Rabs); [apply C; auto | apply continuous_Rabs]. }
  exists (Rabs (g m)). split; [apply Rabs_pos | auto].
Qed.

(* ------------------------------------------------------------------ rational functions *)
(** polynomials of degree below n: the n-th derivative vanishes *)
Fixpoint poln (n : nat) (f : R -> R) : Prop :=
  match n with
  | O => forall x, f x = 0
  | S n => exists f1, (forall x, is_derive f x (f1 x)) /\ poln n f1
  end.
Definition poly (f : R -> R) : Prop := exists n, poln n f.
Lemma pn_ext n f g : (forall x, f x = g x) -> poln n f -> poln n g.
Proof.
  intros E. destruct n as [ | n]; [intros H x; rewrite <- E; auto | ]. intros (f1 & D & H). exists f1. split; auto. intros x. eapply is_derive_ext; [exact E | auto].
Qed.
Lemma pn_zero n : poln n (fun _ => 0).
Proof. induction n as [ | n IH]; [intros x; reflexivity | ]. exists (fun _ => 0). split; auto. intros x. auto_derive; auto. Qed.
Lemma pn_S n : forall f, poln n f -> poln (S n) f.
Proof.
  induction n as [ | n IH]; intros f H.
  - exists (fun _ => 0). split; [ | intros x; reflexivity]. intros x. apply (is_derive_ext (fun _ => 0)); [intros t; symmetry; apply H | auto_derive; auto].
  - destruct H as (f1 & D & H). exists f1. split; auto.
Qed.
Lemma pn_le n k f : (n <= k)%nat -> poln n f -> poln k f.
Proof. induction 1 as [ | k _ IH]; auto. intros H. apply pn_S. auto. Qed.
Lemma pn_plus n : forall f g, poln n f -> poln n g -> poln n (fun x => f x + g x).
Proof.
  induction n as [ | n IH]; intros f g F G.
  - intros x. rewrite F, G. ring.
  - destruct F as (f1 & DF & F). destruct G as (g1 & DG & G). exists (fun x => f1 x + g1 x). split; [ | apply IH; auto].
    intros x. exact (is_derive_plus f g x _ _ (DF x) (DG x)).
Qed.
Lemma pn_mult n k : forall f g, poln n f -> poln k g -> poln (n + k) (fun x => f x * g x).
Proof.
  revert k. induction n as [ | n IHn]; intros k.
  - intros f g F G. apply (pn_ext _ (fun _ => 0)); [intros x; rewrite F; ring | apply pn_zero].
  - induction k as [ | k IHk]; intros f g F G.
    + apply (pn_ext _ (fun _ => 0)); [intros x; rewrite G; ring | apply pn_zero].
    + pose proof F as F0. pose proof G as G0. destruct F as (f1 & DF & F). destruct G as (g1 & DG & G). exists (fun x => f1 x * g x + f x * g1 x). split.
      * intros x. apply d_mult; auto.
      * apply (pn_plus _ (fun x => f1 x * g x) (fun x => f x * g1 x)).
        -- apply IHn; auto.
        -- replace (n + S k)%nat with (S n + k)%nat by lia. apply IHk; auto.
Qed.
(** a polynomial that vanishes on an interval vanishes everywhere *)
Lemma pn_identity n : forall f a b, poln n f -> a < b -> (forall x, a < x < b -> f x = 0) -> forall x, f x = 0.
Proof.
  induction n as [ | n IH]; intros f a b F Hab Z; [exact F | ]. destruct F as (f1 & D & F).
  assert (Z1 : forall x, f1 x = 0).
  { apply (IH f1 a b F Hab). intros x Hx. rewrite <- (is_derive_unique f x _ (D x)). apply is_derive_unique. apply (is_derive_ext_loc (fun _ => 0)); [ | auto_derive; auto].
    exists (mkposreal (Rmin (x - a) (b - x)) ltac:(apply Rmin_pos; lra)). intros y Hy. change (Rabs (y - x) < Rmin (x - a) (b - x)) in Hy. pose proof (Rmin_l (x - a) (b - x)). pose proof (Rmin_r (x - a) (b - x)).
    apply Rabs_def2 in Hy. symmetry. apply Z. lra. }
  assert (Con : forall x y, x < y -> f x = f y).
  { intros x y Hxy. destruct (MVT_gen f x y f1) as (z & _ & E); [intros; auto | intros z _; apply continuity_pt_filterlim; exact (d_cont _ _ _ (D z)) | ]. rewrite Z1, Rmult_0_l in E. lra. }
  assert (E0 : f ((a + b) / 2) = 0) by (apply Z; lra).
  intros x. destruct (Rtotal_order x ((a + b) / 2)) as [L | [-> | L]]; auto; [rewrite (Con _ _ L) | rewrite <- (Con _ _ L)]; auto.
Qed.
Lemma po_const c : poly (fun _ => c).
Proof. exists 1%nat. exists (fun _ => 0). split; [intros x; auto_derive; auto | intros x; reflexivity]. Qed.
Lemma po_id : poly (fun x => x).
Proof. exists 2%nat. exists (fun _ => 1). split; [intros x; auto_derive; auto | ]. exists (fun _ => 0). split; [intros x; auto_derive; auto | intros x; reflexivity]. Qed.
Lemma po_plus f g : poly f -> poly g -> poly (fun x => f x + g x).
Proof. intros (n & F) (k & G). exists (Nat.max n k). apply pn_plus; [apply (pn_le n) | apply (pn_le k)]; auto; lia. Qed.
Lemma po_mult f g : poly f -> poly g -> poly (fun x => f x * g x).
Proof. intros (n & F) (k & G). exists (n + k)%nat. apply pn_mult; auto. Qed.
Lemma po_d f : poly f -> exists f1, poly f1 /\ forall x, is_derive f x (f1 x).
Proof. intros (n & F). destruct (pn_S n f F) as (f1 & D & H). exists f1. split; auto. exists n. exact H. Qed.
(** quotients of polynomials on (0, 1) *)
Definition ratl (f : R -> R) : Prop := exists P Q, poly P /\ poly Q /\ forall x, 0 < x < 1 -> Q x <> 0 /\ f x = P x / Q x.
Lemma ra_poly f : poly f -> ratl f.
Proof. intros H. exists f, (fun _ => 1). split; auto. split; [apply po_const | ]. intros x _. split; [lra | field]. Qed.
Lemma ra_const c : ratl (fun _ => c). Proof. apply ra_poly, po_const. Qed.
Lemma ra_id : ratl (fun x => x). Proof. apply ra_poly, po_id. Qed.
Lemma ra_plus f g : ratl f -> ratl g -> ratl (fun x => f x + g x).
Proof.
  intros (P & Q & HP & HQ & F) (P' & Q' & HP' & HQ' & G). exists (fun x => P x * Q' x + P' x * Q x), (fun x => Q x * Q' x).
  split; [apply (po_plus (fun x => P x * Q' x) (fun x => P' x * Q x)); apply po_mult; auto | ]. split; [apply po_mult; auto | ].
  intros x Hx. destruct (F x Hx) as [N E]. destruct (G x Hx) as [N' E']. split; [apply Rmult_integral_contrapositive; auto | ]. rewrite E, E'. field. auto.
Qed.
Lemma ra_mult f g : ratl f -> ratl g -> ratl (fun x => f x * g x).
Proof.
  intros (P & Q & HP & HQ & F) (P' & Q' & HP' & HQ' & G). exists (fun x => P x * P' x), (fun x => Q x * Q' x).
  split; [apply po_mult; auto | ]. split; [apply po_mult; auto | ].
  intros x Hx. destruct (F x Hx) as [N E]. destruct (G x Hx) as [N' E']. split; [apply Rmult_integral_contrapositive; auto | ]. rewrite E, E'. field. auto.
Qed.
Lemma ra_ext f g : (forall x, 0 < x < 1 -> f x = g x) -> ratl f -> ratl g.
Proof. intros E (P & Q & HP & HQ & F). exists P, Q. split; auto. split; auto. intros x Hx. rewrite <- E by auto. auto. Qed.
Lemma ra_inv f : ratl f -> (forall x, 0 < x < 1 -> f x <> 0) -> ratl (fun x => / f x).
Proof.
  intros (P & Q & HP & HQ & F) N. exists Q, P. split; auto. split; auto. intros x Hx. destruct (F x Hx) as [N1 E]. specialize (N x Hx). rewrite E in N.
  assert (P x <> 0) by (intros Z; apply N; rewrite Z; unfold Rdiv; ring). split; auto. rewrite E. field. auto.
Qed.
Lemma ra_minus f g : ratl f -> ratl g -> ratl (fun x => f x - g x).
Proof. intros F G. apply (ra_ext (fun x => f x + (-1) * g x)); [intros x _; ring | ]. apply (ra_plus f (fun x => -1 * g x)); auto. apply (ra_mult (fun _ => -1) g); auto. apply ra_const. Qed.
Lemma ra_pow f k : ratl f -> ratl (fun x => f x ^ k).
Proof. intros H. induction k as [ | k IH]; cbn [pow]; [apply ra_const | apply (ra_mult f (fun x => f x ^ k)); auto]. Qed.
Lemma ra_sum l (f : nat -> R -> R) : (forall i, ratl (f i)) -> ratl (fun x => rsum l (fun i => f i x)).
Proof. intros H. induction l as [ | a l IH]; [apply (ra_const 0) | ]. apply (ra_plus (f a) (fun x => rsum l (fun i => f i x))); auto. Qed.
Lemma ra_d f f1 : ratl f -> (forall x, 0 < x < 1 -> is_derive f x (f1 x)) -> ratl f1.
Proof.
  intros (P & Q & HP & HQ & F) D. destruct (po_d P HP) as (P1 & HP1 & DP). destruct (po_d Q HQ) as (Q1 & HQ1 & DQ).
  exists (fun x => P1 x * Q x + (-1) * (P x * Q1 x)), (fun x => Q x * Q x). split; [ | split; [apply po_mult; auto | ]].
  - apply (po_plus (fun x => P1 x * Q x) (fun x => -1 * (P x * Q1 x))); [apply po_mult; auto | ]. apply (po_mult (fun _ => -1) (fun x => P x * Q1 x)); [apply po_const | apply po_mult; auto].
  - intros x Hx. destruct (F x Hx) as [N E]. split; [apply Rmult_integral_contrapositive; auto | ]. rewrite <- (is_derive_unique f x _ (D x Hx)). apply is_derive_unique.
    apply (is_derive_ext_loc (fun x => P x * / Q x)).
    + exists (mkposreal (Rmin x (1 - x)) ltac:(apply Rmin_pos; lra)). intros y Hy. change (Rabs (y - x) < Rmin x (1 - x)) in Hy. pose proof (Rmin_l x (1 - x)). pose proof (Rmin_r x (1 - x)).
      apply Rabs_def2 in Hy. symmetry. apply F. lra.
    + replace ((P1 x * Q x + -1 * (P x * Q1 x)) / (Q x * Q x)) with (P1 x * / Q x + P x * - (Q1 x * (/ Q x * / Q x))) by (field; auto).
      apply (d_mult P (fun x => / Q x)); auto. apply d_inv; auto.
Qed.
Lemma ra_identity f a b : ratl f -> 0 <= a < b -> b <= 1 -> (forall x, a < x < b -> f x = 0) -> forall x, 0 < x < 1 -> f x = 0.
Proof.
  intros (P & Q & (n & HP) & HQ & F) Hab Hb Z x Hx. destruct (F x Hx) as [N ->]. rewrite (pn_identity n P a b HP); [unfold Rdiv; ring | lra | ].
  intros y Hy. destruct (F y ltac:(lra)) as [N' E]. rewrite Z in E by auto. apply Rmult_eq_reg_r with (/ Q y); [ | apply Rinv_neq_0_compat; auto]. rewrite Rmult_0_l. symmetry. exact E.
Qed.
Ltac ra := cbv beta; lazymatch goal with
    | |- ratl (fun s => s) => exact ra_id
    | |- ratl (fun _ => ?c) => exact (ra_const c)
    | |- ratl (fun s => @?f s + @?g s) => refine (ra_plus f g _ _); ra
    | |- ratl (fun s => @?f s - @?g s) => refine (ra_minus f g _ _); ra
    | |- ratl (fun s => @?f s * @?g s) => refine (ra_mult f g _ _); ra
    | |- ratl (fun s => @?f s ^ ?k) => refine (ra_pow f k _); ra
    end.

(* ------------------------------------------------------------------ the last temperature at which a slope vanishes *)
Lemma cont_near (f : R -> R) x : continuous f x -> forall eps, 0 < eps -> exists d, 0 < d /\ forall y, Rabs (y - x) < d -> Rabs (f y - f x) < eps.
Proof.
  intros C eps He. destruct (proj1 (filterlim_locally f (f x)) C (mkposreal eps He)) as (d & Hd). exists d. split; [apply cond_pos | ]. intros y Hy. exact (Hd y Hy).
Qed.
Section Threshold.
  Variables C G1 G2 K1 K2 : R -> R.
  Variables b1 b2 t0 T1 : R.
  Hypothesis C1 : forall x, 0 <= x < 1 -> 1 <= C x.
  Hypothesis Cc : forall x, 0 <= x < 1 -> continuous C x.
  Hypothesis Ci : forall K, exists h, 0 < h < 1 /\ forall x, h < x < 1 -> K < C x.
  Hypothesis HB1 : 0 <= b1. Hypothesis HB2 : 0 <= b2.
  Hypothesis B1 : forall x, 0 <= x <= 1 -> Rabs (G1 x) <= b1.
  Hypothesis B2 : forall x, 0 <= x <= 1 -> Rabs (G2 x) <= b2.
  Hypothesis Gc1 : forall x, 0 <= x <= 1 -> continuous G1 x.
  Hypothesis Gc2 : forall x, 0 <= x <= 1 -> continuous G2 x.
  Hypothesis Z1 : G1 0 = 0. Hypothesis Z2 : G2 0 = 0.
  Hypothesis Kc1 : forall t, 0 < t -> continuous K1 t.
  Hypothesis Kc2 : forall t, 0 < t -> continuous K2 t.
  Definition slope_at (x t : R) : R := C x - K1 t * G1 x - K2 t * G2 x.
  Definition flat_at (t : R) : Prop := exists x, 0 < x < 1 /\ slope_at x t < 0.
  Hypothesis Ht0 : 0 < t0.
  Hypothesis U0 : flat_at t0.
  Hypothesis U1 : forall t, T1 < t -> ~ flat_at t.

  Lemma slope_close x t t' : 0 <= x <= 1 -> Rabs (slope_at x t - slope_at x t') <= Rabs (K1 t - K1 t') * b1 + Rabs (K2 t - K2 t') * b2.
  Proof.
    intros Hx. unfold slope_at. replace (C x - K1 t * G1 x - K2 t * G2 x - (C x - K1 t' * G1 x - K2 t' * G2 x)) with (- ((K1 t - K1 t') * G1 x) + - ((K2 t - K2 t') * G2 x)) by ring.
    eapply Rle_trans; [apply Rabs_triang | ]. rewrite !Rabs_Ropp, !Rabs_mult. apply Rplus_le_compat; apply Rmult_le_compat_l; auto using Rabs_pos.
  Qed.
  (** no zero near 0, uniformly for bounded strengths *)
  Lemma slope_small k1 k2 : 0 <= k1 -> 0 <= k2 -> exists l, 0 < l < 1 / 2 /\ forall x t, 0 <= x <= l -> Rabs (K1 t) <= k1 -> Rabs (K2 t) <= k2 -> 0 < slope_at x t.
  Proof.
    intros P1 P2. destruct (cont_near G1 0 (Gc1 0 ltac:(lra)) (/ (3 * (k1 + 1))) ltac:(apply Rinv_0_lt_compat; lra)) as (d1 & D1 & E1).
    destruct (cont_near G2 0 (Gc2 0 ltac:(lra)) (/ (3 * (k2 + 1))) ltac:(apply Rinv_0_lt_compat; lra)) as (d2 & D2 & E2).
    set (l := Rmin (1 / 4) (Rmin d1 d2 / 2)). assert (L1 : l <= 1 / 4) by apply Rmin_l. assert (L2 : l <= Rmin d1 d2 / 2) by apply Rmin_r.
    assert (L3 : 0 < Rmin d1 d2) by (apply Rmin_pos; auto). assert (L4 : Rmin d1 d2 <= d1) by apply Rmin_l. assert (L5 : Rmin d1 d2 <= d2) by apply Rmin_r.
    assert (L0 : 0 < l) by (unfold l; apply Rmin_pos; lra). exists l. split; [lra | ]. intros x t Hx A1 A2.
    assert (Hr : Rabs (x - 0) <= l) by (rewrite Rminus_0_r, Rabs_right; lra).
    specialize (E1 x ltac:(lra)). specialize (E2 x ltac:(lra)). rewrite Z1, Rminus_0_r in E1. rewrite Z2, Rminus_0_r in E2.
    assert (F : forall k K g, 0 <= k -> Rabs K <= k -> Rabs g < / (3 * (k + 1)) -> K * g <= 1 / 3).
    { intros k K g Hk HK Hg. eapply Rle_trans; [apply Rle_abs | ]. rewrite Rabs_mult. apply Rle_trans with ((k + 1) * / (3 * (k + 1))); [apply Rmult_le_compat; auto using Rabs_pos; lra | right; field; lra]. }
    pose proof (F k1 (K1 t) (G1 x) P1 A1 E1). pose proof (F k2 (K2 t) (G2 x) P2 A2 E2). pose proof (C1 x ltac:(lra)). unfold slope_at. lra.
  Qed.
  Lemma slope_cont x t : 0 < t -> continuous (fun t => slope_at x t) t.
  Proof. intros Ht. pose proof (Kc1 t Ht). pose proof (Kc2 t Ht). unfold slope_at. cont. Qed.

  Lemma threshold : exists Tc, t0 <= Tc /\ (forall t x, Tc <= t -> 0 < x < 1 -> 0 <= slope_at x t) /\
    (forall eps, 0 < eps -> exists t, Tc - eps < t < Tc /\ 0 < t /\ flat_at t) /\ (exists x, 0 < x < 1 /\ slope_at x Tc = 0) /\
    exists l, 0 < l < 1 /\ forall x, 0 <= x <= l -> 0 < slope_at x Tc.
  Proof.
    destruct (completeness flat_at) as (Tc & UB & LUB).
    { exists T1. intros t Hu. destruct (Rle_or_lt t T1) as [L | L]; auto. destruct (U1 t L Hu). }
    { exists t0. exact U0. }
    assert (L0 : t0 <= Tc) by (apply UB; exact U0). exists Tc. split; auto. assert (PT : 0 < Tc) by lra.
    assert (Above : forall t x, Tc < t -> 0 < x < 1 -> 0 <= slope_at x t).
    { intros t x Ht Hx. destruct (Rle_or_lt 0 (slope_at x t)) as [L | L]; auto. assert (flat_at t) as Hu by (exists x; auto). specialize (UB t Hu). lra. }
    assert (At : forall x, 0 < x < 1 -> 0 <= slope_at x Tc).
    { intros x Hx. destruct (Rle_or_lt 0 (slope_at x Tc)) as [L | L]; auto. destruct (cont_near _ Tc (slope_cont x Tc PT) (- slope_at x Tc) ltac:(lra)) as (d & Hd & N).
      specialize (N (Tc + d / 2) ltac:(rewrite Rabs_right; lra)). apply Rabs_def2 in N. specialize (Above (Tc + d / 2) x ltac:(lra) Hx). lra. }
    split. { intros t x [Ht | <-] Hx; auto. }
    split.
    { intros eps He. destruct (Classical_Prop.classic (exists t, Tc - eps < t < Tc /\ 0 < t /\ flat_at t)) as [E | N]; auto. exfalso.
      assert (is_upper_bound flat_at (Rmax (Tc - eps) 0)) as U2.
      { intros t Ht. destruct (Rle_or_lt t (Rmax (Tc - eps) 0)) as [L | L]; auto. exfalso. apply N. exists t. pose proof (Rmax_l (Tc - eps) 0). pose proof (Rmax_r (Tc - eps) 0).
        split; [ | split; [lra | auto]]. split; [lra | ]. destruct (UB t Ht) as [L2 | ->]; auto. destruct Ht as (x & Hx & Hs). specialize (At x Hx). lra. }
      specialize (LUB _ U2). unfold Rmax in LUB. destruct (Rle_dec (Tc - eps) 0); lra. }
    set (k1 := Rabs (K1 Tc) + 1). set (k2 := Rabs (K2 Tc) + 1). assert (P1 : 0 <= k1) by (pose proof (Rabs_pos (K1 Tc)); unfold k1; lra). assert (P2 : 0 <= k2) by (pose proof (Rabs_pos (K2 Tc)); unfold k2; lra).
    destruct (slope_small k1 k2 P1 P2) as (l & Hl & Sl). split.
    2:{ exists l. split; [lra | ]. intros x Hx. apply Sl; auto; unfold k1, k2; lra. }
    destruct (Ci (k1 * b1 + k2 * b2)) as (h0 & Hh0 & Sh). set (h := Rmax h0 (1 / 2)). assert (H1 : h0 <= h) by apply Rmax_l. assert (H2 : 1 / 2 <= h) by apply Rmax_r.
    assert (H3 : h < 1) by (unfold h; apply Rmax_lub_lt; lra).
    destruct (continuity_ab_min (fun x => slope_at x Tc) l h ltac:(lra)) as (xm & Mn & Hxm).
    { intros x Hx. apply continuity_pt_filterlim. pose proof (Cc x ltac:(lra)). pose proof (Gc1 x ltac:(lra)). pose proof (Gc2 x ltac:(lra)). change (continuous (fun x => slope_at x Tc) x). unfold slope_at. cont. }
    destruct (Rle_lt_or_eq_dec 0 (slope_at xm Tc) (At xm ltac:(lra))) as [Pos | E]; [ | exists xm; split; [lra | auto]].
    exfalso. set (s := slope_at xm Tc) in *.
    set (e1 := Rmin 1 (s / (3 * (b1 + 1)))). set (e2 := Rmin 1 (s / (3 * (b2 + 1)))).
    assert (Q1 : 0 < s / (3 * (b1 + 1))) by (apply Rdiv_lt_0_compat; lra). assert (Q2 : 0 < s / (3 * (b2 + 1))) by (apply Rdiv_lt_0_compat; lra).
    destruct (cont_near K1 Tc (Kc1 Tc PT) e1 ltac:(unfold e1; apply Rmin_pos; lra)) as (d1 & D1 & N1). destruct (cont_near K2 Tc (Kc2 Tc PT) e2 ltac:(unfold e2; apply Rmin_pos; lra)) as (d2 & D2 & N2).
    set (d := Rmin d1 d2). assert (Pd : 0 < d) by (unfold d; apply Rmin_pos; auto). assert (M1 : d <= d1) by apply Rmin_l. assert (M2 : d <= d2) by apply Rmin_r.
    assert (is_upper_bound flat_at (Tc - d / 2)) as UB2; [ | specialize (LUB _ UB2); lra].
    intros t (x & Hx & Neg). destruct (Rle_or_lt t (Tc - d / 2)) as [L | L]; auto. exfalso. assert (t <= Tc) as Lt by (apply UB; exists x; auto).
    assert (Nr : Rabs (t - Tc) < d) by (apply Rabs_def1; lra). specialize (N1 t ltac:(lra)). specialize (N2 t ltac:(lra)).
    assert (E11 : e1 <= 1) by apply Rmin_l. assert (E12 : e1 <= s / (3 * (b1 + 1))) by apply Rmin_r. assert (E21 : e2 <= 1) by apply Rmin_l. assert (E22 : e2 <= s / (3 * (b2 + 1))) by apply Rmin_r.
    assert (A1 : Rabs (K1 t) <= k1). { unfold k1. replace (K1 t) with ((K1 t - K1 Tc) + K1 Tc) by ring. pose proof (Rabs_triang (K1 t - K1 Tc) (K1 Tc)). lra. }
    assert (A2 : Rabs (K2 t) <= k2). { unfold k2. replace (K2 t) with ((K2 t - K2 Tc) + K2 Tc) by ring. pose proof (Rabs_triang (K2 t - K2 Tc) (K2 Tc)). lra. }
    destruct (Rle_or_lt x l) as [X1 | X1]; [specialize (Sl x t ltac:(lra) A1 A2); lra | ]. destruct (Rle_or_lt x h) as [X2 | X2].
    - specialize (Mn x ltac:(lra)). fold s in Mn. pose proof (slope_close x t Tc ltac:(lra)) as Cl.
      assert (F : forall b a, 0 <= b -> 0 <= a -> a <= s / (3 * (b + 1)) -> a * b <= s / 3).
      { intros b a Hb Ha Hab. apply Rle_trans with (s / (3 * (b + 1)) * (b + 1)); [apply Rmult_le_compat; lra | right; field; lra]. }
      pose proof (F b1 (Rabs (K1 t - K1 Tc)) HB1 (Rabs_pos _) ltac:(lra)). pose proof (F b2 (Rabs (K2 t - K2 Tc)) HB2 (Rabs_pos _) ltac:(lra)).
      assert (Rabs (slope_at x t - slope_at x Tc) < s) as Cl2 by lra. apply Rabs_def2 in Cl2. lra.
    - specialize (Sh x ltac:(lra)). assert (F : forall k K g b, Rabs K <= k -> 0 <= k -> Rabs g <= b -> K * g <= k * b).
      { intros k K g b HK Hk Hg. eapply Rle_trans; [apply Rle_abs | ]. rewrite Rabs_mult. apply Rmult_le_compat; auto using Rabs_pos. }
      pose proof (F k1 (K1 t) (G1 x) b1 A1 P1 (B1 x ltac:(lra))). pose proof (F k2 (K2 t) (G2 x) b2 A2 P2 (B2 x ltac:(lra))). unfold slope_at in Neg. lra.
  Qed.
End Threshold.

(* ------------------------------------------------------------------ the pure fluid *)
Section Functions.
  Variable m : R.
  Hypothesis Hm : 0 < m.
  Lemma df_serm n c0 c1 c2 : diff n (serm m c0 c1 c2).
  Proof. unfold serm. apply (df_sum n _ (fun i x => cfm m c0 c1 c2 i * x ^ i)). intros i. df. Qed.
  Lemma df_first n : diff n (fun x => x * serm m A0 A1 A2 x).
  Proof. apply (df_mult n (fun x => x) (serm m A0 A1 A2)); [apply df_id | apply df_serm]. Qed.
  Lemma df_second n : diff n (fun x => x * (compm m x * serm m B0 B1 B2 x)).
  Proof.
    assert (Sd : diff n (denom m)) by (unfold denom; df). assert (Si : diff n (fun x => / denom m x)) by (apply df_inv; [exact Sd | exact (denom_pos m Hm)]).
    apply (df_mult n (fun x => x) (fun x => compm m x * serm m B0 B1 B2 x)); [apply df_id | ]. apply (df_mult n (compm m) (serm m B0 B1 B2)); [ | apply df_serm].
    unfold compm. apply (df_mult n (fun x => (1 - x) ^ 4 * (2 - x) ^ 2) (fun x => / denom m x)); auto. df.
  Qed.
  Lemma inv_comp_d x : 0 <= x < 1 -> exists l, is_derive (inv_compressibility m) x l.
  Proof.
    intros Hx. assert (ex_derive (inv_compressibility m) x) as (l & D); [ | exists l; exact D]. unfold inv_compressibility. auto_derive.
    assert (P1 : 0 < (1 + - x) * ((1 + - x) * ((1 + - x) * ((1 + - x) * 1)))) by (assert (0 < 1 + - x) by lra; assert (0 < (1 + - x) * ((1 + - x) * 1)) by (apply Rmult_lt_0_compat; lra); repeat (apply Rmult_lt_0_compat; [lra | ]); lra).
    assert (P2 : 0 < (1 + - x) * (2 + - x)) by (apply Rmult_lt_0_compat; lra). assert (P3 : 0 < (1 + - x) * (2 + - x) * ((1 + - x) * (2 + - x) * 1)) by (apply Rmult_lt_0_compat; lra).
    repeat split; auto; lra.
  Qed.
  Lemma inv_comp_inf K : exists h, 0 < h < 1 /\ forall x, h < x < 1 -> K < inv_compressibility m x.
  Proof.
    assert (Cd : continuous (denom m) 1) by (apply (df_cont 0); [unfold denom; df | lra]).
    destruct (cont_near (denom m) 1 Cd (3 * m) ltac:(lra)) as (d & Hd & N).
    assert (E1 : denom m 1 = 6 * m) by (unfold denom; ring).
    set (k := Rabs K + 1). assert (Pk : 0 < k) by (pose proof (Rabs_pos K); unfold k; lra).
    set (r := Rmin (1 / 2) (Rmin (d / 2) (3 * m / (4 * k)))). assert (Q : 0 < 3 * m / (4 * k)) by (apply Rdiv_lt_0_compat; lra).
    assert (R0 : 0 < r) by (unfold r; repeat apply Rmin_pos; lra). assert (R1 : r <= 1 / 2) by apply Rmin_l. assert (R2 : r <= d / 2) by (eapply Rle_trans; [apply Rmin_r | apply Rmin_l]).
    assert (R3 : r <= 3 * m / (4 * k)) by (eapply Rle_trans; [apply Rmin_r | apply Rmin_r]).
    exists (1 - r). split; [lra | ]. intros x Hx. specialize (N x ltac:(apply Rabs_def1; lra)). rewrite E1 in N. apply Rabs_def2 in N.
    rewrite (denom_eq m x) in N by lra. set (I := inv_compressibility m x) in *. set (y := 1 - x). assert (Hy : 0 < y < r) by (unfold y; lra).
    replace ((1 - x) ^ 4 * (2 - x) ^ 2) with (y ^ 4 * (1 + y) ^ 2) in N by (unfold y; ring).
    assert (PI1 : 1 <= I) by (apply inv_compressibility_ge1; lra). clearbody I y.
    assert (L : y ^ 4 * (1 + y) ^ 2 <= 4 * y).
    { assert (0 <= y ^ 3 <= 1) by (split; [apply pow_le; lra | assert (y ^ 2 <= 1) by nra; assert (0 <= y ^ 2) by nra; nra]). assert ((1 + y) ^ 2 <= 4) by nra. assert (0 <= (1 + y) ^ 2) by nra.
      replace (y ^ 4 * (1 + y) ^ 2) with (y * (y ^ 3 * (1 + y) ^ 2)) by ring. assert (y ^ 3 * (1 + y) ^ 2 <= 1 * 4) by (apply Rmult_le_compat; lra). rewrite (Rmult_comm 4). apply Rmult_le_compat_l; lra. }
    assert (L2 : 3 * m < 4 * y * I). { apply Rlt_le_trans with (y ^ 4 * (1 + y) ^ 2 * I); [lra | apply Rmult_le_compat_r; lra]. }
    assert (L3 : 4 * y * k < 3 * m). { apply Rlt_le_trans with (4 * (3 * m / (4 * k)) * k); [apply Rmult_lt_compat_r; lra | right; field; lra]. }
    assert (k < I). { apply Rmult_lt_reg_l with (4 * y); lra. } pose proof (Rle_abs K). unfold k in *. lra.
  Qed.
  Lemma ra_serm c0 c1 c2 : ratl (serm m c0 c1 c2).
  Proof. unfold serm. apply (ra_sum _ (fun i x => cfm m c0 c1 c2 i * x ^ i)). intros i. ra. Qed.
  Lemma ra_denom : ratl (denom m). Proof. unfold denom. ra. Qed.
  Lemma ra_first : ratl (fun x => x * serm m A0 A1 A2 x).
  Proof. apply (ra_mult (fun x => x) (serm m A0 A1 A2)); [apply ra_id | apply ra_serm]. Qed.
  Lemma ra_second : ratl (fun x => x * (compm m x * serm m B0 B1 B2 x)).
  Proof.
    assert (Si : ratl (fun x => / denom m x)) by (apply ra_inv; [apply ra_denom | intros x Hx; apply (denom_pos m Hm); lra]).
    apply (ra_mult (fun x => x) (fun x => compm m x * serm m B0 B1 B2 x)); [apply ra_id | ]. apply (ra_mult (compm m) (serm m B0 B1 B2)); [ | apply ra_serm].
    unfold compm. apply (ra_mult (fun x => (1 - x) ^ 4 * (2 - x) ^ 2) (fun x => / denom m x)); auto. ra.
  Qed.
  Lemma ra_inv_comp : ratl (inv_compressibility m).
  Proof.
    apply (ra_ext (fun x => denom m x * / ((1 - x) ^ 4 * (2 - x) ^ 2))).
    - intros x Hx. rewrite denom_eq by lra. field. split; lra.
    - apply (ra_mult (denom m) (fun x => / ((1 - x) ^ 4 * (2 - x) ^ 2))); [apply ra_denom | ]. apply (ra_inv (fun x => (1 - x) ^ 4 * (2 - x) ^ 2)); [ra | ].
      intros x Hx. apply Rmult_integral_contrapositive. split; apply pow_nonzero; lra.
  Qed.
End Functions.

Section Critical.
  Variables (prs : list (pure_record RNum)) (bin : list (list R)) (p : params RNum).
  Hypothesis Hp : from_records prs bin = Some p.
  Hypothesis Hph : phys p.
  Hypothesis H1 : length (p_m p) = 1%nat.
  Variable n : R.
  Hypothesis Hn : 0 < n.
  Hypothesis Hd : p_ndipole p = 0%nat.
  Hypothesis Hq : p_nquadpole p = 0%nat.
  Hypothesis Hass : p_nassoc p = 0%nat.
  Let X := mix_of p.
  Let m := M X 0. Let s := Sg X 0. Let e := Ep X 0. Let q := Eij X 0 0.
  (** the fluid has an attraction *)
  Hypothesis Hk : Kij X 0 0 <> 1.
  Definition str1 (t : R) : R := 12 * m * (s / Di X t 0) ^ 3 * (q / t).
  Definition str2 (t : R) : R := 6 * m ^ 2 * (s / Di X t 0) ^ 3 * (q / t) ^ 2.
  Lemma Di_d t : 0 < t -> ex_derive (fun t => Di X t 0) t.
  Proof. intros Ht. unfold Di. auto_derive. lra. Qed.
  Lemma ratio_d t : 0 < t -> continuous (fun t => (s / Di X t 0) ^ 3) t.
  Proof.
    intros Ht. pose proof (d_range p Hph H1 Hd Hq Hass t Ht) as [L U]. destruct (hms p Hph H1 Hd Hq Hass) as (A & B & C). fold X s in L.
    pose proof (ex_derive_continuous _ _ (Di_d t Ht)) as Cd. assert (Ci : continuous (fun t => / Di X t 0) t) by (apply (c_inv (fun t => Di X t 0)); [exact Cd | apply Rgt_not_eq; fold X s in B; lra]).
    pose (i := fun t => / Di X t 0). change (continuous i t) in Ci. change (continuous (fun t => (s * i t) ^ 3) t). clearbody i. cont.
  Qed.
  Lemma inv_t_c t : 0 < t -> continuous (fun t => / t) t. Proof. intros Ht. apply (c_inv (fun t => t)); [apply continuous_id | lra]. Qed.
  Lemma str1_c t : 0 < t -> continuous str1 t.
  Proof. intros Ht. pose proof (ratio_d t Ht) as A. pose proof (inv_t_c t Ht) as B. unfold str1, Rdiv at 2. pose (f := fun t => (s / Di X t 0) ^ 3). change (continuous f t) in A. pose (i := fun t : R => / t). change (continuous i t) in B. change (continuous (fun t => 12 * m * f t * (q * i t)) t). clearbody f i. cont. Qed.
  Lemma str2_c t : 0 < t -> continuous str2 t.
  Proof. intros Ht. pose proof (ratio_d t Ht) as A. pose proof (inv_t_c t Ht) as B. unfold str2, Rdiv at 2. pose (f := fun t => (s / Di X t 0) ^ 3). change (continuous f t) in A. pose (i := fun t : R => / t). change (continuous i t) in B. change (continuous (fun t => 6 * m ^ 2 * f t * (q * i t) ^ 2) t). clearbody f i. cont. Qed.

  Section Curve.
    Variables g1 g2 G1 G2 G1' G2' : R -> R.
    Hypothesis D1 : forall x, 0 <= x <= 1 -> is_derive (fun x => x * serm m A0 A1 A2 x) x (g1 x).
    Hypothesis D2 : forall x, 0 <= x <= 1 -> is_derive (fun x => x * (compm m x * serm m B0 B1 B2 x)) x (g2 x).
    Hypothesis DD1 : forall x, 0 <= x <= 1 -> is_derive (fun x => x ^ 2 * g1 x) x (G1 x).
    Hypothesis DD2 : forall x, 0 <= x <= 1 -> is_derive (fun x => x ^ 2 * g2 x) x (G2 x).
    Hypothesis DDD1 : forall x, 0 <= x <= 1 -> is_derive G1 x (G1' x).
    Hypothesis DDD2 : forall x, 0 <= x <= 1 -> is_derive G2 x (G2' x).
    Hypothesis Z1 : G1 0 = 0. Hypothesis Z2 : G2 0 = 0.
    (** pressure and its slope in terms of the packing fraction *)
    Definition curve (t x : R) : R := x + x ^ 2 * (chain1 m x - str1 t * g1 x - str2 t * g2 x).
    Definition sl (x t : R) : R := slope_at (inv_compressibility m) G1 G2 str1 str2 x t.
    Lemma curve_d t x : 0 <= x < 1 -> is_derive (curve t) x (sl x t).
    Proof.
      intros Hx. destruct (hms p Hph H1 Hd Hq Hass) as (A & _ & _). apply (is_derive_ext (fun x => (x + x ^ 2 * chain1 m x) - str1 t * (x ^ 2 * g1 x) - str2 t * (x ^ 2 * g2 x))).
      { intros w. unfold curve. change (AbsRing.sort R_AbsRing) with R in *. apply Rminus_diag_uniq. ring. }
      unfold sl, slope_at. apply (is_derive_minus (fun x => (x + x ^ 2 * chain1 m x) - str1 t * (x ^ 2 * g1 x)) (fun x => str2 t * (x ^ 2 * g2 x))).
      - apply (is_derive_minus (fun x => x + x ^ 2 * chain1 m x) (fun x => str1 t * (x ^ 2 * g1 x))); [apply chain_pressure; auto | ]. apply (is_derive_scal (fun x => x ^ 2 * g1 x)). apply DD1. lra.
      - apply (is_derive_scal (fun x => x ^ 2 * g2 x)). apply DD2. lra.
    Qed.
    Lemma sl_d t x : 0 <= x < 1 -> exists l, is_derive (fun x => sl x t) x l.
    Proof.
      intros Hx. destruct (inv_comp_d m x Hx) as (l & D). exists (l - str1 t * G1' x - str2 t * G2' x).
      unfold sl, slope_at. apply (is_derive_minus (fun x => inv_compressibility m x - str1 t * G1 x) (fun x => str2 t * G2 x)).
      - apply (is_derive_minus (inv_compressibility m) (fun x => str1 t * G1 x)); auto. apply (is_derive_scal G1). apply DDD1. lra.
      - apply (is_derive_scal G2). apply DDD2. lra.
    Qed.
    Definition press (t v : R) : R := n / close p t [n] * curve t (close p t [n] / v).
    Lemma press_ok t lu2 o v : 0 < t -> close p t [n] < v -> reduced_pressure p t [n] lu2 o v (press t v).
    Proof.
      intros Ht Hv. destruct (setting prs bin p Hp Hph H1 t n Ht Hn Hd Hq Hass (fun _ _ => None) lu2 o) as (f & Hf & _ & _ & Dr & Sl).
      destruct (Sl v Hv) as (r & E2 & Er). assert (R1 : reduced_pressure p t [n] lu2 o v (n / v - r)) by (exists (f v), r; split; [exact E2 | rewrite (total1 p H1 n); reflexivity]).
      pose proof (pressure_eq prs bin p Hp Hph H1 n Hn Hd Hq Hass t Ht lu2 o v _ g1 g2 ltac:(intros; apply D1; lra) ltac:(intros; apply D2; lra) Hv R1) as E.
      rewrite E in R1. exact R1.
    Qed.
    Lemma press_unique t lu2 o v P : 0 < t -> close p t [n] < v -> reduced_pressure p t [n] lu2 o v P -> P = press t v.
    Proof. intros Ht Hv R1. exact (pressure_eq prs bin p Hp Hph H1 n Hn Hd Hq Hass t Ht lu2 o v _ g1 g2 ltac:(intros; apply D1; lra) ltac:(intros; apply D2; lra) Hv R1). Qed.
    Lemma pack_range t v : 0 < t -> close p t [n] < v -> 0 < close p t [n] / v < 1.
    Proof.
      intros Ht Hv. pose proof (hc_pos p Hph H1 n Hn t Ht) as Pc. split; [apply Rdiv_lt_0_compat; lra | ]. apply Rmult_lt_reg_r with v; [lra | ]. unfold Rdiv. rewrite Rmult_assoc, Rinv_l; lra.
    Qed.
    Lemma press_d t v : 0 < t -> close p t [n] < v -> is_derive (press t) v (- (n / v ^ 2) * sl (close p t [n] / v) t).
    Proof.
      intros Ht Hv. pose proof (hc_pos p Hph H1 n Hn t Ht) as Pc. pose proof (pack_range t v Ht Hv) as Hx. unfold press. set (c := close p t [n]) in *. set (S := sl (c / v) t).
      replace (- (n / v ^ 2) * S) with (n / c * (- c / v ^ 2 * S)) by (field; lra).
      apply (is_derive_scal (fun v => curve t (c / v))). apply (is_derive_comp (curve t) (fun v => c / v) v S (- c / v ^ 2)); [apply curve_d; lra | ]. auto_derive; [lra | field; lra].
    Qed.
    Lemma press_d2 t v : 0 < t -> close p t [n] < v -> sl (close p t [n] / v) t = 0 -> is_derive (fun x => sl x t) (close p t [n] / v) 0 -> is_derive_n (press t) 2 v 0.
    Proof.
      intros Ht Hv E0 E1. pose proof (hc_pos p Hph H1 n Hn t Ht) as Pc. set (c := close p t [n]) in *. change (is_derive (Derive_n (press t) 1) v 0).
      apply (is_derive_ext_loc (fun v => - (n / v ^ 2) * sl (c / v) t)).
      - exists (mkposreal (v - c) ltac:(lra)). intros y Hy. change (Rabs (y - v) < v - c) in Hy. apply Rabs_def2 in Hy. symmetry. cbn [Derive_n]. apply is_derive_unique. apply press_d; auto. fold c. lra.
      - assert (A : is_derive (fun v => - (n / v ^ 2)) v (2 * n / v ^ 3)) by (auto_derive; [assert (0 < v * (v * 1)) by (apply Rmult_lt_0_compat; lra); lra | field; lra]).
        assert (B : is_derive (fun v => sl (c / v) t) v (- c / v ^ 2 * 0)).
        { apply (is_derive_comp (fun x => sl x t) (fun v => c / v) v 0 (- c / v ^ 2)); [exact E1 | ]. auto_derive; [lra | field; lra]. }
        pose proof (d_mult (fun v => - (n / v ^ 2)) (fun v => sl (c / v) t) v _ _ A B) as Dm. cbv beta in Dm. rewrite E0 in Dm.
        replace (2 * n / v ^ 3 * 0 + - (n / v ^ 2) * (- c / v ^ 2 * 0)) with 0 in Dm by ring. exact Dm.
    Qed.
    (** where the slope is never negative the pressure rises strictly: it is a rational function, hence not constant on an interval *)
    Lemma sl_not_flat t a b : 0 <= a < b -> b <= 1 -> ~ (forall x, a < x < b -> sl x t = 0).
    Proof.
      intros Hab Hb Z. destruct (hms p Hph H1 Hd Hq Hass) as (A & _ & _).
      assert (Q1 : ratl (fun x => x ^ 2 * g1 x)). { apply (ra_mult (fun x => x ^ 2) g1); [ra | ]. apply (ra_d (fun x => x * serm m A0 A1 A2 x)); [apply ra_first | intros; apply D1; lra]. }
      assert (Q2 : ratl (fun x => x ^ 2 * g2 x)). { apply (ra_mult (fun x => x ^ 2) g2); [ra | ]. apply (ra_d (fun x => x * (compm m x * serm m B0 B1 B2 x))); [exact (ra_second m A) | intros; apply D2; lra]. }
      assert (Q3 : ratl G1) by (apply (ra_d (fun x => x ^ 2 * g1 x)); [exact Q1 | intros; apply DD1; lra]).
      assert (Q4 : ratl G2) by (apply (ra_d (fun x => x ^ 2 * g2 x)); [exact Q2 | intros; apply DD2; lra]).
      assert (Q : ratl (fun x => sl x t)).
      { unfold sl, slope_at. apply (ra_minus (fun x => inv_compressibility m x - str1 t * G1 x) (fun x => str2 t * G2 x)); [ | apply (ra_mult (fun _ => str2 t) G2); auto; apply ra_const].
        apply (ra_minus (inv_compressibility m) (fun x => str1 t * G1 x)); [exact (ra_inv_comp m) | apply (ra_mult (fun _ => str1 t) G1); auto; apply ra_const]. }
      pose proof (ra_identity _ a b Q Hab Hb Z) as Zero.
      destruct (slope_small (inv_compressibility m) G1 G2 str1 str2 ltac:(intros x Hx; apply inv_compressibility_ge1; auto) ltac:(intros x Hx; exact (d_cont _ _ _ (DDD1 x Hx))) ltac:(intros x Hx; exact (d_cont _ _ _ (DDD2 x Hx))) Z1 Z2
        (Rabs (str1 t)) (Rabs (str2 t)) (Rabs_pos _) (Rabs_pos _)) as (l & Hl & Pos).
      specialize (Pos l t ltac:(lra) (Rle_refl _) (Rle_refl _)). specialize (Zero l ltac:(lra)). unfold sl in Zero. lra.
    Qed.
    Lemma curve_le t x y : (forall z, 0 < z < 1 -> 0 <= sl z t) -> 0 < x <= y -> y < 1 -> curve t x <= curve t y.
    Proof.
      intros Hs Hxy Hy. destruct (MVT_gen (curve t) x y (fun z => sl z t)) as (z & Hz & E).
      { intros z Hz. rewrite Rmin_left, Rmax_right in Hz by lra. apply curve_d. lra. }
      { intros z Hz. rewrite Rmin_left, Rmax_right in Hz by lra. apply continuity_pt_filterlim. exact (d_cont _ _ _ (curve_d t z ltac:(lra))). }
      rewrite Rmin_left, Rmax_right in Hz by lra. assert (0 <= sl z t * (y - x)) by (apply Rmult_le_pos; [apply Hs | ]; lra). lra.
    Qed.
    Lemma curve_incr t x y : (forall z, 0 < z < 1 -> 0 <= sl z t) -> 0 < x < y -> y < 1 -> curve t x < curve t y.
    Proof.
      intros Hs Hxy Hy. destruct (Rle_lt_or_eq_dec _ _ (curve_le t x y Hs ltac:(lra) Hy)) as [L | E]; auto. exfalso.
      apply (sl_not_flat t x y); [lra | lra | ]. intros z Hz. rewrite <- (is_derive_unique _ _ _ (curve_d t z ltac:(lra))). apply is_derive_unique.
      apply (is_derive_ext_loc (fun _ => curve t x)); [ | auto_derive; auto].
      exists (mkposreal (Rmin (z - x) (y - z)) ltac:(apply Rmin_pos; lra)). intros w Hw. change (Rabs (w - z) < Rmin (z - x) (y - z)) in Hw. pose proof (Rmin_l (z - x) (y - z)). pose proof (Rmin_r (z - x) (y - z)).
      apply Rabs_def2 in Hw. pose proof (curve_le t x w Hs ltac:(lra) ltac:(lra)). pose proof (curve_le t w y Hs ltac:(lra) ltac:(lra)). apply Rle_antisym; lra.
    Qed.
    Lemma falls t va vb : 0 < t -> (forall z, 0 < z < 1 -> 0 <= sl z t) -> close p t [n] < va < vb -> press t vb < press t va.
    Proof.
      intros Ht Hs Hv. pose proof (hc_pos p Hph H1 n Hn t Ht) as Pc. unfold press. apply Rmult_lt_compat_l; [apply Rdiv_lt_0_compat; auto | ].
      pose proof (pack_range t va Ht ltac:(lra)). pose proof (pack_range t vb Ht ltac:(lra)). apply curve_incr; auto; [ | lra]. split; [lra | ].
      unfold Rdiv. apply Rmult_lt_compat_l; auto. apply Rinv_lt_contravar; [apply Rmult_lt_0_compat; lra | lra].
    Qed.
    (** a fluid with two volumes at equal pressure has an unstable packing fraction *)
    Lemma coexist_flat t lu2 o P v1 v2 : 0 < t -> close p t [n] < v1 < v2 -> coexist p t n lu2 o P v1 v2 -> exists x, 0 < x < 1 /\ sl x t < 0.
    Proof.
      intros Ht Hv (Ra & Rb & _). destruct (Classical_Prop.classic (exists x, 0 < x < 1 /\ sl x t < 0)) as [E | N]; auto. exfalso.
      assert (Hs : forall z, 0 < z < 1 -> 0 <= sl z t). { intros z Hz. destruct (Rle_or_lt 0 (sl z t)) as [L | L]; auto. exfalso. apply N. exists z. auto. }
      pose proof (falls t v1 v2 Ht Hs Hv) as F. apply press_unique in Ra; [ | auto | lra]. apply press_unique in Rb; [ | auto | lra]. lra.
    Qed.
    Lemma flat_rises t : 0 < t -> (exists x, 0 < x < 1 /\ sl x t < 0) -> exists va vb, close p t [n] < va < vb /\ press t va < press t vb.
    Proof.
      intros Ht (x & Hx & Neg). pose proof (hc_pos p Hph H1 n Hn t Ht) as Pc. set (c := close p t [n]) in *.
      assert (Hv0 : c < c / x). { apply Rmult_lt_reg_r with x; [lra | ]. unfold Rdiv. rewrite Rmult_assoc, Rinv_l by lra. rewrite Rmult_1_r. rewrite <- (Rmult_1_r c) at 2. apply Rmult_lt_compat_l; lra. }
      set (v0 := c / x) in *. assert (X0 : c / v0 = x) by (unfold v0; field; lra).
      destruct (Classical_Prop.classic (exists va vb, c < va < vb /\ press t va < press t vb)) as [E | N]; auto. exfalso.
      assert (Dec : forall a b, c < a -> a < b -> press t b <= press t a). { intros a b Ha Hb. destruct (Rle_or_lt (press t b) (press t a)) as [L | L]; auto. exfalso. apply N. exists a, b. auto. }
      pose proof (press_d t v0 Ht Hv0) as D. fold c in D. rewrite X0 in D.
      assert (Pl : 0 < - (n / v0 ^ 2) * sl x t). { assert (0 < n / v0 ^ 2) by (apply Rdiv_lt_0_compat; auto; apply pow_lt; lra). replace (- (n / v0 ^ 2) * sl x t) with (n / v0 ^ 2 * - sl x t) by ring. apply Rmult_lt_0_compat; lra. }
      set (l := - (n / v0 ^ 2) * sl x t) in *. clearbody l. apply is_derive_Reals in D. destruct (D (l / 2) ltac:(lra)) as (d & Hd').
      specialize (Hd' (d / 2)). pose proof (cond_pos d) as Pd. specialize (Hd' ltac:(lra) ltac:(rewrite Rabs_right; lra)). apply Rabs_def2 in Hd'.
      assert (Q : press t (v0 + d / 2) - press t v0 = (press t (v0 + d / 2) - press t v0) / (d / 2) * (d / 2)) by (field; lra).
      specialize (Dec v0 (v0 + d / 2) Hv0 ltac:(lra)). assert (0 < (press t (v0 + d / 2) - press t v0) / (d / 2) * (d / 2)) by (apply Rmult_lt_0_compat; lra). lra.
    Qed.
    (** an unstable packing fraction gives a chord below the Helmholtz energy, hence two coexisting volumes *)
    Lemma flat_coexist t lu2 o : 0 < t -> (exists x, 0 < x < 1 /\ sl x t < 0) -> exists P v1 v2, 0 < P /\ close p t [n] < v1 < v2 /\ coexist p t n lu2 o P v1 v2.
    Proof.
      intros Ht (x & Hx & Neg). pose proof (hc_pos p Hph H1 n Hn t Ht) as Pc. set (c := close p t [n]) in *.
      destruct (sl_d t x ltac:(lra)) as (l & Dl). destruct (cont_near _ x (d_cont _ _ _ Dl) (- sl x t) ltac:(lra)) as (d0 & Hd0 & Nr).
      set (v0 := c / x). assert (X0 : c / v0 = x) by (unfold v0; field; lra).
      assert (Hv0 : c < v0). { unfold v0. apply Rmult_lt_reg_r with x; [lra | ]. unfold Rdiv. rewrite Rmult_assoc, Rinv_l by lra. rewrite Rmult_1_r. rewrite <- (Rmult_1_r c) at 2. apply Rmult_lt_compat_l; lra. }
      assert (Cq : continuous (fun v => c / v) v0). { apply (ex_derive_continuous (fun v => c / v)). auto_derive. lra. }
      destruct (cont_near _ v0 Cq d0 Hd0) as (d1 & Hd1 & Nq). set (h := Rmin (d1 / 2) ((v0 - c) / 2)). assert (Ph : 0 < h) by (unfold h; apply Rmin_pos; lra).
      assert (L1 : h <= d1 / 2) by apply Rmin_l. assert (L2 : h <= (v0 - c) / 2) by apply Rmin_r.
      assert (Slope : forall v, v0 - h <= v <= v0 + h -> sl (c / v) t < 0).
      { intros v Hv. specialize (Nq v ltac:(apply Rabs_def1; lra)). rewrite X0 in Nq. specialize (Nr (c / v) Nq). apply Rabs_def2 in Nr. lra. }
      assert (Rise : forall a b, v0 - h <= a -> a < b -> b <= v0 + h -> press t a < press t b).
      { intros a b Ha Hab Hb. destruct (MVT_gen (press t) a b (fun v => - (n / v ^ 2) * sl (c / v) t)) as (z & Hz & E).
        { intros z Hz. rewrite Rmin_left, Rmax_right in Hz by lra. apply press_d; auto. fold c. lra. }
        { intros z Hz. rewrite Rmin_left, Rmax_right in Hz by lra. apply continuity_pt_filterlim. exact (d_cont _ _ _ (press_d t z Ht ltac:(fold c; lra))). }
        rewrite Rmin_left, Rmax_right in Hz by lra. specialize (Slope z ltac:(lra)). assert (0 < n / z ^ 2) by (apply Rdiv_lt_0_compat; auto; apply pow_lt; lra).
        assert (0 < - (n / z ^ 2) * sl (c / z) t). { replace (- (n / z ^ 2) * sl (c / z) t) with (n / z ^ 2 * - sl (c / z) t) by ring. apply Rmult_lt_0_compat; lra. }
        assert (0 < - (n / z ^ 2) * sl (c / z) t * (b - a)) by (apply Rmult_lt_0_compat; lra). lra. }
      set (lu := fun (_ : list (list R)) (_ : list R) => @None (list R)).
      destruct (setting prs bin p Hp Hph H1 t n Ht Hn Hd Hq Hass lu lu2 o) as (f & Hf & _ & _ & Dr & Sl).
      assert (Da : forall v, c < v -> is_derive (fun v => f v - n * ln v) v (- press t v)).
      { intros v Hv. destruct (Sl v Hv) as (r & E2 & Er). assert (R1 : reduced_pressure p t [n] lu2 o v (n / v - Derive f v)) by (exists (f v), r; split; [exact E2 | rewrite (total1 p H1 n), Er; reflexivity]).
        rewrite <- (press_unique t lu2 o v _ Ht Hv R1). replace (- (n / v - Derive f v)) with (Derive f v - n * / v) by (unfold Rdiv; ring).
        apply (is_derive_minus f (fun v => n * ln v)); [apply Dr; auto | ]. apply (is_derive_scal ln). apply is_derive_ln. lra. }
      set (A := fun v => f v - n * ln v) in *.
      assert (Mv : forall a b, v0 - h <= a -> a < b -> b <= v0 + h -> exists z, a <= z <= b /\ A b - A a = - press t z * (b - a)).
      { intros a b Ha Hab Hb. destruct (MVT_gen A a b (fun v => - press t v)) as (z & Hz & E).
        { intros z Hz. rewrite Rmin_left, Rmax_right in Hz by lra. apply Da. lra. }
        { intros z Hz. rewrite Rmin_left, Rmax_right in Hz by lra. apply continuity_pt_filterlim. exact (d_cont _ _ _ (Da z ltac:(lra))). }
        rewrite Rmin_left, Rmax_right in Hz by lra. exists z. auto. }
      (* compare the slopes on the outer halves of the two sides, where they differ *)
      destruct (Mv (v0 - h) (v0 - h / 2) ltac:(lra) ltac:(lra) ltac:(lra)) as (z1 & Hz1 & E1). destruct (Mv (v0 - h / 2) v0 ltac:(lra) ltac:(lra) ltac:(lra)) as (z2 & Hz2 & E2).
      destruct (Mv v0 (v0 + h / 2) ltac:(lra) ltac:(lra) ltac:(lra)) as (z3 & Hz3 & E3). destruct (Mv (v0 + h / 2) (v0 + h) ltac:(lra) ltac:(lra) ltac:(lra)) as (z4 & Hz4 & E4).
      assert (P14 : press t z1 < press t z4) by (apply Rise; lra).
      assert (P23 : press t z2 <= press t z3). { destruct (Rle_lt_or_eq_dec z2 z3 ltac:(lra)) as [L | ->]; [left; apply Rise; lra | apply Rle_refl]. }
      replace (v0 - h / 2 - (v0 - h)) with (h / 2) in E1 by field. replace (v0 - (v0 - h / 2)) with (h / 2) in E2 by field. replace (v0 + h / 2 - v0) with (h / 2) in E3 by field. replace (v0 + h - (v0 + h / 2)) with (h / 2) in E4 by field.
      set (p1 := press t z1) in *. set (p2 := press t z2) in *. set (p3 := press t z3) in *. set (p4 := press t z4) in *.
      assert (J1 : 0 < (p4 - p1) * (h / 2)) by (apply Rmult_lt_0_compat; lra). assert (J2 : 0 <= (p3 - p2) * (h / 2)) by (apply Rmult_le_pos; lra).
      pose proof (C57_unstable prs bin p Hp Hph H1 t n Ht Hn Hd Hq Hass lu lu2 o f (v0 - h) (v0 + h) (1 / 2) Hf ltac:(fold c; lra) ltac:(fold c; lra) ltac:(lra)) as Cx. cbv zeta in Cx.
      assert (V0 : 1 / 2 * (v0 - h) + (1 - 1 / 2) * (v0 + h) = v0) by lra. rewrite V0 in Cx.
      destruct Cx as (P & v1 & v2 & X1 & X2 & X3 & X4 & _); [ | exists P, v1, v2; split; auto; split; [fold c in X2; lra | auto]].
      change (1 / 2 * A (v0 - h) + (1 - 1 / 2) * A (v0 + h) < A v0). clearbody A p1 p2 p3 p4. lra.
    Qed.
  End Curve.

  (** The critical point. *)
  Theorem C58_critical_point : exists Tc vc, 0 < Tc /\ close p Tc [n] < vc /\
    (* above the critical temperature, and at it, the pressure falls strictly with the volume *)
    (forall t, Tc <= t -> forall lu2 o va vb Pa Pb, close p t [n] < va < vb ->
      reduced_pressure p t [n] lu2 o va Pa -> reduced_pressure p t [n] lu2 o vb Pb -> Pb < Pa) /\
    (* below it, at temperatures as close as one likes, two volumes coexist *)
    (forall eps, 0 < eps -> exists t, Tc - eps < t < Tc /\ 0 < t /\ forall lu2 o,
      exists P v1 v2, 0 < P /\ close p t [n] < v1 < v2 /\ coexist p t n lu2 o P v1 v2) /\
    (* at it, the first two derivatives of the positive pressure vanish at the critical volume *)
    exists Pc, (forall lu2 o v, close p Tc [n] < v -> reduced_pressure p Tc [n] lu2 o v (Pc v)) /\
      0 < Pc vc /\ is_derive_n Pc 1 vc 0 /\ is_derive_n Pc 2 vc 0.
  Proof.
    destruct (hms p Hph H1 Hd Hq Hass) as (A & B & C). fold X in A, B, C. change (M X 0) with m in A.
    destruct (df_slopes _ (df_first m 3)) as (g1 & G1 & G1' & D1 & DD1 & DDD1 & Z1). destruct (df_slopes _ (df_second m A 3)) as (g2 & G2 & G2' & D2 & DD2 & DDD2 & Z2).
    assert (Gc1 : forall x, 0 <= x <= 1 -> continuous G1 x) by (intros x Hx; exact (d_cont _ _ _ (DDD1 x Hx))). assert (Gc2 : forall x, 0 <= x <= 1 -> continuous G2 x) by (intros x Hx; exact (d_cont _ _ _ (DDD2 x Hx))).
    destruct (unit_bound G1 Gc1) as (b1 & HB1 & B1). destruct (unit_bound G2 Gc2) as (b2 & HB2 & B2).
    destruct (C57_low_temperature prs bin p Hp Hph H1 n Hn Hd Hq Hass Hk (fun _ _ => None) default_options) as (T0 & HT0 & Cold).
    destruct (C57_high_temperature prs bin p Hp Hph H1 n Hn Hd Hq Hass) as (T1 & HT1 & Hot).
    destruct (Cold (T0 / 2) ltac:(lra)) as (P0 & u1 & u2 & _ & Hu & Co).
    pose proof (coexist_flat g1 g2 G1 G2 G1' G2' D1 D2 DD1 DD2 DDD1 DDD2 Z1 Z2 (T0 / 2) (fun _ _ => None) default_options P0 u1 u2 ltac:(lra) Hu Co) as U0.
    destruct (threshold (inv_compressibility m) G1 G2 str1 str2 b1 b2 (T0 / 2) T1) as (Tc & HTc & Above & Below & (xc & Hxc & Exc) & l & Hl & Low); auto.
    - intros x Hx. apply inv_compressibility_ge1; auto.
    - intros x Hx. destruct (inv_comp_d m x Hx) as (k & Dk). exact (d_cont _ _ _ Dk).
    - exact (inv_comp_inf m A).
    - exact str1_c.
    - exact str2_c.
    - lra.
    - intros t Ht Fl. assert (Ht0 : 0 < t) by lra.
      destruct (flat_rises g1 g2 G1 G2 DD1 DD2 t Ht0 Fl) as (va & vb & Hv & L).
      specialize (Hot t Ht (fun _ _ => None) default_options va vb _ _ Hv (press_ok g1 g2 D1 D2 t _ _ va Ht0 ltac:(lra)) (press_ok g1 g2 D1 D2 t _ _ vb Ht0 ltac:(lra))). lra.
    - assert (PT : 0 < Tc) by lra. pose proof (hc_pos p Hph H1 n Hn Tc PT) as Pc. set (c := close p Tc [n]) in *. set (vc := c / xc).
      assert (Xc : c / vc = xc) by (unfold vc; field; lra).
      assert (Hvc : c < vc). { unfold vc. apply Rmult_lt_reg_r with xc; [lra | ]. unfold Rdiv. rewrite Rmult_assoc, Rinv_l by lra. rewrite Rmult_1_r. rewrite <- (Rmult_1_r c) at 2. apply Rmult_lt_compat_l; lra. }
      exists Tc, vc. split; auto. split; [exact Hvc | ]. split; [ | split].
      + intros t Ht lu2 o va vb Pa Pb Hv Ra Rb. assert (Ht0 : 0 < t) by lra. apply (press_unique g1 g2 D1 D2) in Ra; [ | auto | lra]. apply (press_unique g1 g2 D1 D2) in Rb; [ | auto | lra]. rewrite Ra, Rb.
        apply (falls g1 g2 G1 G2 G1' G2' D1 D2 DD1 DD2 DDD1 DDD2 Z1 Z2); auto. intros z Hz. exact (Above t z Ht Hz).
      + intros eps He. destruct (Below eps He) as (t & Ht & Ht0 & Fl). exists t. split; auto. split; auto. intros lu2 o. exact (flat_coexist g1 g2 G1 G2 G1' G2' D1 D2 DD1 DD2 DDD1 DDD2 t lu2 o Ht0 Fl).
      + exists (press g1 g2 Tc). split; [intros lu2 o v Hv; exact (press_ok g1 g2 D1 D2 Tc lu2 o v PT Hv) | ].
        assert (Flat : is_derive (fun x => sl G1 G2 x Tc) xc 0).
        { destruct (sl_d G1 G2 G1' G2' DDD1 DDD2 Tc xc ltac:(lra)) as (k & Dk). replace k with 0 in Dk; [exact Dk | ].
          assert (Dp : derivable_pt_lim (fun x => sl G1 G2 x Tc) xc k) by (apply is_derive_Reals; exact Dk).
          pose proof (deriv_minimum (fun x => sl G1 G2 x Tc) 0 1 xc (exist _ k Dp) ltac:(lra) ltac:(lra) ltac:(intros x H2 H3; unfold sl; rewrite Exc; apply Above; lra)) as E. cbn in E. auto. }
        split; [ | split].
        * unfold press. fold c. rewrite Xc. apply Rmult_lt_0_compat; [apply Rdiv_lt_0_compat; auto | ].
          assert (Pos : forall z, 0 < z < 1 -> 0 <= sl G1 G2 z Tc) by (intros z Hz; apply Above; lra).
          assert (C0 : curve g1 g2 Tc 0 = 0) by (unfold curve; ring).
          assert (Half : curve g1 g2 Tc 0 <= curve g1 g2 Tc (xc / 2)).
          { destruct (MVT_gen (curve g1 g2 Tc) 0 (xc / 2) (fun z => sl G1 G2 z Tc)) as (z & Hz & E).
            { intros z Hz. rewrite Rmin_left, Rmax_right in Hz by lra. apply (curve_d g1 g2 G1 G2 DD1 DD2). lra. }
            { intros z Hz. rewrite Rmin_left, Rmax_right in Hz by lra. apply continuity_pt_filterlim. exact (d_cont _ _ _ (curve_d g1 g2 G1 G2 DD1 DD2 Tc z ltac:(lra))). }
            rewrite Rmin_left, Rmax_right in Hz by lra. assert (0 <= sl G1 G2 z Tc).
            { destruct (Rle_lt_or_eq_dec 0 z ltac:(lra)) as [L | <-]; [apply Pos; lra | ]. left. apply Low. lra. }
            assert (0 <= sl G1 G2 z Tc * (xc / 2 - 0)) by (apply Rmult_le_pos; lra). lra. }
          pose proof (curve_incr g1 g2 G1 G2 G1' G2' D1 D2 DD1 DD2 DDD1 DDD2 Z1 Z2 Tc (xc / 2) xc Pos ltac:(lra) ltac:(lra)). lra.
        * pose proof (press_d g1 g2 G1 G2 DD1 DD2 Tc vc PT Hvc) as Dv. fold c in Dv. rewrite Xc in Dv. unfold sl in Dv. rewrite Exc, Rmult_0_r in Dv. exact Dv.
        * apply (press_d2 g1 g2 G1 G2 DD1 DD2 Tc vc PT Hvc); fold c; rewrite Xc; [exact Exc | exact Flat].
  Qed.
  (** Two volumes coexist if and only if the pressure somewhere rises with the volume. *)
  Theorem C58_spinodal t lu2 o : 0 < t ->
    ((exists P v1 v2, 0 < P /\ close p t [n] < v1 < v2 /\ coexist p t n lu2 o P v1 v2) <->
     (exists va vb Pa Pb, close p t [n] < va < vb /\ reduced_pressure p t [n] lu2 o va Pa /\ reduced_pressure p t [n] lu2 o vb Pb /\ Pa < Pb)).
  Proof.
    intros Ht. destruct (hms p Hph H1 Hd Hq Hass) as (A & B & C). fold X in A, B, C. change (M X 0) with m in A.
    destruct (df_slopes _ (df_first m 3)) as (g1 & G1 & G1' & D1 & DD1 & DDD1 & Z1). destruct (df_slopes _ (df_second m A 3)) as (g2 & G2 & G2' & D2 & DD2 & DDD2 & Z2). split.
    - intros (P & v1 & v2 & _ & Hv & Co). pose proof (coexist_flat g1 g2 G1 G2 G1' G2' D1 D2 DD1 DD2 DDD1 DDD2 Z1 Z2 t lu2 o P v1 v2 Ht Hv Co) as Fl.
      destruct (flat_rises g1 g2 G1 G2 DD1 DD2 t Ht Fl) as (va & vb & Hab & L). exists va, vb, (press g1 g2 t va), (press g1 g2 t vb).
      split; auto. split; [apply (press_ok g1 g2 D1 D2); auto; lra | ]. split; [apply (press_ok g1 g2 D1 D2); auto; lra | exact L].
    - intros (va & vb & Pa & Pb & Hv & Ra & Rb & L). apply (flat_coexist g1 g2 G1 G2 G1' G2' D1 D2 DD1 DD2 DDD1 DDD2); auto.
      destruct (Classical_Prop.classic (exists x, 0 < x < 1 /\ sl G1 G2 x t < 0)) as [E | N]; auto. exfalso.
      assert (Hs : forall z, 0 < z < 1 -> 0 <= sl G1 G2 z t). { intros z Hz. destruct (Rle_or_lt 0 (sl G1 G2 z t)) as [L' | L']; auto. exfalso. apply N. exists z. auto. }
      pose proof (falls g1 g2 G1 G2 G1' G2' D1 D2 DD1 DD2 DDD1 DDD2 Z1 Z2 t va vb Ht Hs Hv). apply (press_unique g1 g2 D1 D2) in Ra; [ | auto | lra]. apply (press_unique g1 g2 D1 D2) in Rb; [ | auto | lra]. lra.
  Qed.
End Critical.

(** butane *)
Example C58_case : exists Tc vc, 0 < Tc /\ close but Tc [1] < vc /\ exists Pc, (forall v, close but Tc [1] < v -> reduced_pressure but Tc [1] (fun _ _ => None) default_options v (Pc v)) /\
  0 < Pc vc /\ is_derive_n Pc 1 vc 0 /\ is_derive_n Pc 2 vc 0.
Proof.
  destruct but_none as (E1 & E2 & E3). destruct (C58_critical_point _ _ _ but_ok but_phys eq_refl 1 ltac:(lra) E1 E2 E3 ltac:(change (0 <> 1); lra)) as (Tc & vc & H & Hv & _ & _ & Pc & HP & Hr).
  exists Tc, vc. split; auto. split; auto. exists Pc. split; auto.
Qed.
Print Assumptions C58_critical_point.
Print Assumptions C58_spinodal.
Print Assumptions C58_case.
