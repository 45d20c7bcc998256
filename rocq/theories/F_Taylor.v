(** Taylor expansion at zero from the coefficients of nested dual numbers. *)
From Coq Require Import ZArith QArith Reals Lra Lia List Bool.
From Coquelicot Require Import Coquelicot.
From Verif Require Import Num RNum RSum DNum F_Transfer F_Level P_Dual.
Import ListNotations.
Local Open Scope R_scope.
Set Bullet Behavior "Strict Subproofs".

(** F(y) = o(y^k) *)
Definition flat (k : nat) (F : R -> R) : Prop := forall e, 0 < e -> locally 0 (fun y => Rabs (F y) <= e * Rabs y ^ k).

Lemma flat_derive h r : is_derive h 0 r -> flat 1 (fun y => h y - h 0 - r * y).
Proof.
  intros H e He. destruct H as [_ H]. specialize (H 0 (fun P HP => HP) (mkposreal e He)).
  eapply filter_imp; [ | exact H]. intros y Hy. cbn in Hy. unfold norm, minus, plus, opp, scal in Hy. cbn in Hy. unfold mult, abs in Hy. cbn in Hy.
  rewrite Ropp_0, Rplus_0_r in Hy. replace (h y - h 0 - r * y) with (h y + - h 0 + - (y * r)) by ring.
  rewrite pow_1. exact Hy.
Qed.

Lemma flat_step k F G : locally 0 (fun y => is_derive F y (G y)) -> F 0 = 0 -> flat k G -> flat (S k) F.
Proof.
  intros HD H0 HG e He.
  destruct HD as [d1 H1]. destruct (HG e He) as [d2 H2].
  assert (Hd : 0 < Rmin d1 d2) by (apply Rmin_glb_lt; apply cond_pos).
  exists (mkposreal _ Hd). intros y Hy.
  assert (B : Rabs y < Rmin d1 d2).
  { assert (E : Rabs (y - 0) < Rmin d1 d2) by exact Hy. rewrite Rminus_0_r in E. auto. }
  assert (In : forall z, Rabs z <= Rabs y -> is_derive F z (G z) /\ Rabs (G z) <= e * Rabs z ^ k).
  { intros z Hz. split.
    - apply H1. change (Rabs (z - 0) < d1). rewrite Rminus_0_r. pose proof (Rmin_l d1 d2). lra.
    - apply H2. change (Rabs (z - 0) < d2). rewrite Rminus_0_r. pose proof (Rmin_r d1 d2). lra. }
  destruct (MVT_gen F 0 y G) as (c & Hc & E).
  - intros z Hz. apply In.
    destruct (Rle_or_lt 0 y) as [C | C].
    + rewrite Rmin_left, Rmax_right in Hz by lra. rewrite !Rabs_right by lra. lra.
    + rewrite Rmin_right, Rmax_left in Hz by lra. rewrite !Rabs_left by lra. lra.
  - intros z Hz. apply (continuity_pt_filterlim F z). apply (ex_derive_continuous F). exists (G z). apply In.
    destruct (Rle_or_lt 0 y) as [C | C].
    + rewrite Rmin_left, Rmax_right in Hz by lra. rewrite !Rabs_right by lra. lra.
    + rewrite Rmin_right, Rmax_left in Hz by lra. destruct (Req_dec z 0) as [-> | Z]; [rewrite Rabs_R0; apply Rabs_pos | ].
      rewrite !Rabs_left by lra. lra.
  - rewrite H0, !Rminus_0_r in E. rewrite E, Rabs_mult.
    assert (Hcy : Rabs c <= Rabs y).
    { destruct (Rle_or_lt 0 y) as [C | C].
      + rewrite Rmin_left, Rmax_right in Hc by lra. rewrite !Rabs_right by lra. lra.
      + rewrite Rmin_right, Rmax_left in Hc by lra. destruct (Req_dec c 0) as [-> | Z]; [rewrite Rabs_R0; apply Rabs_pos | ].
        rewrite !Rabs_left by lra. lra. }
    destruct (In c Hcy) as [_ B2].
    apply Rle_trans with (e * Rabs y ^ k * Rabs y).
    + apply Rmult_le_compat_r; [apply Rabs_pos | ]. apply Rle_trans with (e * Rabs c ^ k); auto.
      apply Rmult_le_compat_l; [lra | ]. apply pow_incr. split; [apply Rabs_pos | auto].
    + rewrite <- tech_pow_Rmult. right. ring.
Qed.

Lemma is_derive_shift (f F : R -> R) y l : (forall x, F x = f (y + x)) -> is_derive F 0 l -> is_derive f y l.
Proof.
  intros E H.
  assert (D : is_derive (fun u => F (u - y)) y (scal 1 l)).
  { apply (is_derive_comp F (fun u => u - y) y l 1).
    - cbv beta. replace (y - y) with 0 by ring. exact H.
    - auto_derive; auto. }
  unfold scal in D; cbn in D; unfold mult in D; cbn in D. rewrite Rmult_1_l in D.
  eapply is_derive_ext; [ | exact D]. intros u. cbv beta. rewrite E. f_equal. ring.
Qed.
(** the one-variable function behind a seeded density *)
Lemma partial2_inv (f : R -> R) r : partial 2 [true; true] (fun z => f (aff 2 0 [1; 1] z)) r ->
  exists g, locally 0 (fun y => is_derive f y (g y)) /\ is_derive g 0 r.
Proof.
  intros (g & A & g2 & B & E). exists (fun y => g (y, tt)). split.
  - cbn in A. eapply filter_imp; [ | exact A]. intros y Hy. cbv beta in Hy.
    eapply is_derive_shift; [ | exact Hy]. intros x. cbv beta. f_equal. ring.
  - cbn in B, E. rewrite E in B. exact B.
Qed.
Lemma partial3_inv (f : R -> R) r : partial 3 [true; true; true] (fun z => f (aff 3 0 [1; 1; 1] z)) r ->
  exists g h, locally 0 (fun y => is_derive f y (g y)) /\ locally 0 (fun y => is_derive g y (h y)) /\ is_derive h 0 r.
Proof.
  intros (g & A & g2 & B & g3 & C & E). cbn in A, B, C, E. rewrite E in C.
  assert (shift : forall y1 x2 l, is_derive (fun x => f (0 + 1 * y1 + 1 * x2 + 1 * x)) 0 l -> is_derive f (y1 + x2) l).
  { intros y1 x2 l Hy.
    eapply is_derive_shift; [ | exact Hy]. intros x. cbv beta. f_equal. ring. }
  set (gam := fun y => g (0, (y, tt))). set (h := fun y => g2 (y, tt)).
  assert (A1 : locally 0 (fun y => is_derive f y (gam y))).
  { eapply filter_imp; [ | exact A]. intros y Hy. apply locally_singleton in Hy. cbv beta in Hy.
    specialize (shift y 0 _ Hy). rewrite Rplus_0_r in shift. exact shift. }
  exists gam, h. split; [exact A1 | split; [ | exact C]].
  assert (A2 : locally 0 (fun y => locally y (fun u => is_derive f u (gam u)))) by (apply locally_locally; exact A1).
  eapply filter_imp; [ | exact (filter_and _ _ (filter_and _ _ A A2) B)]. intros y [[Hy1 Hy2] Hy3]. cbv beta in *.
  assert (S : locally 0 (fun x2 => is_derive f (y + x2) (gam (y + x2)))).
  { destruct Hy2 as [d Hd]. exists d. intros x2 Hx. apply Hd.
    change (Rabs (y + x2 - y) < d). replace (y + x2 - y) with (x2 - 0) by ring. exact Hx. }
  assert (Eq : locally 0 (fun x2 => g (x2, (y, tt)) = gam (y + x2))).
  { eapply filter_imp; [ | exact (filter_and _ _ Hy1 S)]. intros x2 [D1 D2]. apply shift in D1.
    apply is_derive_unique in D1. apply is_derive_unique in D2. exact (eq_trans (eq_sym D1) D2). }
  assert (D : is_derive (fun x2 => gam (y + x2)) 0 (h y)).
  { eapply is_derive_ext_loc; [exact Eq | exact Hy3]. }
  eapply is_derive_shift; [ | exact D]. intros x. reflexivity.
Qed.

Ltac toReq := cbv beta; match goal with |- @eq _ ?a ?b => change (@eq R a b) end.
Lemma is_derive_loc_minus f f' g g' : locally 0 (fun y => is_derive f y (f' y)) -> (forall y, is_derive g y (g' y)) ->
  locally 0 (fun y => is_derive (fun u => f u - g u) y (f' y - g' y)).
Proof. intros A B. eapply filter_imp; [ | exact A]. intros y Hy. apply (is_derive_minus f g y); auto. Qed.

Theorem taylor2 f r : partial 2 [true; true] (fun z => f (aff 2 0 [1; 1] z)) r ->
  exists c0 c1, flat 2 (fun y => f y - (c0 + c1 * y + r / 2 * y ^ 2)).
Proof.
  intros H. destruct (partial2_inv f r H) as (g & A & B). exists (f 0), (g 0).
  apply (flat_step 1 _ (fun y => g y - (g 0 + r * y))).
  - apply (is_derive_loc_minus f g (fun y => f 0 + g 0 * y + r / 2 * y ^ 2)); auto.
    intros y. auto_derive; auto. field.
  - toReq. ring.
  - intros e He. eapply filter_imp; [ | exact (flat_derive g r B e He)]. intros y Hy. cbv beta in *.
    replace (g y - (g 0 + r * y)) with (g y - g 0 - r * y) by ring. exact Hy.
Qed.
Theorem taylor3 f r : partial 3 [true; true; true] (fun z => f (aff 3 0 [1; 1; 1] z)) r ->
  exists c0 c1 c2, flat 3 (fun y => f y - (c0 + c1 * y + c2 * y ^ 2 + r / 6 * y ^ 3)).
Proof.
  intros H. destruct (partial3_inv f r H) as (g & h & A & B & C). exists (f 0), (g 0), (h 0 / 2).
  apply (flat_step 2 _ (fun y => g y - (g 0 + h 0 * y + r / 2 * y ^ 2))).
  - apply (is_derive_loc_minus f g (fun y => f 0 + g 0 * y + h 0 / 2 * y ^ 2 + r / 6 * y ^ 3)); auto.
    intros y. auto_derive; auto. field.
  - toReq. ring.
  - apply (flat_step 1 _ (fun y => h y - (h 0 + r * y))).
    + apply (is_derive_loc_minus g h (fun y => g 0 + h 0 * y + r / 2 * y ^ 2)); auto.
      intros y. auto_derive; auto. field.
    + toReq. ring.
    + intros e He. eapply filter_imp; [ | exact (flat_derive h r C e He)]. intros y Hy. cbv beta in *.
      replace (h y - (h 0 + r * y)) with (h y - h 0 - r * y) by ring. exact Hy.
Qed.
