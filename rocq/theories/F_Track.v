(** One Newton step of the cross-association routine for two associating components, solved
    explicitly, so that iterates can be enclosed numerically. *)
From Coq Require Import ZArith QArith Reals Lra Lia List Bool.
From Verif Require Import Num RNum RSum Tables M_Params M_Eos Spec F_MassAction F_Newton F_Gauss F_NewtonR F_Cross.
Import ListNotations.
Local Open Scope R_scope.
Set Bullet Behavior "Strict Subproofs".

Section Linear.
  (* p D0 + x0 (b00 r + b01 s) = e0, ... : p, q fractions of the A sites, r, s of the B sites *)
  Variables (b00 b01 b10 b11 c00 c01 c10 c11 x0 x1 x2 x3 : R).
  Definition Q0 := 1 + (b00 * x2 + b01 * x3).
  Definition Q1 := 1 + (b10 * x2 + b11 * x3).
  Definition Q2 := 1 + (c00 * x0 + c01 * x1).
  Definition Q3 := 1 + (c10 * x0 + c11 * x1).
  Definition k0 := x0 / Q0.
  Definition k1 := x1 / Q1.
  Definition m22 := Q2 - x2 * (c00 * k0 * b00 + c01 * k1 * b10).
  Definition m23 := - (x2 * (c00 * k0 * b01 + c01 * k1 * b11)).
  Definition m32 := - (x3 * (c10 * k0 * b00 + c11 * k1 * b10)).
  Definition m33 := Q3 - x3 * (c10 * k0 * b01 + c11 * k1 * b11).
  Definition det := m22 * m33 - m23 * m32.

  Lemma solve4 p q r s e0 e1 e2 e3 : Q0 <> 0 -> Q1 <> 0 -> det <> 0 ->
    p * Q0 + x0 * (b00 * r + b01 * s) = e0 ->
    q * Q1 + x1 * (b10 * r + b11 * s) = e1 ->
    r * Q2 + x2 * (c00 * p + c01 * q) = e2 ->
    s * Q3 + x3 * (c10 * p + c11 * q) = e3 ->
    let f2 := e2 - x2 * (c00 * (e0 / Q0) + c01 * (e1 / Q1)) in
    let f3 := e3 - x3 * (c10 * (e0 / Q0) + c11 * (e1 / Q1)) in
    r = (f2 * m33 - m23 * f3) / det /\ s = (m22 * f3 - m32 * f2) / det /\
    p = e0 / Q0 - k0 * (b00 * r + b01 * s) /\ q = e1 / Q1 - k1 * (b10 * r + b11 * s).
  Proof.
    intros H0 H1 Hd E0 E1 E2 E3 f2 f3.
    assert (P : p = e0 / Q0 - k0 * (b00 * r + b01 * s)).
    { apply Rmult_eq_reg_r with Q0; auto. unfold k0. transitivity (e0 - x0 * (b00 * r + b01 * s)); [lra | field; auto]. }
    assert (Qq : q = e1 / Q1 - k1 * (b10 * r + b11 * s)).
    { apply Rmult_eq_reg_r with Q1; auto. unfold k1. transitivity (e1 - x1 * (b10 * r + b11 * s)); [lra | field; auto]. }
    assert (F2 : m22 * r + m23 * s = f2).
    { unfold m22, m23, f2. rewrite <- E2. rewrite P at 1. rewrite Qq at 1. ring. }
    assert (F3 : m32 * r + m33 * s = f3).
    { unfold m32, m33, f3. rewrite <- E3. rewrite P at 1. rewrite Qq at 1. ring. }
    split; [ | split; [ | split; auto]].
    - apply Rmult_eq_reg_r with det; auto. transitivity (f2 * m33 - m23 * f3); [ | field; auto].
      rewrite <- F2, <- F3. unfold det. ring.
    - apply Rmult_eq_reg_r with det; auto. transitivity (m22 * f3 - m32 * f2); [ | field; auto].
      rewrite <- F2, <- F3. unfold det. ring.
  Qed.

  Lemma solve4_zero p q r s : Q0 <> 0 -> Q1 <> 0 -> det <> 0 ->
    p * Q0 + x0 * (b00 * r + b01 * s) = 0 -> q * Q1 + x1 * (b10 * r + b11 * s) = 0 ->
    r * Q2 + x2 * (c00 * p + c01 * q) = 0 -> s * Q3 + x3 * (c10 * p + c11 * q) = 0 ->
    p = 0 /\ q = 0 /\ r = 0 /\ s = 0.
  Proof.
    intros H0 H1 Hd E0 E1 E2 E3.
    destruct (solve4 p q r s 0 0 0 0 H0 H1 Hd E0 E1 E2 E3) as (R & S & P & Q). cbv zeta in *.
    assert (Z : 0 / Q0 = 0 /\ 0 / Q1 = 0) by (unfold Rdiv; rewrite !Rmult_0_l; auto). destruct Z as [Z0 Z1].
    rewrite Z0, Z1 in *.
    assert (r = 0) by (rewrite R; field; auto). assert (s = 0) by (rewrite S; field; auto).
    subst r s. repeat split; auto; [rewrite P | rewrite Q]; rewrite H, H2; ring.
  Qed.

  (* right-hand sides of Newton's step and its result *)
  Definition e0_ := 1 + x0 * (Q0 - 1).
  Definition e1_ := 1 + x1 * (Q1 - 1).
  Definition g2 := 1 + x2 * (Q2 - 1) - x2 * (c00 * (e0_ / Q0) + c01 * (e1_ / Q1)).
  Definition g3 := 1 + x3 * (Q3 - 1) - x3 * (c10 * (e0_ / Q0) + c11 * (e1_ / Q1)).
  Definition y2 := (g2 * m33 - m23 * g3) / det.
  Definition y3 := (m22 * g3 - m32 * g2) / det.
  Definition y0 := e0_ / Q0 - k0 * (b00 * y2 + b01 * y3).
  Definition y1 := e1_ / Q1 - k1 * (b10 * y2 + b11 * y3).
  Definition err2 := (/ x0 - Q0) ^ 2 + (/ x1 - Q1) ^ 2 + (/ x2 - Q2) ^ 2 + (/ x3 - Q3) ^ 2.
End Linear.

Section Two.
  Variables (lu : lu_solver RNum) (delta : list (list R)) (na nb rho : list R) (tol : R).
  Hypothesis Hlu : lu_exact lu.
  Notation b i j := (@ix RNum rho j * @ix RNum nb j * @ix2 RNum delta i j).
  Notation c i j := (@ix RNum rho j * @ix RNum na j * @ix2 RNum delta i j).
  Variables (b00 b01 b10 b11 c00 c01 c10 c11 : R).
  Hypothesis B : b 0%nat 0%nat = b00 /\ b 0%nat 1%nat = b01 /\ b 1%nat 0%nat = b10 /\ b 1%nat 1%nat = b11.
  Hypothesis C : c 0%nat 0%nat = c00 /\ c 0%nat 1%nat = c01 /\ c 1%nat 0%nat = c10 /\ c 1%nat 1%nat = c11.
  Notation S := (sites 2 delta na nb rho).

  Lemma sites0 z : S z 0%nat = b00 * z 2%nat + b01 * z 3%nat.
  Proof.
    destruct B as (<- & <- & _). pose proof (sites_a 2 delta na nb rho (map z (seq 0 4)) 0 ltac:(lia)) as E.
    unfold sites, row in *. cbn [seq rsum map fold_right Nat.add nth] in *. rewrite E. unfold bonds_a, fb. unfold rsum.
    cbn [seq map fold_right Nat.add nth]. ring.
  Qed.
  Lemma sites1 z : S z 1%nat = b10 * z 2%nat + b11 * z 3%nat.
  Proof.
    destruct B as (_ & _ & <- & <-). pose proof (sites_a 2 delta na nb rho (map z (seq 0 4)) 1 ltac:(lia)) as E.
    unfold sites, row in *. cbn [seq rsum map fold_right Nat.add nth] in *. rewrite E. unfold bonds_a, fb. unfold rsum.
    cbn [seq map fold_right Nat.add nth]. ring.
  Qed.
  Lemma sites2 z : S z 2%nat = c00 * z 0%nat + c01 * z 1%nat.
  Proof.
    destruct C as (<- & <- & _). pose proof (sites_b 2 delta na nb rho (map z (seq 0 4)) 0 ltac:(lia)) as E.
    unfold sites, row in *. cbn [seq rsum map fold_right Nat.add nth] in *. rewrite E. unfold bonds_b, fa. unfold rsum.
    cbn [seq map fold_right Nat.add nth]. ring.
  Qed.
  Lemma sites3 z : S z 3%nat = c10 * z 0%nat + c11 * z 1%nat.
  Proof.
    destruct C as (_ & _ & <- & <-). pose proof (sites_b 2 delta na nb rho (map z (seq 0 4)) 1 ltac:(lia)) as E.
    unfold sites, row in *. cbn [seq rsum map fold_right Nat.add nth] in *. rewrite E. unfold bonds_b, fa. unfold rsum.
    cbn [seq map fold_right Nat.add nth]. ring.
  Qed.

  Notation at_ f x0 x1 x2 x3 := (f b00 b01 b10 b11 c00 c01 c10 c11 x0 x1 x2 x3).
  Lemma two_step x0 x1 x2 x3 : x0 <> 0 -> x1 <> 0 -> x2 <> 0 -> x3 <> 0 ->
    Q0 b00 b01 x2 x3 <> 0 -> Q1 b10 b11 x2 x3 <> 0 -> at_ det x0 x1 x2 x3 <> 0 ->
    exists z0 z1 z2 z3, z0 = at_ y0 x0 x1 x2 x3 /\ z1 = at_ y1 x0 x1 x2 x3 /\ z2 = at_ y2 x0 x1 x2 x3 /\ z3 = at_ y3 x0 x1 x2 x3 /\
    @newton_step RNum lu 2 delta na nb rho tol [x0; x1; x2; x3] = Ok ([z0; z1; z2; z3], Rltb (sqrt (at_ err2 x0 x1 x2 x3)) tol).
  Proof.
    intros X0 X1 X2 X3 H0 H1 Hd.
    set (x := [x0; x1; x2; x3]).
    assert (Hx : forall k, (k < 2 + 2)%nat -> nth k x 0 <> 0).
    { intros k Hk. destruct k as [ | [ | [ | [ | k]]]]; cbn; auto; lia. }
    pose proof (step_spec lu 2 delta na nb rho tol Hlu x eq_refl Hx) as St.
    destruct (newton_step lu 2 delta na nb rho tol x) as [[x' bb] | e].
    - destruct St as (L & Hb & _ & St & _). cbv zeta in St.
      destruct x' as [ | z0 [ | z1 [ | z2 [ | z3 [ | ]]]]]; try discriminate L.
      pose proof (St 0%nat ltac:(lia)) as S0. pose proof (St 1%nat ltac:(lia)) as S1.
      pose proof (St 2%nat ltac:(lia)) as S2. pose proof (St 3%nat ltac:(lia)) as S3. clear St.
      rewrite !sites0 in S0. rewrite !sites1 in S1. rewrite !sites2 in S2. rewrite !sites3 in S3.
      cbn [x nth] in S0, S1, S2, S3.
      destruct (solve4 b00 b01 b10 b11 c00 c01 c10 c11 x0 x1 x2 x3 z0 z1 z2 z3
        (e0_ b00 b01 x0 x2 x3) (e1_ b10 b11 x1 x2 x3) (1 + x2 * (Q2 c00 c01 x0 x1 - 1)) (1 + x3 * (Q3 c10 c11 x0 x1 - 1)) H0 H1 Hd)
        as (R & S' & P & Q).
      + unfold e0_, Q0. lra.
      + unfold e1_, Q1. lra.
      + unfold Q2. lra.
      + unfold Q3. lra.
      + cbv zeta in *.
        assert (Ez2 : z2 = at_ y2 x0 x1 x2 x3) by exact R. assert (Ez3 : z3 = at_ y3 x0 x1 x2 x3) by exact S'.
        exists z0, z1, z2, z3. split; [ | split; [ | split; [auto | split; [auto | ]]]].
        * unfold y0. rewrite <- Ez2, <- Ez3. exact P.
        * unfold y1. rewrite <- Ez2, <- Ez3. exact Q.
        * f_equal. f_equal.
          assert (En : resid_norm 2 delta na nb rho x = sqrt (at_ err2 x0 x1 x2 x3)).
          { unfold resid_norm. f_equal. unfold rsum. cbn [Nat.add seq map fold_right]. unfold resid.
            rewrite sites0, sites1, sites2, sites3. cbn [x nth]. unfold err2, Q0, Q1, Q2, Q3. ring. }
          rewrite <- En. destruct bb; symmetry; [apply Rltb_true; tauto | ]. apply not_true_iff_false. rewrite Rltb_true.
          intros Hl. apply Hb in Hl. discriminate.
    - exfalso. destruct St as [_ NS]. apply NS. intros z Hz.
      assert (E : forall k, (k < 4)%nat -> z k * (1 + S (fun l => nth l x 0) k) + nth k x 0 * S z k = 0).
      { intros k Hk. specialize (Hz k Hk). rewrite hess_R in Hz by (auto; reflexivity). specialize (Hx k Hk).
        apply (Rmult_eq_compat_l (- nth k x 0)) in Hz. rewrite Rmult_0_r in Hz. etransitivity; [ | exact Hz]. field. auto. }
      pose proof (E 0%nat ltac:(lia)) as S0. pose proof (E 1%nat ltac:(lia)) as S1.
      pose proof (E 2%nat ltac:(lia)) as S2. pose proof (E 3%nat ltac:(lia)) as S3. clear E.
      rewrite !sites0 in S0. rewrite !sites1 in S1. rewrite !sites2 in S2. rewrite !sites3 in S3. cbn [x nth] in *.
      destruct (solve4_zero b00 b01 b10 b11 c00 c01 c10 c11 x0 x1 x2 x3 (z 0%nat) (z 1%nat) (z 2%nat) (z 3%nat) H0 H1 Hd S0 S1 S2 S3) as (A0 & A1 & A2 & A3).
      intros k Hk. destruct k as [ | [ | [ | [ | k]]]]; auto; lia.
  Qed.
End Two.
