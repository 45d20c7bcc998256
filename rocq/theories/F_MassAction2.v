(** Mass-action equations: stability of the solution and of the Newton step. *)
From Coq Require Import Reals Lra Lia List Arith.
From Coquelicot Require Import Coquelicot.
From Verif Require Import RSum F_MassAction.
Local Open Scope R_scope.

Section Stable.
  Variable n : nat.
  Variable D : nat -> nat -> R.
  Hypothesis HD : forall k l, (k < n)%nat -> (l < n)%nat -> 0 <= D k l.
  Notation row := (row n D).
  Notation solves := (solves n D).

  Lemma row_abs z x s k : (k < n)%nat -> (forall l, (l < n)%nat -> Rabs (z l) <= s * x l) ->
    Rabs (row z k) <= s * row x k.
  Proof.
    intros Hk H. rewrite <- row_scal. unfold F_MassAction.row.
    apply Rabs_le. split.
    - rewrite <- rsum_opp. apply rsum_le. intros l Hl. apply seq_in in Hl.
      specialize (H l Hl). apply Rabs_le_between in H. specialize (HD k l Hk Hl). nra.
    - apply rsum_le. intros l Hl. apply seq_in in Hl.
      specialize (H l Hl). apply Rabs_le_between in H. specialize (HD k l Hk Hl). nra.
  Qed.

  (** the linearised mass-action equations at a positive point: solutions are bounded by the
      right-hand side, relative to the point *)
  Theorem linear_bound (x z b : nat -> R) beta : 0 <= beta ->
    (forall k, (k < n)%nat -> 0 < x k) ->
    (forall k, (k < n)%nat -> z k * (1 + row x k) + x k * row z k = x k * b k) ->
    (forall k, (k < n)%nat -> Rabs (b k) <= beta) ->
    forall k, (k < n)%nat -> Rabs (z k) <= beta * x k.
  Proof.
    intros Hb Hx Hz Hbb k0 Hk0.
    destruct (exists_max n (fun k => Rabs (z k) / x k)) as (k & Hk & Hm); [lia | ].
    set (s := Rabs (z k) / x k) in *.
    assert (Hs : 0 <= s) by (apply Rmult_le_pos; [apply Rabs_pos | left; apply Rinv_0_lt_compat; auto]).
    assert (Hzs : forall l, (l < n)%nat -> Rabs (z l) <= s * x l).
    { intros l Hl. specialize (Hm l Hl). cbv beta in Hm. specialize (Hx l Hl).
      apply Rmult_le_reg_r with (/ x l); [apply Rinv_0_lt_compat; auto | ].
      rewrite Rmult_assoc, Rinv_r by lra. unfold Rdiv in Hm. lra. }
    assert (Hr := row_abs z x s k Hk Hzs).
    assert (Hxk := Hx k Hk).
    assert (Rp : 0 <= row x k) by (apply row_nonneg; auto; intros l Hl; left; auto).
    assert (Ez : Rabs (z k) = s * x k) by (unfold s; field; lra).
    specialize (Hz k Hk). specialize (Hbb k Hk).
    assert (E : z k * (1 + row x k) = x k * (b k - row z k)) by lra.
    assert (A : Rabs (z k) * (1 + row x k) <= x k * (beta + s * row x k)).
    { rewrite <- (Rabs_pos_eq (1 + row x k)) at 1 by lra. rewrite <- Rabs_mult, E, Rabs_mult, (Rabs_pos_eq (x k)) by lra.
      apply Rmult_le_compat_l; [lra | ]. unfold Rminus. eapply Rle_trans; [apply Rabs_triang | ]. rewrite Rabs_Ropp. lra. }
    rewrite Ez in A. assert (s <= beta).
    { apply Rmult_le_reg_l with (x k); auto. nra. }
    eapply Rle_trans; [apply Hzs; auto | ]. apply Rmult_le_compat_r; [left; auto | auto].
  Qed.

  (** no non-trivial solution of the homogeneous linearised equations *)
  Corollary linear_injective (x z : nat -> R) :
    (forall k, (k < n)%nat -> 0 < x k) ->
    (forall k, (k < n)%nat -> z k * (1 + row x k) + x k * row z k = 0) ->
    forall k, (k < n)%nat -> z k = 0.
  Proof.
    intros Hx Hz k Hk.
    assert (Rabs (z k) <= 0 * x k).
    { apply (linear_bound x z (fun _ => 0) 0); auto; try lra.
      - intros l Hl. rewrite Hz by auto. ring.
      - intros. rewrite Rabs_R0. lra. }
    rewrite Rmult_0_l in H. pose proof (Rabs_pos (z k)).
    destruct (Req_dec (z k) 0) as [ | Hn]; auto. apply Rabs_pos_lt in Hn. lra.
  Qed.

  (** a positive point at which all equations 1/x_k = 1 + row x k hold up to [tol] lies within a
      factor 1/(1 - tol) of the exact solution *)
  Theorem residual_accuracy (x y : nat -> R) tol : 0 <= tol < 1 -> solves y ->
    (forall k, (k < n)%nat -> 0 < x k) ->
    (forall k, (k < n)%nat -> Rabs (/ x k - (1 + row x k)) <= tol) ->
    forall k, (k < n)%nat -> x k <= / (1 - tol) * y k /\ y k <= / (1 - tol) * x k.
  Proof.
    intros Ht Sy Hx Hg k0 Hk0.
    destruct (exists_max n (fun i => Rmax (x i / y i) (y i / x i))) as (k & Hk & Hm); [lia | ].
    set (r := Rmax (x k / y k) (y k / x k)) in *.
    assert (Py : forall i, (i < n)%nat -> 0 < y i) by (intros i Hi; apply Sy; auto).
    assert (Hr1 : 1 <= r).
    { unfold r. pose proof (Hx k Hk). pose proof (Py k Hk).
      destruct (Rle_dec (y k) (x k)) as [L | L].
      - eapply Rle_trans; [ | apply Rmax_l]. apply Rmult_le_reg_r with (y k); auto. unfold Rdiv. rewrite Rmult_assoc, Rinv_l; lra.
      - eapply Rle_trans; [ | apply Rmax_r]. apply Rmult_le_reg_r with (x k); auto. unfold Rdiv. rewrite Rmult_assoc, Rinv_l; lra. }
    assert (Hxy : forall i, (i < n)%nat -> x i <= r * y i).
    { intros i Hi. specialize (Hm i Hi). cbv beta in Hm. pose proof (Py i Hi).
      pose proof (Rmax_l (x i / y i) (y i / x i)).
      apply Rmult_le_reg_r with (/ y i); [apply Rinv_0_lt_compat; auto | ].
      rewrite Rmult_assoc, Rinv_r by lra. unfold Rdiv in *. lra. }
    assert (Hyx : forall i, (i < n)%nat -> y i <= r * x i).
    { intros i Hi. specialize (Hm i Hi). cbv beta in Hm. pose proof (Hx i Hi).
      pose proof (Rmax_r (x i / y i) (y i / x i)).
      apply Rmult_le_reg_r with (/ x i); [apply Rinv_0_lt_compat; auto | ].
      rewrite Rmult_assoc, Rinv_r by lra. unfold Rdiv in *. lra. }
    assert (Rxy : row x k <= r * row y k).
    { rewrite <- row_scal. apply row_le; auto. }
    assert (Ryx : row y k <= r * row x k).
    { rewrite <- row_scal. apply row_le; auto. }
    destruct (Sy k Hk) as [Pk Ek]. pose proof (Hx k Hk) as Xk.
    specialize (Hg k Hk). apply Rabs_le_between in Hg.
    assert (Ry : 0 <= row y k) by (apply row_nonneg; auto; intros; left; auto).
    assert (Iy : / y k = 1 + row y k) by (apply Rmult_eq_reg_l with (y k); [rewrite Rinv_r; lra | lra]).
    assert (Hr : r <= / (1 - tol)).
    { apply Rmult_le_reg_l with (1 - tol); [lra | ]. rewrite Rinv_r by lra.
      destruct (Rle_dec (x k / y k) (y k / x k)) as [L | L].
      - assert (Er : r = y k / x k) by (apply Rmax_right; auto).
        (* y/x = (1 + row x + g) / (1 + row y) *)
        assert (B : r * (1 + row y k) <= 1 + tol + r * row y k).
        { rewrite <- Iy, Er. unfold Rdiv. replace (y k * / x k * / y k) with (/ x k) by (field; lra).
          rewrite <- (Er : r = y k * / x k). lra. }
        nra.
      - assert (Er : r = x k / y k) by (apply Rmax_left; lra).
        assert (B : r * (1 - tol + row x k) <= 1 + row y k).
        { rewrite <- Iy, Er. unfold Rdiv. apply Rmult_le_reg_l with (/ x k); [apply Rinv_0_lt_compat; auto | ].
          replace (/ x k * (x k * / y k * (1 - tol + row x k))) with (/ y k * (1 - tol + row x k)) by (field; lra).
          rewrite (Rmult_comm (/ x k)). apply Rmult_le_compat_l; [left; apply Rinv_0_lt_compat; auto | lra]. }
        lra. }
    split.
    - eapply Rle_trans; [apply Hxy; auto | ]. apply Rmult_le_compat_r; auto. left; auto.
    - eapply Rle_trans; [apply Hyx; auto | ]. apply Rmult_le_compat_r; auto. left; auto.
  Qed.

  (** the point after one more Newton step *)
  Theorem step_accuracy (x dx y : nat -> R) tol : 0 <= tol < 1 -> solves y ->
    (forall k, (k < n)%nat -> 0 < x k) ->
    (forall k, (k < n)%nat -> Rabs (/ x k - (1 + row x k)) <= tol) ->
    (forall k, (k < n)%nat -> dx k * (1 + row x k) + x k * row dx k = x k * (1 + row x k) - 1) ->
    forall k, (k < n)%nat ->
      0 < x k - dx k /\ x k - dx k <= (1 + tol) / (1 - tol) * y k /\ y k <= / (1 - tol) ^ 2 * (x k - dx k).
  Proof.
    intros Ht Sy Hx Hg Hd k Hk.
    destruct (residual_accuracy x y tol Ht Sy Hx Hg k Hk) as [A B].
    assert (C : Rabs (dx k) <= tol * x k).
    { apply (linear_bound x dx (fun k => - (/ x k - (1 + row x k))) tol); auto; try lra.
      - intros l Hl. rewrite Hd by auto. pose proof (Hx l Hl). field. lra.
      - intros l Hl. rewrite Rabs_Ropp. auto. }
    apply Rabs_le_between in C. pose proof (Hx k Hk) as P.
    assert (Ti : 0 < / (1 - tol)) by (apply Rinv_0_lt_compat; lra).
    assert (L1 : (1 - tol) * x k <= x k - dx k) by lra.
    split; [nra | split].
    - unfold Rdiv. replace ((1 + tol) * / (1 - tol) * y k) with ((1 + tol) * (/ (1 - tol) * y k)) by ring.
      eapply Rle_trans; [ | apply Rmult_le_compat_l; [lra | exact A]]. lra.
    - eapply Rle_trans; [exact B | ].
      replace (/ (1 - tol) ^ 2 * (x k - dx k)) with (/ (1 - tol) * (/ (1 - tol) * (x k - dx k))) by (field; lra).
      apply Rmult_le_compat_l; [lra | ]. apply Rmult_le_reg_l with (1 - tol); [lra | ].
      rewrite <- Rmult_assoc, Rinv_r by lra. lra.
  Qed.
End Stable.
