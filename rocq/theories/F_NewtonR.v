(** The Newton iteration of the cross-association over the reals. *)
From Coq Require Import Reals Lra Lia List Arith Bool.
From Coquelicot Require Import Coquelicot.
From Verif Require Import Num RNum RSum M_Params M_Eos F_Newton F_Gauss F_MassAction F_MassAction2.
Import ListNotations.
Local Open Scope R_scope.

Lemma RNum_ring : ring_theory (@n0 RNum) (@n1 RNum) nadd nmul nsub nopp eq.
Proof. exact RTheory. Qed.
Lemma RNum_div (a b : car RNum) : ndiv a b = nmul a (nrecip b).
Proof. reflexivity. Qed.

Section Step.
  Variables (lu : lu_solver RNum) (n : nat) (delta : list (list R)) (na nb rho : list R) (tol : R).
  Hypothesis Hlu : lu_exact lu.
  Notation N := (n + n)%nat.
  Definition Dm : nat -> nat -> R := @ca_D RNum n delta na nb rho.
  Definition sites : (nat -> R) -> nat -> R := row N Dm.
  Notation step := (@newton_step RNum lu n delta na nb rho tol).

  Lemma ca_row_R (x : nat -> R) k : @ca_row RNum n delta na nb rho x k = sites x k.
  Proof. unfold ca_row. rewrite nsumi_R. reflexivity. Qed.

  Definition resid (x : list R) (k : nat) : R := / nth k x 0 - (1 + sites (fun l => nth l x 0) k).

  Lemma grad_R (x : list R) k : length x = N -> (k < N)%nat ->
    nth k (@ca_grad RNum n delta na nb rho x) 0 = resid x k.
  Proof.
    intros Lx Hk. pose proof (ca_grad_ix (K := RNum) RNum_ring n delta na nb rho x Lx k Hk) as E.
    rewrite ca_row_R in E. exact E.
  Qed.

  Lemma norm_R (g : list R) : @norm RNum g = sqrt (rsum g (fun x => x * x)).
  Proof. unfold norm. rewrite nsum_R, rsum_map. reflexivity. Qed.

  Definition resid_norm (x : list R) : R := sqrt (Sum k < N, resid x k * resid x k).

  Lemma norm_grad (x : list R) : length x = N -> @norm RNum (map nre (@ca_grad RNum n delta na nb rho x)) = resid_norm x.
  Proof.
    intros Lx. rewrite norm_R, rsum_map. unfold resid_norm. f_equal.
    change (rsum (@ca_grad RNum n delta na nb rho x) (fun i : R => i * i) = Sum k < N, resid x k * resid x k).
    rewrite (rsum_nth _ 0). rewrite (ca_grad_length (K := RNum)).
    apply Sum_ext. intros k Hk. rewrite grad_R by auto. reflexivity.
  Qed.

  Lemma resid_le_norm (x : list R) k : (k < N)%nat -> Rabs (resid x k) <= resid_norm x.
  Proof.
    intros Hk. rewrite <- sqrt_Rsqr_abs. apply sqrt_le_1_alt. unfold Rsqr.
    apply (rsum_le_one (seq 0 N) (fun k => resid x k * resid x k)); [intros; nra | apply seq_in; auto].
  Qed.

  Lemma resid_norm_zero (x : list R) : length x = N -> (resid_norm x = 0 <-> forall k, (k < N)%nat -> resid x k = 0).
  Proof.
    intros Lx. split.
    - intros E k Hk. pose proof (resid_le_norm x k Hk) as H. rewrite E in H.
      pose proof (Rabs_pos (resid x k)). destruct (Req_dec (resid x k) 0) as [ | Hn]; auto.
      apply Rabs_pos_lt in Hn. lra.
    - intros H. unfold resid_norm. rewrite rsum_zero; [apply sqrt_0 | ].
      intros k Hk. apply seq_in in Hk. rewrite H by auto. ring.
  Qed.

  Lemma sub_list_nth (x dx : list R) k : length dx = length x -> (k < length x)%nat ->
    nth k (map (fun p : R * R => fst p - snd p) (combine x dx)) 0 = nth k x 0 - nth k dx 0.
  Proof.
    intros L Hk. set (f := fun p : R * R => fst p - snd p).
    rewrite (nth_indep _ 0 (f (0, 0))) by (rewrite map_length, combine_length; lia).
    rewrite (map_nth f), combine_nth by auto. reflexivity.
  Qed.

  (** hessian applied to a vector *)
  Lemma hess_R (x : list R) z k : length x = N -> (k < N)%nat ->
    mat_vec N (@ca_hess RNum n delta na nb rho x) z k
    = - ((1 + sites (fun l => nth l x 0) k) * / nth k x 0) * z k - sites z k.
  Proof.
    intros Lx Hk. pose proof (ca_hess_row (K := RNum) RNum_ring RNum_div n delta na nb rho x Lx z k Hk) as E.
    rewrite nsumi_R, !ca_row_R in E. exact E.
  Qed.

  (** effect of one step from a point without zero entries *)
  Theorem step_spec (x : list R) : length x = N -> (forall k, (k < N)%nat -> nth k x 0 <> 0) ->
    match step x with
    | Ok (x', b) =>
        length x' = N /\ (b = true <-> resid_norm x < tol) /\
        nonsingular N (@ca_hess RNum n delta na nb rho x) /\
        let dx k := nth k x 0 - nth k x' 0 in
        (forall k, (k < N)%nat -> dx k * (1 + sites (fun l => nth l x 0) k) + nth k x 0 * sites dx k
                                  = nth k x 0 * (1 + sites (fun l => nth l x 0) k) - 1) /\
        (forall k, (k < N)%nat -> nth k x' 0 * (1 + sites (fun l => nth l x' 0) k) - 1 = dx k * sites dx k)
    | Err e => e = MatrixSingular /\ ~ nonsingular N (@ca_hess RNum n delta na nb rho x)
    end.
  Proof.
    intros Lx Hx. unfold newton_step.
    pose proof (Hlu N _ _ (ca_hess_square (K := RNum) n delta na nb rho x) (ca_grad_length (K := RNum) n delta na nb rho x)) as HL.
    destruct (lu _ _) as [dx | ]; [ | split; auto].
    destruct HL as (NS & Ldx & Hdx).
    assert (Ldx' : length dx = length x) by congruence.
    split.
    { rewrite map_length, combine_length. transitivity (Nat.min (length x) (length x)); [f_equal; exact Ldx' | rewrite Nat.min_id; exact Lx]. }
    split.
    { change (Rltb (@norm RNum (map nre (@ca_grad RNum n delta na nb rho x))) tol = true <-> resid_norm x < tol).
      rewrite norm_grad, Rltb_true by auto. tauto. }
    split; [exact NS | ].
    cbv zeta. set (x' := map (fun p : car RNum * car RNum => nsub (fst p) (snd p)) (combine x dx)).
    assert (Nx' : forall k, (k < N)%nat -> nth k x' 0 = nth k x 0 - nth k dx 0).
    { intros k Hk. unfold x'. apply (sub_list_nth x dx); auto. rewrite Lx; auto. }
    assert (Nd : forall k, (k < N)%nat -> nth k x 0 - nth k x' 0 = nth k dx 0) by (intros; rewrite Nx' by auto; ring).
    assert (Sd : forall k, sites (fun l => nth l x 0 - nth l x' 0) k = sites (fun l => nth l dx 0) k).
    { intros k. apply Sum_ext. intros l Hl. rewrite Nd; auto. }
    assert (Sx' : forall k, sites (fun l => nth l x' 0) k = sites (fun l => nth l x 0 - nth l dx 0) k).
    { intros k. apply Sum_ext. intros l Hl. rewrite Nx'; auto. }
    assert (E : forall k, (k < N)%nat -> nth k dx 0 * (1 + sites (fun l => nth l x 0) k) + nth k x 0 * sites (fun l => nth l dx 0) k
                                  = nth k x 0 * (1 + sites (fun l => nth l x 0) k) - 1).
    { intros k Hk.
      pose proof (ca_step_linear (K := RNum) RNum_ring RNum_div n delta na nb rho x Lx (fun l => nth l dx 0) k Hk) as L.
      unfold ca_F in L. rewrite !ca_row_R in L. apply L.
      - apply Rinv_r. apply (Hx k Hk).
      - rewrite nsumi_R. exact (Hdx k Hk). }
    split.
    - intros k Hk. rewrite Sd, Nd by auto. auto.
    - intros k Hk. rewrite Sd, Sx', Nd, Nx' by auto.
      pose proof (ca_F_step (K := RNum) RNum_ring n delta na nb rho x (fun l => nth l dx 0) k) as L.
      unfold ca_F in L. rewrite !ca_row_R in L.
      transitivity ((nth k x 0 - nth k dx 0) * (1 + sites (fun l => nth l x 0 - nth l dx 0) k) - 1); [ring | ].
      apply L. exact (E k Hk).
  Qed.

  Corollary step_ok (x x' : list R) b : length x = N -> (forall k, (k < N)%nat -> nth k x 0 <> 0) ->
    step x = Ok (x', b) ->
        length x' = N /\ (b = true <-> resid_norm x < tol) /\
        nonsingular N (@ca_hess RNum n delta na nb rho x) /\
        let dx k := nth k x 0 - nth k x' 0 in
        (forall k, (k < N)%nat -> dx k * (1 + sites (fun l => nth l x 0) k) + nth k x 0 * sites dx k
                                  = nth k x 0 * (1 + sites (fun l => nth l x 0) k) - 1) /\
        (forall k, (k < N)%nat -> nth k x' 0 * (1 + sites (fun l => nth l x' 0) k) - 1 = dx k * sites dx k).
  Proof. intros Lx Hx E. pose proof (step_spec x Lx Hx) as S. rewrite E in S. exact S. Qed.

  (** physical coefficients *)
  Hypothesis HD : forall k l, (k < N)%nat -> (l < N)%nat -> 0 <= Dm k l.

  Lemma hess_nonsingular (x : list R) : length x = N -> (forall k, (k < N)%nat -> 0 < nth k x 0) ->
    nonsingular N (@ca_hess RNum n delta na nb rho x).
  Proof.
    intros Lx Hx z Hz k Hk.
    apply (linear_injective N Dm HD (fun l => nth l x 0) z Hx); auto.
    intros i Hi. specialize (Hz i Hi). rewrite hess_R in Hz by auto. unfold sites in Hz.
    specialize (Hx i Hi). apply (Rmult_eq_compat_l (- nth i x 0)) in Hz. rewrite Rmult_0_r in Hz.
    transitivity (- nth i x 0 * (- ((1 + row N Dm (fun l => nth l x 0) i) * / nth i x 0) * z i - row N Dm z i)); [field; lra | exact Hz].
  Qed.

  Theorem step_positive (x : list R) : length x = N -> (forall k, (k < N)%nat -> 0 < nth k x 0) ->
    exists x' : list R, step x = Ok (x', Rltb (resid_norm x) tol) /\ length x' = N.
  Proof.
    intros Lx Hx. pose proof (step_spec x Lx) as S.
    assert (Hx0 : forall k, (k < N)%nat -> nth k x 0 <> 0) by (intros k Hk; specialize (Hx k Hk); lra).
    specialize (S Hx0). destruct (step x) as [[x' b] | e].
    - destruct S as (L & B & _). exists x'. split; auto. f_equal. f_equal.
      destruct b; symmetry; [apply Rltb_true; tauto | ]. apply not_true_iff_false. rewrite Rltb_true.
      intros H. apply B in H. discriminate.
    - destruct S as [_ NS]. destruct NS. apply hess_nonsingular; auto.
  Qed.

  (** exact solutions and fixed points *)
  Definition exact (x : list R) : Prop := length x = N /\ solves N Dm (fun l => nth l x 0).

  Lemma exact_resid (x : list R) : length x = N -> (forall k, (k < N)%nat -> 0 < nth k x 0) ->
    (exact x <-> forall k, (k < N)%nat -> resid x k = 0).
  Proof.
    intros Lx Hx. unfold exact, resid. split.
    - intros [_ S] k Hk. destruct (S k Hk) as [P E]. fold sites in E.
      apply Rmult_eq_reg_l with (nth k x 0); [ | lra]. rewrite Rmult_minus_distr_l, Rinv_r by lra. unfold sites in *. lra.
    - intros H. split; auto. intros k Hk. split; auto. specialize (H k Hk). specialize (Hx k Hk). fold sites.
      assert (E : 1 + sites (fun l => nth l x 0) k = / nth k x 0) by lra. rewrite E. apply Rinv_r. lra.
  Qed.

  Theorem fixed_point_exact (x : list R) b : length x = N -> (forall k, (k < N)%nat -> 0 < nth k x 0) ->
    step x = Ok (x, b) -> exact x.
  Proof.
    intros Lx Hx E.
    assert (Hx0 : forall k, (k < N)%nat -> nth k x 0 <> 0) by (intros k Hk; specialize (Hx k Hk); lra).
    pose proof (step_ok x _ _ Lx Hx0 E) as S. destruct S as (_ & _ & _ & S & _). cbv zeta in S.
    split; auto. intros k Hk. split; auto. specialize (S k Hk). fold sites.
    assert (Z : sites (fun l => nth l x 0 - nth l x 0) k = 0).
    { apply rsum_zero. intros l Hl. ring. }
    rewrite Z in S. lra.
  Qed.
  Theorem exact_fixed_point (x : list R) : exact x -> exists b, step x = Ok (x, b).
  Proof.
    intros [Lx Sx]. assert (Hx : forall k, (k < N)%nat -> 0 < nth k x 0) by (intros k Hk; apply Sx; auto).
    destruct (step_positive x Lx Hx) as (x' & E & L'). eexists. rewrite E. f_equal. f_equal.
    assert (Hx0 : forall k, (k < N)%nat -> nth k x 0 <> 0) by (intros k Hk; specialize (Hx k Hk); lra).
    pose proof (step_ok x _ _ Lx Hx0 E) as S. destruct S as (_ & _ & _ & S & _). cbv zeta in S.
    apply (nth_ext _ _ 0 0); [transitivity (n + n)%nat; [exact L' | symmetry; exact Lx] | ]. intros k Hk.
    assert (Hk' : (k < N)%nat) by (rewrite <- L'; exact Hk). clear Hk. rename Hk' into Hk.
    assert (Z : nth k x 0 - nth k x' 0 = 0); [ | lra].
    apply (linear_injective N Dm HD (fun l => nth l x 0) (fun l => nth l x 0 - nth l x' 0) Hx); auto.
    intros i Hi. specialize (S i Hi). destruct (Sx i Hi) as [_ Ei]. fold sites in *. lra.
  Qed.

  (** accuracy of what the driver returns after an accepted positive iterate *)
  Theorem accepted_accurate (x x' y : list R) : length x = N -> (forall k, (k < N)%nat -> 0 < nth k x 0) ->
    0 < tol < 1 -> step x = Ok (x', true) -> exact y ->
    length x' = N /\ forall k, (k < N)%nat -> 0 < nth k x' 0 /\
      nth k x' 0 <= (1 + tol) / (1 - tol) * nth k y 0 /\
      nth k y 0 <= / (1 - tol) ^ 2 * nth k x' 0.
  Proof.
    intros Lx Hx Ht E [Ly Sy].
    assert (Hx0 : forall k, (k < N)%nat -> nth k x 0 <> 0) by (intros k Hk; specialize (Hx k Hk); lra).
    pose proof (step_ok x _ _ Lx Hx0 E) as S. destruct S as (L' & B & _ & S & _). cbv zeta in S.
    split; auto. intros k Hk.
    assert (Bt : resid_norm x < tol) by (apply B; auto).
    destruct (step_accuracy N Dm HD (fun l => nth l x 0) (fun l => nth l x 0 - nth l x' 0) (fun l => nth l y 0) tol) with (k := k)
      as (P1 & P2 & P3); auto; try lra.
    1:{ intros l Hl. pose proof (resid_le_norm x l Hl). unfold resid in *. fold sites. lra. }
  Qed.
End Step.

(** coefficients are non-negative for non-negative inputs *)
Lemma Dm_nonneg n delta na nb rho :
  (forall i j, (i < n)%nat -> (j < n)%nat -> 0 <= @ix2 RNum delta i j) ->
  (forall j, (j < n)%nat -> 0 <= nth j na 0 /\ 0 <= nth j nb 0 /\ 0 <= nth j rho 0) ->
  forall k l, (k < n + n)%nat -> (l < n + n)%nat -> 0 <= Dm n delta na nb rho k l.
Proof.
  intros Hd Hn k l Hk Hl. unfold Dm, ca_D.
  destruct (Nat.ltb_spec k n), (Nat.ltb_spec l n); try (apply Rle_refl).
  - destruct (Hn (l - n)%nat) as (_ & B & C); [lia | ].
    apply Rmult_le_pos; [apply Rmult_le_pos; [apply Hd; lia | exact C] | exact B].
  - destruct (Hn l) as (A & _ & C); [lia | ].
    apply Rmult_le_pos; [apply Rmult_le_pos; [apply Hd; lia | exact C] | exact A].
Qed.

(** difference of the association energies of two close positive vectors *)
Definition fxR (x : R) : R := ln x - x / 2 + 1 / 2.
Lemma fx_close x y q : 1 <= q -> 0 < y <= 1 -> 0 < x -> x <= q * y -> y <= q * x ->
  Rabs (fxR x - fxR y) <= 3 / 2 * (q - 1).
Proof.
  intros Hq Hy Hx H1 H2. unfold fxR.
  assert (Lq : ln q <= q - 1).
  { destruct (Req_dec q 1) as [-> | Hn]; [rewrite ln_1; lra | ].
    pose proof (exp_ineq1 (ln q)) as E. rewrite exp_ln in E by lra.
    assert (ln q <> 0) by (intros Z; rewrite <- ln_1 in Z; apply ln_inv in Z; lra). specialize (E H). lra. }
  assert (L1 : ln x <= ln q + ln y).
  { rewrite <- ln_mult by lra. destruct H1 as [H1 | ->]; [left; apply ln_increasing; lra | lra]. }
  assert (L2 : ln y <= ln q + ln x).
  { rewrite <- ln_mult by lra. destruct H2 as [H2 | H2]; [left; apply ln_increasing; lra | rewrite <- H2; lra]. }
  assert (A : Rabs (ln x - ln y) <= q - 1) by (apply Rabs_le; lra).
  assert (B : Rabs (x - y) <= q - 1).
  { apply Rabs_le. split; [ | nra].
    destruct (Rle_dec y x); [lra | ]. nra. }
  replace (ln x - x / 2 + 1 / 2 - (ln y - y / 2 + 1 / 2)) with ((ln x - ln y) + - (/ 2 * (x - y))) by lra.
  eapply Rle_trans; [apply Rabs_triang | ]. rewrite Rabs_Ropp, Rabs_mult, (Rabs_pos_eq (/ 2)) by lra. lra.
Qed.

Lemma ca_energy_R n (na nb rho x : list R) :
  @ca_energy RNum n na nb rho x
  = Sum i < n, nth i rho 0 * (nth i na 0 * fxR (nth i x 0) + nth i nb 0 * fxR (nth (n + i) x 0)).
Proof.
  unfold ca_energy. rewrite nsumi_R. apply Sum_ext. intros i Hi.
  rewrite (ix_firstn (K := RNum)), (ix_skipn (K := RNum)) by auto. unfold f_assoc, fxR. rn. 
  change (@ix RNum rho i) with (nth i rho 0). change (@ix RNum na i) with (nth i na 0). change (@ix RNum nb i) with (nth i nb 0).
  change (@ix RNum x i) with (nth i x 0). change (@ix RNum x (n + i)) with (nth (n + i) x 0).
  field.
Qed.

Theorem energy_close n (na nb rho x y : list R) q : 1 <= q ->
  (forall j, (j < n)%nat -> 0 <= nth j na 0 /\ 0 <= nth j nb 0 /\ 0 <= nth j rho 0) ->
  (forall k, (k < n + n)%nat -> 0 < nth k y 0 <= 1) ->
  (forall k, (k < n + n)%nat -> 0 < nth k x 0 /\ nth k x 0 <= q * nth k y 0 /\ nth k y 0 <= q * nth k x 0) ->
  Rabs (@ca_energy RNum n na nb rho x - @ca_energy RNum n na nb rho y)
  <= 3 / 2 * (q - 1) * Sum i < n, nth i rho 0 * (nth i na 0 + nth i nb 0).
Proof.
  intros Hq Hn Hy Hx. rewrite !ca_energy_R, <- rsum_minus, <- rsum_scal.
  assert (B : forall i, (i < n)%nat ->
    Rabs (nth i rho 0 * (nth i na 0 * fxR (nth i x 0) + nth i nb 0 * fxR (nth (n + i) x 0))
          - nth i rho 0 * (nth i na 0 * fxR (nth i y 0) + nth i nb 0 * fxR (nth (n + i) y 0)))
    <= 3 / 2 * (q - 1) * (nth i rho 0 * (nth i na 0 + nth i nb 0))).
  { intros i Hi. destruct (Hn i Hi) as (A0 & B0 & R0).
    destruct (Hx i) as (X1 & X2 & X3); [lia | ]. destruct (Hx (n + i)%nat) as (Y1 & Y2 & Y3); [lia | ].
    pose proof (fx_close _ _ q Hq (Hy i ltac:(lia)) X1 X2 X3) as F1.
    pose proof (fx_close _ _ q Hq (Hy (n + i)%nat ltac:(lia)) Y1 Y2 Y3) as F2.
    set (u := fxR (nth i x 0)) in *. set (u' := fxR (nth i y 0)) in *.
    set (w := fxR (nth (n + i) x 0)) in *. set (w' := fxR (nth (n + i) y 0)) in *.
    replace (nth i rho 0 * (nth i na 0 * u + nth i nb 0 * w) - nth i rho 0 * (nth i na 0 * u' + nth i nb 0 * w'))
      with (nth i rho 0 * (nth i na 0 * (u - u') + nth i nb 0 * (w - w'))) by ring.
    rewrite Rabs_mult, (Rabs_pos_eq (nth i rho 0)) by auto.
    replace (3 / 2 * (q - 1) * (nth i rho 0 * (nth i na 0 + nth i nb 0)))
      with (nth i rho 0 * (nth i na 0 * (3 / 2 * (q - 1)) + nth i nb 0 * (3 / 2 * (q - 1)))) by ring.
    apply Rmult_le_compat_l; auto. eapply Rle_trans; [apply Rabs_triang | ].
    rewrite !Rabs_mult, (Rabs_pos_eq (nth i na 0)), (Rabs_pos_eq (nth i nb 0)) by auto.
    apply Rplus_le_compat; apply Rmult_le_compat_l; auto. }
  apply Rabs_le. split.
  - rewrite <- rsum_opp. apply rsum_le. intros i Hi. apply seq_in in Hi.
    specialize (B i Hi). apply Rabs_le_between in B. lra.
  - apply rsum_le. intros i Hi. apply seq_in in Hi. specialize (B i Hi). apply Rabs_le_between in B. lra.
Qed.
