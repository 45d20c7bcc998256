(** The Newton iteration of the cross-association commutes with a relabelling of the sites. *)
From Coq Require Import Reals Lra Lia List Arith Bool Permutation FinFun.
From Coquelicot Require Import Coquelicot.
From Verif Require Import Num RNum RSum M_Params M_Eos F_Newton F_Gauss F_NewtonR F_Cross.
Import ListNotations.
Local Open Scope R_scope.
Set Bullet Behavior "Strict Subproofs".

Lemma bij_perm N (f : nat -> nat) : bFun N f -> bInjective N f -> Permutation (map f (seq 0 N)) (seq 0 N).
Proof.
  intros B I. apply NoDup_Permutation_bis.
  - assert (J : forall l, NoDup l -> (forall k, In k l -> (k < N)%nat) -> NoDup (map f l)).
    { induction l as [ | a l IH]; intros D Hl; [constructor | ]. inversion D; subst. cbn [map]. constructor.
      - intros H. apply in_map_iff in H. destruct H as (b & E & Hb). apply I in E.
        + subst. contradiction.
        + apply Hl. right. auto.
        + apply Hl. left. auto.
      - apply IH; auto. intros k Hk. apply Hl. right. auto. }
    apply J; [apply seq_NoDup | ]. intros k Hk. apply seq_in in Hk. auto.
  - rewrite map_length. lia.
  - intros k Hk. apply in_map_iff in Hk. destruct Hk as (i & <- & Hi). apply seq_in in Hi. apply seq_in. auto.
Qed.
Lemma bij_sum N (f : nat -> nat) (g : nat -> R) : bFun N f -> bInjective N f ->
  (Sum k < N, g (f k)) = Sum k < N, g k.
Proof.
  intros B I. rewrite <- (rsum_map (seq 0 N) f g). apply rsum_perm. apply bij_perm; auto.
Qed.
Lemma bij_onto N (f : nat -> nat) j : bFun N f -> bInjective N f -> (j < N)%nat -> exists i, (i < N)%nat /\ f i = j.
Proof.
  intros B I Hj. assert (H : In j (map f (seq 0 N))).
  { apply (Permutation_in _ (Permutation_sym (bij_perm N f B I))). apply seq_in. auto. }
  apply in_map_iff in H. destruct H as (i & E & Hi). apply seq_in in Hi. exists i. auto.
Qed.
(** a permuted vector is the image of some vector *)
Lemma bij_section N (f : nat -> nat) (z' : nat -> R) : bFun N f -> bInjective N f ->
  exists z, forall k, (k < N)%nat -> z (f k) = z' k.
Proof.
  intros B I. exists (fun j => Sum k < N, if Nat.eqb (f k) j then z' k else 0). intros k Hk.
  rewrite (Sum_single N k); auto.
  - rewrite Nat.eqb_refl. auto.
  - intros i Hi Hn. destruct (Nat.eqb_spec (f i) (f k)) as [E | ]; auto. apply I in E; auto. contradiction.
Qed.

Section Perm.
  Variables (lu : lu_solver RNum) (n : nat).
  Hypothesis Hlu : lu_exact lu.
  Variables (delta delta' : list (list R)) (na nb rho na' nb' rho' : list R) (tol : R).
  Notation N := (n + n)%nat.
  Variable f : nat -> nat.
  Hypothesis HB : bFun N f.
  Hypothesis HI : bInjective N f.
  Notation D := (Dm n delta na nb rho).
  Notation D' := (Dm n delta' na' nb' rho').
  Hypothesis HD : forall k l, (k < N)%nat -> (l < N)%nat -> D' k l = D (f k) (f l).
  Notation step := (@newton_step RNum lu n delta na nb rho tol).
  Notation step' := (@newton_step RNum lu n delta' na' nb' rho' tol).

  Definition image (x' x : list R) : Prop :=
    length x = N /\ length x' = N /\ forall k, (k < N)%nat -> nth k x' 0 = nth (f k) x 0.

  Lemma sites_perm (z z' : nat -> R) k : (k < N)%nat -> (forall l, (l < N)%nat -> z' l = z (f l)) ->
    sites n delta' na' nb' rho' z' k = sites n delta na nb rho z (f k).
  Proof.
    intros Hk Hz. unfold sites, F_MassAction.row.
    rewrite <- (bij_sum N f (fun l => D (f k) l * z l)) by auto.
    apply Sum_ext. intros l Hl. rewrite HD, Hz by auto. auto.
  Qed.
  Lemma resid_perm x' x k : image x' x -> (k < N)%nat ->
    resid n delta' na' nb' rho' x' k = resid n delta na nb rho x (f k).
  Proof.
    intros (L & L' & E) Hk. unfold resid. rewrite E by auto.
    rewrite (sites_perm (fun l => nth l x 0) (fun l => nth l x' 0)); auto.
  Qed.
  Lemma resid_norm_perm x' x : image x' x ->
    resid_norm n delta' na' nb' rho' x' = resid_norm n delta na nb rho x.
  Proof.
    intros I. unfold resid_norm. f_equal.
    rewrite <- (bij_sum N f (fun k => resid n delta na nb rho x k * resid n delta na nb rho x k)) by auto.
    apply Sum_ext. intros k Hk. rewrite (resid_perm x' x) by auto. auto.
  Qed.
  Lemma hess_perm x' x (z z' : nat -> R) k : image x' x -> (k < N)%nat -> (forall l, (l < N)%nat -> z' l = z (f l)) ->
    mat_vec N (@ca_hess RNum n delta' na' nb' rho' x') z' k = mat_vec N (@ca_hess RNum n delta na nb rho x) z (f k).
  Proof.
    intros (L & L' & E) Hk Hz. rewrite !hess_R by auto.
    rewrite (sites_perm z z' k), (sites_perm (fun l => nth l x 0) (fun l => nth l x' 0) k) by auto.
    rewrite E, Hz by auto. auto.
  Qed.
  Lemma nonsingular_perm x' x : image x' x ->
    (nonsingular N (@ca_hess RNum n delta' na' nb' rho' x') <-> nonsingular N (@ca_hess RNum n delta na nb rho x)).
  Proof.
    intros I. split; intros H z Hz k Hk.
    - destruct (bij_onto N f k HB HI Hk) as (i & Hi & <-).
      apply (H (fun l => z (f l))); auto. intros l Hl.
      rewrite (hess_perm x' x z) by auto. auto.
    - destruct (bij_section N f z HB HI) as (y & Hy). rewrite <- Hy by auto. apply H; auto.
      intros l Hl. destruct (bij_onto N f l HB HI Hl) as (i & Hi & <-).
      rewrite <- (hess_perm x' x y z i I Hi) by (intros; symmetry; apply Hy; auto). auto.
  Qed.

  Definition same_outcome (r' r : res (list R * bool)) : Prop :=
    match r', r with
    | Ok (y', b'), Ok (y, b) => b' = b /\ image y' y
    | Err e', Err e => e' = e
    | _, _ => False
    end.

  Theorem step_perm x' x : image x' x -> same_outcome (step' x') (step x).
  Proof.
    intros I. pose proof I as (L & L' & E). unfold newton_step.
    pose proof (Hlu N _ _ (ca_hess_square (K := RNum) n delta na nb rho x) (ca_grad_length (K := RNum) n delta na nb rho x)) as H1.
    pose proof (Hlu N _ _ (ca_hess_square (K := RNum) n delta' na' nb' rho' x') (ca_grad_length (K := RNum) n delta' na' nb' rho' x')) as H2.
    destruct (lu (@ca_hess RNum n delta na nb rho x) _) as [dx | ];
    destruct (lu (@ca_hess RNum n delta' na' nb' rho' x') _) as [dx' | ].
    - destruct H1 as (N1 & Ld & S1). destruct H2 as (N2 & Ld' & S2).
      assert (Ed : forall k, (k < N)%nat -> nth k dx' 0 = nth (f k) dx 0).
      { intros k Hk. apply Rminus_diag_uniq.
        apply (N2 (fun l => nth l dx' 0 - nth (f l) dx 0)); auto. intros l Hl.
        transitivity (mat_vec N (@ca_hess RNum n delta' na' nb' rho' x') (fun l => nth l dx' 0) l
                      - mat_vec N (@ca_hess RNum n delta' na' nb' rho' x') (fun l => nth (f l) dx 0) l).
        { unfold mat_vec. rewrite <- rsum_minus. apply Sum_ext. intros j Hj. ring. }
        rewrite (hess_perm x' x (fun l => nth l dx 0) (fun l => nth (f l) dx 0)) by auto.
        rewrite S2, S1 by auto. rewrite !grad_R by auto. rewrite (resid_perm x' x) by auto. ring. }
      cbn. split.
      + change (Rltb (@norm RNum (map nre (@ca_grad RNum n delta' na' nb' rho' x'))) tol
                = Rltb (@norm RNum (map nre (@ca_grad RNum n delta na nb rho x))) tol).
        rewrite !norm_grad by auto. rewrite (resid_norm_perm x' x) by auto. auto.
      + assert (Z : length dx = length x) by congruence. assert (Z' : length dx' = length x') by congruence.
        split; [ | split].
        * rewrite map_length, combine_length. transitivity (Nat.min N N); [f_equal; auto | apply Nat.min_id].
        * rewrite map_length, combine_length. transitivity (Nat.min N N); [f_equal; auto | apply Nat.min_id].
        * intros k Hk.
          change (nth k (map (fun p : R * R => fst p - snd p) (combine x' dx')) 0
                  = nth (f k) (map (fun p : R * R => fst p - snd p) (combine x dx)) 0).
          rewrite !sub_list_nth by (auto; rewrite ?L, ?L'; auto). rewrite E, Ed by auto. auto.
    - apply H2. apply (nonsingular_perm x' x I). apply H1.
    - apply H1. apply (nonsingular_perm x' x I). apply H2.
    - reflexivity.
  Qed.

  Theorem loop_perm m x' x : image x' x ->
    match newton_loop step' m x', newton_loop step m x with
    | Ok y', Ok y => image y' y
    | Err e', Err e => e' = e
    | _, _ => False
    end.
  Proof.
    revert x' x. induction m as [ | m IH]; intros x' x I; cbn [newton_loop]; auto.
    pose proof (step_perm x' x I) as S.
    destruct (step' x') as [[y' b'] | e'], (step x) as [[y b] | e]; cbn in S; try contradiction; auto.
    destruct S as [-> Iy]. destruct b; auto. destruct m; auto. apply IH. auto.
  Qed.
End Perm.
