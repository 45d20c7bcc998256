(** C45: which average of the density each contribution takes, in the functional and in its
    square-gradient approximation. *)
From Coq Require Import ZArith QArith Reals Lra Lia String List Bool Psatz.
From Verif Require Import Num RNum RSum Tables M_Params F_Params M_Eos M_Dft M_Profile Spec SpecDft F_Spec F_SpecPolar
  F_SpecAssoc F_Contrib Samples F_Total P_Params P_Select P_Fmt P_Assoc F_Dft F_Dft2 F_DftT2 P_Dft P_DftR P_Profile.
From Interval Require Import Tactic.
Import ListNotations.
Local Open Scope R_scope.
Set Bullet Behavior "Strict Subproofs".

(** radius of the averaging sphere in units of the segment diameter: Sauer and Gross (2017) for the
    functional, Rehner and Gross (2018) for the square-gradient approximation *)
Definition range_of (square_gradient : bool) : R := if square_gradient then 1.3286 else 1.3862.
(** mean density of component i in the sphere of that radius around the point *)
Definition sphere_mean (X : mixture) (t : R) (conv : wf_shape -> R -> nat -> nat -> R) (sg : bool) (i : nat) : R :=
  conv Theta (range_of sg * Di X t i) i 0%nat / (4 / 3 * PI * (range_of sg * Di X t i) ^ 3).

Lemma range_pos sg : 0 < range_of sg.
Proof. destruct sg; unfold range_of; lra. Qed.
Lemma range_dft : range_of false = @psi_dft RNum.
Proof. unfold range_of, psi_dft. rn. lra. Qed.
Lemma range_pdgt : range_of true = @psi_pdgt RNum.
Proof. unfold range_of, psi_pdgt. rn. lra. Qed.

Section Range.
  Variables (prs : list (pure_record RNum)) (bin : list (list R)) (p : params RNum).
  Hypothesis Hp : from_records prs bin = Some p.
  Hypothesis Hph : phys p.
  Variable t : R.
  Hypothesis Ht : 0 < t.
  Let W := wfp_from_records _ _ _ Hp.
  Let X := mix_of p.
  Notation n := (List.length (p_m p)).
  Variables (dim : nat) (local : nat -> R) (conv : wf_shape -> R -> nat -> nat -> R).

  Lemma weights_att sg c : c = FAtt \/ c = FPureAtt ->
    contribution_weights sg p t c = Some (@att_weight_functions RNum (range_of sg) p t).
  Proof.
    intros [-> | ->]; unfold contribution_weights; destruct sg; rewrite ?range_dft, ?range_pdgt; reflexivity.
  Qed.

  (** the attraction terms see the mean density in spheres of these radii *)
  Theorem C45_attraction_range sg c : c = FAtt \/ c = FPureAtt ->
    exists wi, contribution_weights sg p t c = Some wi /\
      profile_wd wi n dim local conv = map (sphere_mean X t conv sg) (seq 0 n).
  Proof.
    intros Hc. exists (@att_weight_functions RNum (range_of sg) p t). split; [apply weights_att; exact Hc | ].
    exact (att_pwd prs bin p Hp Hph t Ht dim local conv (range_of sg) (range_pos sg)).
  Qed.

  (** value of the attraction term at the point: the dispersion and polar terms of a uniform fluid
      with the mean densities *)
  Theorem C45_attraction_point lu sg : (p_nquadpole p <= 1)%nat ->
    let rho := map (sphere_mean X t conv sg) (seq 0 n) in
    phys_state p t 1 rho -> / 2 ^ 52 < (Sum i < n, sphere_mean X t conv sg i) ->
    let s := @state_new RNum t 1 rho in
    point_contribution sg lu p t dim local conv FAtt
    = Some (a_disp p s + a_dipole p s + a_quadrupole p s + a_dq p DQ35 s).
  Proof.
    intros Hq rho PS He s. unfold point_contribution. rewrite (weights_att sg) by auto.
    unfold contribution_density. f_equal.
    exact (C45_attraction prs bin p Hp Hph t Ht dim local conv (range_of sg) (range_pos sg) Hq PS He).
  Qed.

  (** all other contributions use the same averages in the square-gradient approximation *)
  Theorem C45_same_averages lu c : c <> FAtt -> c <> FPureAtt ->
    contribution_weights true p t c = contribution_weights false p t c /\
    point_contribution true lu p t dim local conv c = point_contribution false lu p t dim local conv c.
  Proof. intros H1 H2. destruct c; try congruence; split; reflexivity. Qed.

  (** in a uniform fluid the functional and its square-gradient approximation have the same energy,
      contribution by contribution, namely the one used for bulk properties (C09, C43) *)
  Theorem C45_uniform_point lu sg c (rho : list R) : (forall v, c <> FFmt v) -> phys_state p t 1 rho ->
    point_contribution sg lu p t dim (fun i => nth i rho 0) (fun s r i _ => @shape_integral RNum s r * nth i rho 0) c
    = bulk_contribution lu p t dim rho c.
  Proof.
    intros Hc PS.
    assert (L : List.length rho = n) by exact (ps_len _ _ _ _ PS).
    assert (Es : s_rho (@state_new RNum t 1 rho) = rho).
    { unfold state_new. cbn [s_rho]. rewrite <- (map_id rho) at 2. apply map_ext. intros a. rn. field. }
    assert (A : forall psi, 0 < psi -> @bulk_wd RNum (@att_weight_functions RNum psi p t) dim rho = rho).
    { intros psi Hpsi. pose proof (att_wd p W Hph t 1 rho PS psi dim Hpsi) as E. rewrite Es in E. exact E. }
    assert (B : @bulk_wd RNum (att_weight_functions (@psi_dft RNum) p t) dim rho = rho).
    { apply A. rewrite <- range_dft. apply (range_pos false). }
    assert (U : forall wi : weight_info RNum, profile_wd wi n dim (fun i => nth i rho 0) (fun s r i _ => @shape_integral RNum s r * nth i rho 0)
      = @bulk_wd RNum wi dim rho).
    { intros wi. rewrite <- L. apply C45_uniform. }
    unfold point_contribution.
    destruct c as [v | | | v | | | k tol]; try (exfalso; apply (Hc v); reflexivity);
      try (rewrite (weights_att sg) by auto); unfold contribution_weights, contribution_density, bulk_contribution;
      rewrite U; try reflexivity; rewrite (A _ (range_pos sg)), B; reflexivity.
  Qed.
End Range.

(** non-vacuity: the three-component mixture of the other examples near a planar interface, both
    versions; [slope] gives every component the mean density 3/(400 pi) *)
Example C45_attraction_point_case lu local sg :
  let s := @state_new RNum 350 1 (repeat (3 / (400 * PI)) 3) in
  point_contribution sg lu sample 350 1 local slope FAtt
  = Some (a_disp sample s + a_dipole sample s + a_quadrupole sample s + a_dq sample DQ35 s).
Proof.
  assert (H350 : 0 < 350) by lra.
  assert (B : 0.001 <= 3 / (400 * PI) <= 0.0025) by (split; interval).
  pose proof (C45_attraction_point _ _ _ sample_ok sample_phys 350 H350 1 local slope lu sg) as H.
  assert (Q : (p_nquadpole sample <= 1)%nat) by (destruct sample_counts as (_ & E & _); rewrite E; lia).
  specialize (H Q). cbv zeta in H. change (List.length (p_m sample)) with 3%nat in H.
  assert (E : map (sphere_mean (mix_of sample) 350 slope sg) (seq 0 3) = repeat (3 / (400 * PI)) 3)
    by exact (sample_att (range_of sg) (range_pos sg)).
  assert (Ei : forall i, (i < 3)%nat -> sphere_mean (mix_of sample) 350 slope sg i = 3 / (400 * PI))
    by (intros i Hi; exact (slope_att (range_of sg) i (range_pos sg) Hi)).
  rewrite E in H. apply H.
  - apply phys_state_intro; [exact sample_phys | lra | lra | reflexivity | | | ].
    + intros i Hi. change (List.length (p_m sample)) with 3%nat in Hi. destruct i as [ | [ | [ | i]]]; [ | | | lia]; cbn [nth repeat]; lra.
    + exists 0%nat. change (List.length (p_m sample)) with 3%nat. split; [lia | cbn [nth repeat]; lra].
    + change (List.length (p_m sample)) with 3%nat. unfold rsum. cbn [seq map fold_right nth repeat].
      change (@ix RNum (p_m sample) 0) with (2.2634). change (@ix RNum (p_m sample) 1) with (1.5131). change (@ix RNum (p_m sample) 2) with (1.065587).
      change (@ix RNum (p_sigma sample) 0) with (3.2723). change (@ix RNum (p_sigma sample) 1) with (3.1869). change (@ix RNum (p_sigma sample) 2) with (3.000683).
      set (r := 3 / (400 * PI)) in *. clearbody r. interval.
  - unfold rsum. cbn [seq map fold_right]. rewrite !Ei by lia.
    set (r := 3 / (400 * PI)) in *. clearbody r. interval.
Qed.

Print Assumptions C45_attraction_range.
Print Assumptions C45_attraction_point.
Print Assumptions C45_same_averages.
Print Assumptions C45_uniform_point.
