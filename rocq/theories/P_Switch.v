(** C08, the excluded points: where the association strength times the density equals 2^-26 the
    bonded fraction changes from the low-density expansion to the closed form, the energy jumps
    and no derivative exists, so no number returned by the generalized dual numbers is one. *)
From Coq Require Import ZArith QArith Reals Lra Lia String List Bool Classical_Prop.
From Coquelicot Require Import Coquelicot.
From Interval Require Import Tactic.
From Verif Require Import Num RNum RSum Tables M_Params F_Params M_Eos M_Virial Spec F_Spec F_SpecPolar F_SpecAssoc
  F_Contrib F_Cross F_Total F_Limit P_Limit P_Select F_Transfer XNum F_Transfer2 DNum F_Level P_Dual P_Dual2 F_Virial F_Taylor F_Virial2
  Samples F_Lump P_Assoc2 P_Split P_Conform F_Perturb P_Virial.
Import ListNotations.
Local Open Scope R_scope.
Set Bullet Behavior "Strict Subproofs".
Notation length := List.length.

Notation water_at v := (@state_new RNum 350 v [1]).
(** association strength times density *)
Definition w_dr (v : R) : R := Delta (mix_of w1) 350 (fun i => nth i [1] 0 / v) 0 0 * (1 / v).
Notation low := (/ 67108864).

Lemma w_dr_range v : 1000 <= v -> 1 / v < w_dr v < 10 ^ 4 / v.
Proof.
  intros Hv.
  assert (Hu : 0 <= / v <= / 1000) by (split; [left; apply Rinv_0_lt_compat; lra | apply Rinv_le_contravar; lra]).
  pose proof (w1_Delta (/ v) Hu) as HD. unfold w_dr.
  change (Delta (mix_of w1) 350 (fun i : nat => nth i [1] 0 / v) 0 0) with (Delta (mix_of w1) 350 (fun i => nth i [1] 0 * / v) 0 0).
  assert (0 < / v) by (apply Rinv_0_lt_compat; lra).
  set (D := Delta _ _ _ _ _) in *. clearbody D. unfold Rdiv. rewrite Rmult_1_l. split; [ | apply Rmult_lt_compat_r; lra].
  rewrite <- (Rmult_1_l (/ v)) at 1. apply Rmult_lt_compat_r; lra.
Qed.
Lemma w_dr_derivable v : 1000 < v -> ex_derive w_dr v.
Proof.
  intros Hv. assert (Hv' : / v <= / 1000) by (apply Rinv_le_contravar; lra).
  unfold w_dr, Delta, Gij, Zeta, Kapij, Sij, Di. cbn. auto_derive.
  repeat split; try lra; try (apply Rgt_not_eq; interval).
Qed.

(** the energy of association of water *)
Lemma w_assoc v : 1000 <= v -> a_assoc w1 (water_at v) = 2 * fx (@assoc_site_frac_ab RNum (w_dr v) 1 1).
Proof.
  intros Hv.
  unfold a_assoc. rewrite w1_comp. change (ixn [0%nat] 0) with 0%nat. cbv zeta.
  change (s_t (water_at v)) with 350.
  rewrite (assoc_deltarho w1 (wfp_from_records _ _ _ w1_ok) w1_phys 350 v [1] (w1_state v Hv) 0 w1_comp).
  change (Delta (mix_of w1) 350 (fun i : nat => nth i [1] 0 / v) 0 0 * (nth 0 [1] 0 / v)) with (w_dr v).
  change (@ix RNum (p_na w1) 0) with 1. change (@ix RNum (p_nb w1) 0) with 1.
  change (@ix RNum (s_moles (water_at v)) 0) with 1.
  change (@nltb RNum n0 1) with (Rltb (@n0 RNum) 1). rewrite (proj2 (Rltb_true _ _)) by (rn; lra).
  rewrite !f_assoc_R. set (y := @assoc_site_frac_ab RNum (w_dr v) 1 1). clearbody y. change (car RNum) with R in *.
  rn. replace ((y - 1) * (1 / 1) + 1) with y by lra. ring.
Qed.

(** the last volume with a bonding above the switch *)
Lemma w_switch : exists v0, 1000 < v0 /\ w_dr v0 = low /\ forall e, 0 < e -> exists v, 1000 < v /\ Rabs (v - v0) < e /\ low < w_dr v.
Proof.
  set (E := fun v => 1000 < v /\ low < w_dr v).
  assert (B : bound E).
  { exists (10 ^ 12). intros v [Hv H]. destruct (Rle_dec v (10 ^ 12)) as [ | n]; auto. exfalso.
    apply Rnot_le_lt in n. destruct (w_dr_range v) as [_ U]; [lra | ].
    assert (10 ^ 4 / v <= 10 ^ 4 / 10 ^ 12) by (apply Rmult_le_compat_l; [lra | apply Rinv_le_contravar; lra]). lra. }
  assert (M : E 2000).
  { split; [lra | ]. destruct (w_dr_range 2000) as [U _]; lra. }
  destruct (completeness E B (ex_intro _ _ M)) as (v0 & Up & Least).
  assert (H0 : 2000 <= v0) by (apply Up; exact M).
  assert (C : continuous w_dr v0) by (apply @ex_derive_continuous, w_dr_derivable; lra).
  assert (N : forall e, 0 < e -> exists d, 0 < d /\ forall v, Rabs (v - v0) < d -> Rabs (w_dr v - w_dr v0) < e).
  { intros e He. destruct (proj1 (filterlim_locally w_dr (w_dr v0)) C (mkposreal e He)) as (d & Hd).
    exists d. split; [apply cond_pos | intros v Hv; apply (Hd v Hv)]. }
  assert (A : forall e, 0 < e -> exists v, 1000 < v /\ Rabs (v - v0) < e /\ low < w_dr v).
  { intros e He. destruct (Classical_Prop.classic (exists v, E v /\ v0 - e < v)) as [(v & [Hv H] & Hl) | n].
    - exists v. split; [auto | split; auto]. assert (v <= v0) by (apply Up; split; auto). apply Rabs_def1; lra.
    - exfalso. assert (v0 <= v0 - e); [ | lra]. apply Least. intros v Hv. apply Rnot_lt_le. intros Hl. apply n. exists v; auto. }
  exists v0. split; [lra | split; [ | exact A]].
  destruct (Rtotal_order (w_dr v0) low) as [L | [L | L]]; [exfalso | exact L | exfalso].
  - destruct (N (low - w_dr v0)) as (d & Hd & Nd); [lra | ]. destruct (A d Hd) as (v & _ & Hv & H).
    apply Nd, Rabs_def2 in Hv. lra.
  - destruct (N (w_dr v0 - low)) as (d & Hd & Nd); [lra | ].
    assert (v0 + d / 2 <= v0); [ | lra]. apply Up. split; [lra | ].
    assert (Rabs (v0 + d / 2 - v0) < d) as K by (rewrite Rabs_pos_eq; lra). apply Nd, Rabs_def2 in K. lra.
Qed.

(** the closed form and the expansion differ at the switch *)
Lemma fx_increasing x y : 0 < x -> x < y -> y <= 1 -> fx x < fx y.
Proof.
  intros Hx Hxy Hy. unfold fx. assert (K : ln x - ln y < (x - y) / 2); [ | lra].
  rewrite <- ln_div by lra. assert (P : 0 < x / y) by (apply Rdiv_lt_0_compat; lra).
  pose proof (exp_ineq1_le (ln (x / y))) as H. rewrite exp_ln in H by auto.
  assert (x / y - 1 <= x - y).
  { apply Rmult_le_reg_r with y; [lra | ]. replace ((x / y - 1) * y) with (x - y) by (field; lra). nra. }
  lra.
Qed.
Lemma w_jump : fx (frac_ab low 1 1) <> fx (1 + low * 1 * (low * (1 + 1) - 1)).
Proof.
  destruct (frac_ab_law low 1 1) as ([P Q] & _ & [L _]); try lra. set (x := frac_ab low 1 1) in *. clearbody x.
  replace ((x - 1) * (1 / 1) + 1) with x in L by field.
  set (y := 1 + low * 1 * (low * (1 + 1) - 1)). assert (Hy : 1 / 2 < y <= 1) by (unfold y; lra).
  assert (N : x <> y) by (intros ->; unfold y in L; lra). clearbody y.
  destruct (Rtotal_order x y) as [K | [K | K]]; [ | contradiction | ].
  - pose proof (fx_increasing x y P K ltac:(lra)). lra.
  - pose proof (fx_increasing y x ltac:(lra) K ltac:(lra)). lra.
Qed.

Lemma frac_ab_continuous d : 0 < d -> continuous (fun d => 2 * fx (frac_ab d 1 1)) d.
Proof.
  intros Hd. destruct (frac_ab_law d 1 1) as ([P Q] & _ & _); try lra.
  apply (@ex_derive_continuous R_AbsRing R_NormedModule). unfold fx, frac_ab in *. auto_derive.
  repeat split; try nra; auto.
Qed.

(** At a volume where the strength of the association times the density is 2^-26 the energy is
    not continuous in the volume. *)
Lemma w_discontinuous v0 : 1000 < v0 -> w_dr v0 = low -> (forall e, 0 < e -> exists v, 1000 < v /\ Rabs (v - v0) < e /\ low < w_dr v) ->
  ~ continuous (fun v => a_assoc w1 (water_at v)) v0.
Proof.
  intros Hv E A C. set (F := fun v => a_assoc w1 (water_at v)) in *. set (G := fun v => 2 * fx (frac_ab (w_dr v) 1 1)).
  assert (CG : continuous G v0).
  { apply (continuous_comp w_dr (fun d => 2 * fx (frac_ab d 1 1))).
    - apply @ex_derive_continuous, w_dr_derivable; auto.
    - apply frac_ab_continuous. rewrite E. lra. }
  assert (CH : continuous (fun v => minus (F v) (G v)) v0) by (apply @continuous_minus; auto).
  assert (J : F v0 - G v0 <> 0).
  { unfold F, G. rewrite w_assoc by lra. rewrite E, assoc_site_frac_ab_below by lra. pose proof w_jump. lra. }
  destruct (proj1 (filterlim_locally _ _) CH (mkposreal _ (Rabs_pos_lt _ J))) as (d & Hd).
  destruct (A d (cond_pos d)) as (v & H1 & H2 & H3). specialize (Hd v H2).
  assert (Z : F v = G v).
  { unfold F, G. rewrite w_assoc by lra. rewrite assoc_site_frac_ab_above by lra. reflexivity. }
  cbv beta in Hd. rewrite Z in Hd.
  change (Rabs ((G v - G v) - (F v0 - G v0)) < Rabs (F v0 - G v0)) in Hd.
  replace (G v - G v - (F v0 - G v0)) with (- (F v0 - G v0)) in Hd by ring. rewrite Rabs_Ropp in Hd. lra.
Qed.

(* ---------------------------------------------------------------- the residual energy *)

Lemma w_part (part : forall K : Num, params K -> state K -> car K) v0 : 1000 <= v0 ->
  (forall n seeds, phys_state w1 350 v0 (map fst seeds) -> forall dt dv,
     represents n (fun z => part RNum w1 (path n 350 v0 dt dv seeds z)) (part (lK (dual n)) (plift (emb (TRn n)) w1) (dstate n 350 v0 dt dv seeds))) ->
  continuous (fun v => part RNum w1 (water_at v)) v0.
Proof.
  intros Hv H. destruct (H 1%nat [(1, [0])] (w1_state v0 Hv) [0] [1] [true] eq_refl) as (r & _ & g & D & _).
  apply (@ex_derive_continuous R_AbsRing R_NormedModule). exists (g tt).
  apply (is_derive_ext (fun v => part RNum w1 (path 1 350 v0 [0] [1] [(1, [0])] (v - v0, tt)))).
  { intros v. unfold path. cbn [aff map hd tl fst snd]. do 2 f_equal; [ring | ring | f_equal; ring]. }
  replace (g tt) with (scal 1 (g tt)) by (unfold scal; cbn; unfold mult; cbn; ring).
  apply (is_derive_comp (fun x => part RNum w1 (path 1 350 v0 [0] [1] [(1, [0])] (x, tt))) (fun v => v - v0)).
  - replace (v0 - v0) with 0 by ring. exact D.
  - auto_derive; auto.
Qed.

Lemma some_eq {T} (x y : T) : Some x = Some y -> x = y.
Proof. intros H. injection H. auto. Qed.
Lemma w1_ndipole : p_ndipole w1 = 0%nat.
Proof.
  pose proof (wfp_from_records _ _ _ w1_ok) as W. rewrite (w_nd _ W), (w_dip _ W). change (length (p_m w1)) with 1%nat. cbn [seq filter].
  rewrite (proj2 (nonzero_R_false (@ix RNum (p_mu2 w1) 0)) water_mu2). reflexivity.
Qed.
Lemma w1_nquadpole : p_nquadpole w1 = 0%nat.
Proof.
  pose proof (wfp_from_records _ _ _ w1_ok) as W. rewrite (w_nq _ W), (w_quad _ W). change (length (p_m w1)) with 1%nat. cbn [seq filter].
  rewrite (proj2 (nonzero_R_false (@ix RNum (p_q2 w1) 0)) water_q2). reflexivity.
Qed.

(** FALSE of the code, without the exclusion of the switch: "the derivative of the residual energy
    with respect to the volume exists and is the one returned".  Water at 350 K has a physical
    volume where the plain residual energy has no derivative at all, while the evaluation with a
    seeded volume returns a result there. *)
Theorem C08_switch_refuted lu lu2 : exists v A a, phys_state w1 350 v [1] /\
  (forall V, residual lu (with_options w1 default_options) (water_at V) = Some (A V)) /\
  residual lu2 (with_options (plift (emb (TRn 1)) w1) (lift_options (emb (TRn 1)) default_options))
    (@state_new (lK (dual 1)) (Fin 350, Fin 0) (Fin v, Fin 1) [(Fin 1, Fin 0)]) = Some a /\
  forall r, ~ is_derive A v r.
Proof.
  destruct w_switch as (v0 & Hv & E & N).
  set (A := fun V => match residual lu (with_options w1 (@default_options RNum)) (water_at V) with Some r => r | None => 0 end).
  assert (EA : forall V, residual lu (with_options w1 (@default_options RNum)) (water_at V) = Some (A V)).
  { intros V. destruct (residual_some w1 lu (@default_options RNum) (water_at V)) as (r & Er).
    - rewrite w1_nassoc. lia.
    - unfold A. rewrite Er. reflexivity. }
  assert (Ed : exists a, residual lu2 (with_options (plift (emb (TRn 1)) w1) (lift_options (emb (TRn 1)) (@default_options RNum)))
    (@state_new (lK (dual 1)) (Fin 350, Fin 0) (Fin v0, Fin 1) [(Fin 1, Fin 0)]) = Some a).
  { generalize (@state_new (lK (dual 1)) (Fin 350, Fin 0) (Fin v0, Fin 1) [(Fin 1, Fin 0)]). intros s.
    unfold residual, with_options. cbn [e_contributions e_params].
    change (p_ndipole (plift (emb (TRn 1)) w1)) with (p_ndipole w1). change (p_nquadpole (plift (emb (TRn 1)) w1)) with (p_nquadpole w1).
    change (p_nassoc (plift (emb (TRn 1)) w1)) with (p_nassoc w1). rewrite w1_nassoc.
    destruct (Nat.ltb 0 (p_ndipole w1)), (Nat.ltb 0 (p_nquadpole w1)); eexists; reflexivity. }
  destruct Ed as (a & Ed). exists v0, A, a. split; [apply w1_state; lra | split; [exact EA | split; [exact Ed | ]]].
  intros r D.
  apply (w_discontinuous v0 Hv E N).
  assert (CA : continuous A v0) by (apply (@ex_derive_continuous R_AbsRing R_NormedModule); exists r; exact D).
  assert (C1 : continuous (fun v => a_hs w1 (water_at v)) v0).
  { apply (w_part (fun K => @a_hs K)); [lra | ]. intros n seeds PS dt dv. exact (C08_hard_sphere _ _ _ w1_ok w1_phys n 350 v0 dt dv seeds PS). }
  assert (C2 : continuous (fun v => a_hc w1 (water_at v)) v0).
  { apply (w_part (fun K => @a_hc K)); [lra | ]. intros n seeds PS dt dv. exact (C08_hard_chain _ _ _ w1_ok w1_phys n 350 v0 dt dv seeds PS). }
  assert (C3 : continuous (fun v => a_disp w1 (water_at v)) v0).
  { apply (w_part (fun K => @a_disp K)); [lra | ]. intros n seeds PS dt dv. exact (C08_dispersion _ _ _ w1_ok w1_phys n 350 v0 dt dv seeds PS). }
  apply (continuous_ext (fun v => minus (A v) (plus (a_hs w1 (water_at v)) (plus (a_hc w1 (water_at v)) (a_disp w1 (water_at v)))))).
  - intros v. assert (S : A v = a_hs w1 (water_at v) + a_hc w1 (water_at v) + a_disp w1 (water_at v) + a_assoc w1 (water_at v)).
    { pose proof (EA v) as H. revert H. generalize (A v). intros y H. unfold residual, with_options in H. cbn [e_contributions e_params] in H.
      rewrite w1_nassoc, w1_ndipole, w1_nquadpole in H.
      cbn [Nat.ltb Nat.leb Nat.eqb app map eval_contribution collect_opt] in H.
      apply some_eq in H. rewrite <- H. unfold nsum. cbn [fold_left]. rn. change (car RNum) with R in *. ring. }
    rewrite S. unfold minus, plus, opp. cbn. ring.
  - apply @continuous_minus; [exact CA | ]. apply @continuous_plus; [exact C1 | ]. apply @continuous_plus; [exact C2 | exact C3].
Qed.

Print Assumptions C08_switch_refuted.
