(** C43: the functional of a uniform fluid and the equation of state have the same derivatives.

    feos_dft evaluates the functional of a uniform fluid with the same dual numbers as the equation
    of state and multiplies the Helmholtz energy density with the volume.  C09 and C10 compare the
    plain values; here every coefficient of the dual numbers is compared, that is, every derivative
    of any order in temperature, volume and mole numbers: pressures, chemical potentials, entropies
    and heat capacities of a functional in the bulk are those of the equation of state. *)
From Coq Require Import ZArith QArith Reals Lra Lia String List Bool.
From Coquelicot Require Import Coquelicot.
From Interval Require Import Tactic.
From Verif Require P_Params P_Select P_Finite2 P_Assoc2.
From Verif Require Import Num RNum RSum Tables M_Params F_Params M_Eos M_Dft Spec F_Spec F_SpecPolar F_SpecAssoc
  F_Contrib F_Cross F_Gauss F_Total Samples F_Transfer XNum F_Transfer2 DNum F_Level P_Dual P_Dual2 F_DualNewton F_DualGauss F_DualRun P_Dual3
  F_Dft F_Dft2 P_Dft P_DftR F_DftT F_DftT2 F_DftT3 P_DftD F_DftU P_Dual4 F_DftU2.
Import ListNotations.
Local Open Scope R_scope.
Set Bullet Behavior "Strict Subproofs".
Notation length := List.length.

(** residual Helmholtz energy of the equation of state (eos/mod.rs, evaluate_residual) in dual
    numbers with [n] infinitesimals: temperature t + sum dt_k e_k, volume v + sum dv_k e_k, amounts
    m_i + sum d_ik e_k *)
Definition eos_dual n (lu : lu_solver (lK (dual n))) p o t v dt dv seeds : option (dnum n) :=
  residual lu (with_options (dparams p n) (lift_options (emb (TRn n)) o)) (dstate n t v dt dv seeds).
(** Helmholtz energy density of the functional (dft/mod.rs 45-104) at the same temperature and the
    uniform densities m_i / v, in [dim] dimensions *)
Definition functional_dual n (lu : lu_solver (lK (dual n))) p fv o t v dt dv seeds dim : option (dnum n) :=
  f_bulk lu (f_with_options (dparams p n) fv (lift_options (emb (TRn n)) o)) (seed n t dt) dim (s_rho (dstate n t v dt dv seeds)).
(** the density [phi] times the volume has the coefficients of [a] *)
Definition same_derivatives n (phi vol a : dnum n) : Prop :=
  forall s, length s = n -> exists x, coef n s a = Fin x /\ coef n s (nmul phi vol) = Fin x.

Lemma quotient_same n (a : dnum n) (v : R) (dv : list R) : v <> 0 -> finite_dual n a ->
  same_derivatives n (ndiv a (seed n v dv)) (seed n v dv) a.
Proof.
  intros Hv F s Hs. destruct (F s Hs) as (x & E). exists x. split; [exact E | ].
  destruct (finite_rel n a F) as (f & Tf). pose proof (rel_aff n v dv) as Tv.
  assert (Hv0 : aff n v dv (lz (dual n)) <> 0) by (rewrite aff_base; exact Hv).
  rewrite <- E. f_equal.
  apply (rel_same n (fun z => @nmul RNum (@ndiv RNum (f z) (aff n v dv z)) (aff n v dv z)) f).
  - apply (tr_mul _ _ (TRn n)); [apply (tr_div _ _ (TRn n)); assumption | exact Tv].
  - exact Tf.
  - assert (Nv : near (dual n) (fun z => aff n v dv z <> 0)).
    { destruct (Rlt_or_le 0 v) as [P | P].
      - eapply near_imp; [ | apply (rel_gt (dual n) _ _ 0 Tv); cbv beta; rewrite aff_base; exact P]. intros z Hz. cbv beta in *. lra.
      - eapply near_imp; [ | apply (rel_lt (dual n) _ _ 0 Tv); cbv beta; rewrite aff_base; lra]. intros z Hz. cbv beta in *. lra. }
    eapply near_imp; [ | exact Nv]. intros z Hz. cbv beta in *. rn. field. exact Hz.
Qed.
Lemma partial_scale n s f a c : partial n s f a -> partial n s (fun z => f z / c) (a / c).
Proof.
  revert s f a. induction n as [ | n IH]; intros s f a A; cbn [partial] in *; [subst; reflexivity | ].
  destruct (hd false s); [ | exact (IH _ _ _ A)].
  destruct A as (f' & A1 & A2). exists (fun y => f' y / c). split; [ | exact (IH _ _ _ A2)].
  eapply near_imp; [ | exact A1]. intros y D. cbv beta in *.
  apply (is_derive_ext (fun x => scal (/ c) (f (x, y)))); [intros x; unfold scal; cbn; unfold mult; cbn; unfold Rdiv; ring | ].
  replace (f' y / c) with (scal (/ c) (f' y)) by (unfold scal; cbn; unfold mult; cbn; unfold Rdiv; ring).
  apply is_derive_scal. exact D.
Qed.
Lemma partial_unique n s f a b : partial n s f a -> partial n s f b -> a = b.
Proof.
  revert s f a b. induction n as [ | n IH]; intros s f a b A B; cbn [partial] in *; [congruence | ].
  destruct (hd false s); [ | exact (IH _ _ _ _ A B)].
  destruct A as (f' & A1 & A2). destruct B as (g' & B1 & B2). apply (IH (tl s) f'); auto.
  eapply partial_near; [ | exact B2]. eapply near_imp; [ | exact (near_and (dual n) _ _ A1 B1)]. intros y [D1 D2]. cbv beta in *.
  rewrite <- (is_derive_unique _ _ _ D1). symmetry. rewrite <- (is_derive_unique _ _ _ D2). reflexivity.
Qed.
(** at fixed volume the coefficients of the density are those of the energy over the volume *)
Lemma quotient_fixed n (a : dnum n) (v : R) : v <> 0 -> finite_dual n a ->
  forall s, length s = n -> exists x, coef n s a = Fin x /\ coef n s (ndiv a (seed n v [])) = Fin (x / v).
Proof.
  intros Hv F s Hs. destruct (finite_rel n a F) as (f & Tf). pose proof (rel_aff n v []) as Tv.
  assert (Hv0 : aff n v [] (lz (dual n)) <> 0) by (rewrite aff_base; exact Hv).
  pose proof (rel_represents n _ _ (tr_div _ _ (TRn n) _ _ _ _ Tf Tv Hv0) s Hs) as (y & E2 & P2).
  destruct (rel_represents n _ _ Tf s Hs) as (x & E1 & P1). exists x. split; [exact E1 | ].
  rewrite E2. f_equal. eapply partial_unique; [exact P2 | ].
  eapply partial_near; [ | apply (partial_scale n s f x v P1)]. eapply near_imp; [ | apply near_true]. intros z _. cbv beta. rewrite aff_nil. rn. reflexivity.
Qed.

Section Bulk.
  Variables (prs : list (pure_record RNum)) (bin : list (list R)) (p : params RNum).
  Hypothesis Hp : from_records prs bin = Some p.
  Hypothesis Hph : phys p.
  Variables (n : nat) (t v : R) (dt dv : list R) (seeds : list (R * list R)).
  Notation moles := (map fst seeds). Notation X := (mix_of p). Notation c := (length (p_m p)).
  Notation rho := (fun i => nth i moles 0 / v).
  Hypothesis PS : phys_state p t v moles.
  (** no empty component, more than f64::EPSILON and the density 1e-5 below which the association
      functional takes a shortcut *)
  Hypothesis Hpos : forall i, (i < c)%nat -> 0 < nth i moles 0.
  Hypothesis He : @f_eps RNum < density moles v.
  Hypothesis Hn : 1 / 100000 < Eta X t rho.
  (** the functional has no coupling between different quadrupolar components and only the default
      variant of the cross term (C09, finding on quadrupoles) *)
  Hypothesis Hq1 : (p_nquadpole p <= 1)%nat.
  Hypothesis Np : P_Dual4.no_pole p t v seeds DQ35.
  Hypothesis H1 : forall a, p_assoc_comp p = [a] -> one_regular p t v seeds a.

  Let v_nz : v <> 0.
  Proof. pose proof (ps_v _ _ _ _ PS). lra. Qed.

  (** Whenever the equation of state has finite derivatives, the functional has the same ones;
      it fails exactly when the equation of state fails. Any number of associating components. *)
  Theorem C43_mixture lu fv o dim : o_dq o = DQ35 -> fv = KierlikRosinberg \/ c <> 1%nat ->
    match eos_dual n lu p o t v dt dv seeds with
    | Some a => finite_dual n a ->
        exists phi, functional_dual n lu p fv o t v dt dv seeds dim = Some phi /\ same_derivatives n phi (seed n v dv) a
    | None => functional_dual n lu p fv o t v dt dv seeds dim = None
    end.
  Proof.
    intros Ho Hf. pose proof (U_total prs bin p Hp Hph n t v dt dv seeds PS Hpos He Hn dim Hq1 Np lu fv o Ho Hf H1) as H.
    unfold eos_dual, functional_dual. destruct (residual lu _ _) as [a | ]; [ | exact H].
    intros F. exists (ndiv a (seed n v dv)). split; [exact (H F) | ]. apply quotient_same; auto.
  Qed.
  (** at a fixed volume: every derivative of the density is that of the energy, over the volume *)
  Theorem C43_fixed_volume lu fv o dim : dv = [] -> o_dq o = DQ35 -> fv = KierlikRosinberg \/ c <> 1%nat ->
    forall a, eos_dual n lu p o t v dt dv seeds = Some a -> finite_dual n a ->
      exists phi, functional_dual n lu p fv o t v dt dv seeds dim = Some phi /\
        forall s, length s = n -> exists x, coef n s a = Fin x /\ coef n s phi = Fin (x / v).
  Proof.
    intros Hd Ho Hf a Ea F. pose proof (U_total prs bin p Hp Hph n t v dt dv seeds PS Hpos He Hn dim Hq1 Np lu fv o Ho Hf H1) as H.
    unfold eos_dual in Ea. rewrite Ea in H. specialize (H F). exists (ndiv a (seed n v dv)). split; [exact H | ].
    rewrite Hd. apply quotient_fixed; auto.
  Qed.

  Let at_most_one lu lu2 o : o_dq o = DQ35 -> (p_nassoc p <= 1)%nat ->
    exists f a, (forall z, residual lu (with_options p o) (path n t v dt dv seeds z) = Some (f z)) /\
      eos_dual n lu2 p o t v dt dv seeds = Some a /\ represents n f a.
  Proof.
    intros Ho Ha. destruct Np as (N1 & N2 & N3).
    apply (C08_residual prs bin p Hp Hph n t v dt dv seeds PS lu lu2 o); auto.
    intros D1 D2. left. rewrite Ho. exact (N3 D1 D2).
  Qed.
  Let finite_of f a : represents n f a -> finite_dual n a.
  Proof. intros H s Hs. destruct (H s Hs) as (r & E & _). exists r. exact E. Qed.
  Let quotient_of f a : represents n f a -> represents n (fun z => f z / aff n v dv z) (ndiv a (seed n v dv)).
  Proof.
    intros H. apply rel_represents. apply (tr_div _ _ (TRn n) _ _ _ _ (represents_rel n f a H) (rel_aff n v dv)).
    rewrite aff_base. exact v_nz.
  Qed.
  (** At most one associating component: nothing is assumed about the evaluation.  Both sides have
      the exact derivatives, of any order, of the plain evaluation [f] along the directions. *)
  Theorem C43_derivatives lu lu2 fv o dim : o_dq o = DQ35 -> fv = KierlikRosinberg \/ c <> 1%nat -> (p_nassoc p <= 1)%nat ->
    exists f a phi, (forall z, residual lu (with_options p o) (path n t v dt dv seeds z) = Some (f z)) /\
      eos_dual n lu2 p o t v dt dv seeds = Some a /\ represents n f a /\
      functional_dual n lu2 p fv o t v dt dv seeds dim = Some phi /\ same_derivatives n phi (seed n v dv) a /\
      represents n (fun z => f z / aff n v dv z) phi.
  Proof.
    intros Ho Hf Ha. destruct (at_most_one lu lu2 o Ho Ha) as (f & a & E1 & E2 & E3).
    pose proof (U_total prs bin p Hp Hph n t v dt dv seeds PS Hpos He Hn dim Hq1 Np lu2 fv o Ho Hf H1) as H.
    unfold eos_dual in E2. rewrite E2 in H. specialize (H (finite_of f a E3)).
    exists f, a, (ndiv a (seed n v dv)). split; [exact E1 | ]. split; [exact E2 | ]. split; [exact E3 | ].
    split; [exact H | ]. split; [apply quotient_same; eauto | ]. apply quotient_of. exact E3.
  Qed.
  (** a pure component without own interaction parameter: every version of the hard-sphere functional *)
  Theorem C43_pure lu lu2 fv o dim : c = 1%nat -> nth 0 (nth 0 (p_k_ij p) []) 0 = 0 -> 1 <= @ix RNum (p_m p) 0 ->
    p_ndipole p = 0%nat \/ p_nquadpole p = 0%nat -> o_dq o = DQ35 ->
    exists f a phi, (forall z, residual lu (with_options p o) (path n t v dt dv seeds z) = Some (f z)) /\
      eos_dual n lu2 p o t v dt dv seeds = Some a /\ represents n f a /\
      functional_dual n lu2 p fv o t v dt dv seeds dim = Some phi /\ same_derivatives n phi (seed n v dv) a /\
      represents n (fun z => f z / aff n v dv z) phi.
  Proof.
    intros L1 K0 Hm Hpol Ho.
    assert (Ha : (p_nassoc p <= 1)%nat).
    { pose proof (wfp_from_records prs bin p Hp) as W. rewrite (w_na _ W), (w_ass _ W). rewrite L1. cbn [seq filter].
      destruct (nonzero _); cbn; lia. }
    destruct (at_most_one lu lu2 o Ho Ha) as (f & a & E1 & E2 & E3).
    assert (D : fv = KierlikRosinberg \/ fv <> KierlikRosinberg) by (destruct fv; (left; reflexivity) || (right; discriminate)).
    destruct D as [D | D].
    - apply (C43_derivatives lu lu2 fv o dim); auto.
    - destruct (U_pure_total prs bin p Hp Hph n t v dt dv seeds PS Hpos He Hn dim Hq1 Np L1 K0 Hm Hpol lu2 fv o D Ho H1) as (a' & A1 & A2).
      assert (a' = a) as -> by (unfold eos_dual in E2; congruence).
      exists f, a, (ndiv a (seed n v dv)). split; [exact E1 | ]. split; [exact E2 | ]. split; [exact E3 | ].
      split; [exact A2 | ]. split; [apply quotient_same; eauto | ]. apply quotient_of. exact E3.
  Qed.
End Bulk.

(** The usual first derivatives, spelled out for Dual64 (value, derivative). *)
Section First.
  Variables (prs : list (pure_record RNum)) (bin : list (list R)) (p : params RNum).
  Hypothesis Hp : from_records prs bin = Some p.
  Hypothesis Hph : phys p.
  Variables (t v : R) (moles : list R).
  Notation X := (mix_of p). Notation c := (length (p_m p)).
  Hypothesis PS : phys_state p t v moles.
  Hypothesis Hpos : forall i, (i < c)%nat -> 0 < nth i moles 0.
  Hypothesis He : @f_eps RNum < density moles v.
  Hypothesis Hn : 1 / 100000 < Eta X t (fun i => nth i moles 0 / v).
  Hypothesis Hq1 : (p_nquadpole p <= 1)%nat.
  Variables (lu : lu_solver RNum) (lu2 : lu_solver (lK (dual 1))) (fv : fmt_version) (o : options RNum) (dim : nat).
  Hypothesis Ho : o_dq o = DQ35.
  Hypothesis Hf : fv = KierlikRosinberg \/ c <> 1%nat.
  Hypothesis Rg : regular_point p t v moles o.
  Notation cst := (fun r : R => (Fin r, Fin 0)).      (* Dual64 constant *)
  Notation var := (fun r : R => (Fin r, Fin 1)).      (* Dual64 variable *)
  Notation D1 := (lK (dual 1)).
  Notation functional t2 s2 := (f_bulk lu2 (f_with_options (plift (emb (TRn 1)) p) fv (lift_options (emb (TRn 1)) o)) t2 dim (s_rho s2)).

  Let H5 seeds : map fst seeds = moles -> P_Dual4.no_pole p t v seeds DQ35 /\ (forall a, p_assoc_comp p = [a] -> one_regular p t v seeds a) /\ (p_nassoc p <= 1)%nat.
  Proof.
    intros E. destruct Rg as (R1 & R2 & R3 & R4 & R5). split; [ | split; [ | exact R4]].
    - unfold P_Dual4.no_pole. rewrite E. split; [exact R1 | split; [exact R2 | ]]. rewrite Ho in R3. exact R3.
    - unfold one_regular. rewrite E. exact R5.
  Qed.

  (** pressure: volume seeded; the density times the volume is (A, dA/dV) *)
  Theorem C43_pressure : exists A r phi, (forall V : R, residual lu (with_options p o) (@state_new RNum t V moles) = Some (A V)) /\
      functional (cst t) (@state_new D1 (cst t) (var v) (map cst moles)) = Some phi /\
      @nmul D1 phi (var v) = (Fin (A v), Fin r) /\ is_derive A v r.
  Proof.
    destruct (C08_pressure prs bin p Hp Hph t v moles PS lu lu2 o Rg) as (A & r & E1 & E2 & E3).
    set (seeds := map (fun m : R => (m, [0])) moles).
    assert (Em : map fst seeds = moles) by (unfold seeds; rewrite map_map; apply map_id).
    destruct (H5 seeds Em) as (P1 & P2 & P3).
    pose proof (C43_mixture prs bin p Hp Hph 1 t v [0] [1] seeds) as H. rewrite Em in H.
    specialize (H PS Hpos He Hn Hq1 P1 P2 lu2 fv o dim Ho Hf).
    assert (Es : dstate 1 t v [0] [1] seeds = @state_new D1 (cst t) (var v) (map cst moles)).
    { unfold dstate, seeds. rewrite map_map. reflexivity. }
    assert (Ea : eos_dual 1 lu2 p o t v [0] [1] seeds = Some (Fin (A v), Fin r)) by (unfold eos_dual; rewrite Es; exact E2).
    rewrite Ea in H. destruct H as (phi & F1 & F2).
    { intros [ | b [ | ]] Hs; try discriminate. destruct b; eexists; reflexivity. }
    exists A, r, phi. split; [exact E1 | ]. split; [unfold functional_dual in F1; rewrite Es in F1; exact F1 | ]. split; [ | exact E3].
    destruct (F2 [false] eq_refl) as (x0 & A0 & B0). destruct (F2 [true] eq_refl) as (x1 & A1 & B1).
    change (seed 1 v [1]) with (Fin v, Fin 1) in B0, B1. cbn [coef tl hd] in A0, A1, B0, B1.
    change (Fin (A v) = Fin x0) in A0. change (Fin r = Fin x1) in A1. rewrite A0, A1.
    rewrite (surjective_pairing (@nmul D1 phi (Fin v, Fin 1))). f_equal; assumption.
  Qed.
  (** chemical potential of component i: the derivative of the density is mu_i over the volume *)
  Theorem C43_chemical_potential i : (i < length moles)%nat ->
    exists A r, (forall n_i : R, residual lu (with_options p o) (@state_new RNum t v (set_at i n_i moles)) = Some (A n_i)) /\
      functional (cst t) (@state_new D1 (cst t) (cst v) (set_at i (var (nth i moles 0)) (map cst moles)))
        = Some (Fin (A (nth i moles 0) / v), Fin (r / v)) /\
      is_derive A (nth i moles 0) r.
  Proof.
    intros Hi. destruct (C08_chemical_potential prs bin p Hp Hph t v moles PS lu lu2 o i Rg Hi) as (A & r & E1 & E2 & E3).
    set (seeds := set_at i (nth i moles 0, [1]) (map (fun m : R => (m, [0])) moles)).
    assert (Em : map fst seeds = moles).
    { unfold seeds, set_at. rewrite map_app, <- firstn_map. cbn [map fst]. rewrite <- skipn_map, map_map, map_id.
      change (fun x : R => x) with (fun x : R => x). rewrite <- (firstn_skipn i moles) at 4. f_equal.
      clear - Hi. revert i Hi. induction moles as [ | m l IH]; intros [ | i] Hi; cbn in *; try lia; auto. rewrite <- IH by lia. reflexivity. }
    destruct (H5 seeds Em) as (P1 & P2 & P3).
    pose proof (C43_fixed_volume prs bin p Hp Hph 1 t v [0] [] seeds) as H. rewrite Em in H.
    specialize (H PS Hpos He Hn Hq1 P1 P2 lu2 fv o dim eq_refl Ho Hf (Fin (A (nth i moles 0)), Fin r)).
    assert (Es : dstate 1 t v [0] [] seeds = @state_new D1 (cst t) (cst v) (set_at i (var (nth i moles 0)) (map cst moles))).
    { unfold dstate, seeds, set_at. f_equal. rewrite map_app, <- firstn_map. cbn [map fst snd]. rewrite <- skipn_map, map_map. reflexivity. }
    destruct H as (phi & F1 & F2).
    { unfold eos_dual. rewrite Es. exact E2. }
    { intros [ | b [ | ]] Hs; try discriminate. destruct b; eexists; reflexivity. }
    exists A, r. split; [exact E1 | ]. split; [ | exact E3]. unfold functional_dual in F1. rewrite Es in F1.
    etransitivity; [exact F1 | ]. f_equal. destruct phi as [x y].
    destruct (F2 [false] eq_refl) as (x0 & A0 & B0). destruct (F2 [true] eq_refl) as (x1 & A1 & B1).
    cbn [coef tl hd fst snd] in A0, A1, B0, B1. change (Fin (A (nth i moles 0)) = Fin x0) in A0. change (Fin r = Fin x1) in A1.
    change (x = Fin (x0 / v)) in B0. change (y = Fin (x1 / v)) in B1. rewrite B0, B1.
    assert (G : forall a b : R, Fin a = Fin b -> a = b) by (intros a b Q; injection Q; auto). rewrite (G _ _ A0), (G _ _ A1). reflexivity.
  Qed.
End First.

(* ----------------------------------------------------------------------------------- cases *)

Lemma sample_dense : @f_eps RNum < density [1; 2; 3] 260 /\ 1 / 100000 < Eta (mix_of sample) 350 (fun i => nth i [1; 2; 3] 0 / 260) /\
  forall i, (i < length (p_m sample))%nat -> 0 < nth i [1; 2; 3] 0.
Proof.
  split; [unfold density, f_eps; cbn [rsum]; rn; lits; lra | ]. split; [pose proof P_Finite2.sample_eta; lra | ].
  intros i Hi. change (length (p_m sample)) with 3%nat in Hi. destruct i as [ | [ | [ | i]]]; cbn; lra || lia.
Qed.
(** dimethyl ether + carbon dioxide + water: derivatives of any order in any directions *)
Example C43_case n dt dv d1 d2 d3 lu lu2 fv dim : let seeds := [(1, d1); (2, d2); (3, d3)] in
  exists f a phi, (forall z, residual lu (with_options sample default_options) (path n 350 260 dt dv seeds z) = Some (f z)) /\
    eos_dual n lu2 sample default_options 350 260 dt dv seeds = Some a /\ represents n f a /\
    functional_dual n lu2 sample fv default_options 350 260 dt dv seeds dim = Some phi /\
    same_derivatives n phi (seed n 260 dv) a /\ represents n (fun z => f z / aff n 260 dv z) phi.
Proof.
  intros seeds. destruct sample_dense as (A & B & C). destruct P_Select.sample_counts as (D & E & F).
  destruct (sample_regular default_options) as (R1 & R2 & R3 & R4 & R5).
  apply (C43_derivatives sample_prs sample_bin sample sample_ok sample_phys n 350 260 dt dv seeds P_Finite2.sample_liquid C A B).
  - lia.
  - split; [exact R1 | split; [exact R2 | exact R3]].
  - exact R5.
  - reflexivity.
  - right. discriminate.
  - exact R4.
Qed.
Example C43_first_case lu lu2 fv dim : exists A r,
  (forall n_i : R, residual lu (with_options sample default_options) (@state_new RNum 350 260 [1; n_i; 3]) = Some (A n_i)) /\
  f_bulk lu2 (f_with_options (plift (emb (TRn 1)) sample) fv (lift_options (emb (TRn 1)) default_options)) (Fin 350, Fin 0) dim
    (s_rho (@state_new (lK (dual 1)) (Fin 350, Fin 0) (Fin 260, Fin 0) [(Fin 1, Fin 0); (Fin 2, Fin 1); (Fin 3, Fin 0)]))
    = Some (Fin (A 2 / 260), Fin (r / 260)) /\
  is_derive A 2 r.
Proof.
  destruct sample_dense as (A & B & C). destruct P_Select.sample_counts as (D & E & F).
  assert (Hq : (p_nquadpole sample <= 1)%nat) by lia.
  assert (Hl : length (p_m sample) <> 1%nat) by discriminate.
  assert (Hi : (1 < length [1; 2; 3])%nat) by (cbn; lia).
  pose proof (C43_chemical_potential sample_prs sample_bin sample sample_ok sample_phys 350 260 [1; 2; 3] P_Finite2.sample_liquid C A B Hq) as H.
  specialize (H lu lu2 fv default_options dim). specialize (H eq_refl).
  specialize (H (or_intror Hl)). specialize (H (sample_regular default_options)). specialize (H 1%nat Hi).
  destruct H as (G & r & E1 & E2 & E3).
  exists G, r. unfold set_at in E1, E2. cbn [firstn skipn app map nth] in E1, E2, E3. split; [exact E1 | ]. split; [exact E2 | exact E3].
Qed.
(** propane, all versions of the hard-sphere functional *)
Example C43_pure_case n dt dv d1 lu lu2 fv dim : let seeds := [(1, d1)] in
  exists f a phi, (forall z, residual lu (with_options propane default_options) (path n 250 1000 dt dv seeds z) = Some (f z)) /\
    eos_dual n lu2 propane default_options 250 1000 dt dv seeds = Some a /\ represents n f a /\
    functional_dual n lu2 propane fv default_options 250 1000 dt dv seeds dim = Some phi /\
    same_derivatives n phi (seed n 1000 dv) a /\ represents n (fun z => f z / aff n 1000 dv z) phi.
Proof.
  intros seeds.
  assert (Ph : forall pr, In pr [pr_propane] -> P_Params.physical_record (pr_model pr)).
  { intros pr [<- | []]; unfold P_Params.physical_record; simpl; lra. }
  assert (Hd : p_ndipole propane = 0%nat) by (apply (no_dipole _ _ _ propane_ok Ph); intros pr [<- | []]; reflexivity).
  assert (Hq : p_nquadpole propane = 0%nat) by (apply (no_quadrupole _ _ _ propane_ok Ph); intros pr [<- | []]; reflexivity).
  assert (Ha : p_nassoc propane = 0%nat) by (apply (no_association _ _ _ propane_ok Ph); intros pr [<- | []]; reflexivity).
  apply (C43_pure [pr_propane] _ propane propane_ok propane_phys n 250 1000 dt dv seeds).
  - exact propane_state.
  - intros i Hi. change (length (p_m propane)) with 1%nat in Hi. destruct i as [ | i]; cbn; lra || lia.
  - unfold density, f_eps; cbn [map fst seeds rsum]; rn; lits; lra.
  - unfold Eta, Zeta. set (X := mix_of propane). change (N X) with 1%nat. cbn [rsum seq]. unfold Di.
    change (M X 0) with 2.001829. change (Sg X 0) with 3.618353. change (Ep X 0) with 208.1101.
    cbn [map fst seeds nth]. interval.
  - lia.
  - split; [ | split]; intros; exfalso; auto.
  - intros a Ea. rewrite (w_na _ (wfp_from_records _ _ _ propane_ok)), Ea in Ha. discriminate.
  - reflexivity.
  - reflexivity.
  - change (@ix RNum (p_m propane) 0) with 2.001829. lra.
  - left. exact Hd.
  - reflexivity.
Qed.

(** water and a copy of water: several associating components, with a tolerance and an iteration
    limit for which the iteration succeeds *)
Example C43_cross_case n dt dv d0 d1 fv dim : let seeds := [(1, d0); (1, d1)] in
  exists tol max_iter a phi, let o := @mkOptions RNum (1 / 2) max_iter tol DQ35 in let lu := gaussK_lu (lK (dual n)) in
    p_nassoc P_Assoc2.ww = 2%nat /\ eos_dual n lu P_Assoc2.ww o 350 (10 ^ 6) dt dv seeds = Some a /\
    functional_dual n lu P_Assoc2.ww fv o 350 (10 ^ 6) dt dv seeds dim = Some phi /\
    same_derivatives n phi (seed n (10 ^ 6) dv) a.
Proof.
  intros seeds. destruct (C08_weak_case n dt dv d0 d1 DQ35 (1 / 2)) as (F & _ & H).
  destruct (H 1 ltac:(lra)) as (tol & max_iter & a & Ea & Fa). exists tol, max_iter, a.
  assert (PS : phys_state P_Assoc2.ww 350 (10 ^ 6) (map fst seeds)) by (apply P_Assoc2.ww_state; lra).
  pose proof (C43_mixture _ _ P_Assoc2.ww P_Assoc2.ww_ok P_Assoc2.ww_phys n 350 (10 ^ 6) dt dv seeds PS) as C.
  assert (Q : p_nquadpole P_Assoc2.ww = 0%nat) by (apply (no_quadrupole _ _ _ P_Assoc2.ww_ok); intros pr I; apply (ww_records pr I)).
  assert (A2 : p_nassoc P_Assoc2.ww = 2%nat) by apply P_Assoc2.ww_nassoc.
  match type of C with ?P -> _ => assert (C1 : P) end.
  { intros i Hi. change (length (p_m P_Assoc2.ww)) with 2%nat in Hi. destruct i as [ | [ | i]]; cbn; lra || lia. }
  specialize (C C1). match type of C with ?P -> _ => assert (C2 : P) end.
  { unfold density, f_eps; cbn [map fst seeds rsum]; rn; lits; lra. }
  specialize (C C2). match type of C with ?P -> _ => assert (C3 : P) end.
  { unfold Eta, Zeta. set (X := mix_of P_Assoc2.ww). change (N X) with 2%nat. cbn [rsum seq]. unfold Di.
    change (M X 0) with 1.065587. change (Sg X 0) with 3.000683. change (Ep X 0) with 366.5121.
    change (M X 1) with 1.065587. change (Sg X 1) with 3.000683. change (Ep X 1) with 366.5121.
    cbn [map fst seeds nth]. interval. }
  specialize (C C3 ltac:(lia) (ww_no_pole 350 (10 ^ 6) seeds DQ35)).
  match type of C with ?P -> _ => assert (C4 : P) end.
  { intros b Eb. rewrite (w_na _ (wfp_from_records _ _ _ P_Assoc2.ww_ok)), Eb in A2. discriminate. }
  assert (Hl : length (p_m P_Assoc2.ww) <> 1%nat) by discriminate.
  specialize (C C4 (gaussK_lu (lK (dual n))) fv (@mkOptions RNum (1 / 2) max_iter tol DQ35) dim). specialize (C eq_refl). specialize (C (or_intror Hl)).
  unfold eos_dual, seeds in C. rewrite Ea in C. destruct C as (phi & P1 & P2).
  { intros s Hs. destruct (Fa s Hs) as (r & d & E & _). exists r. exact E. }
  exists phi. split; [exact A2 | ]. split; [exact Ea | ]. split; [exact P1 | exact P2].
Qed.

Print Assumptions C43_mixture.
Print Assumptions C43_fixed_volume.
Print Assumptions C43_derivatives.
Print Assumptions C43_pure.
Print Assumptions C43_pressure.
Print Assumptions C43_chemical_potential.
