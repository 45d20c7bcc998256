(** C09, C10 and the functional part of C37: the functional in a uniform fluid. *)
From Coq Require Import ZArith QArith Reals Lra Lia String List Bool Psatz.
From Interval Require Import Tactic.
From Verif Require Import Num RNum RSum Tables M_Params F_Params M_Eos M_Dft Spec F_Spec F_SpecPolar
  F_SpecAssoc F_Contrib Samples F_Total P_Params P_Select P_Lump P_Fmt F_Dft F_Dft2.
Import ListNotations.
Local Open Scope R_scope.

(* ------------------------------------------------------------------ reading of the claims *)

(** [same_density f a v]: the functional and the equation of state both return a value and the
    Helmholtz energy density is the Helmholtz energy divided by the volume, or both fail *)
Definition same_density (f a : option R) (v : R) : Prop :=
  f = match a with Some x => Some (x / v) | None => None end.
(** the same up to [tol] *)
Definition close_density (f a : option R) (v tol : R) : Prop :=
  match f, a with
  | Some y, Some x => Rabs (y - x / v) <= tol
  | None, None => True
  | _, _ => False
  end.
Definition density (moles : list R) (v : R) : R := rsum moles (fun n => n) / v.

Section C09.
  Variables (prs : list (pure_record RNum)) (bin : list (list R)) (p : params RNum).
  Hypothesis Hp : from_records prs bin = Some p.
  Hypothesis Hph : phys p.
  Variables (t v : R) (moles : list R).
  Hypothesis PS : phys_state p t v moles.
  Let W := wfp_from_records _ _ _ Hp.
  Let s := @state_new RNum t v moles.
  Let X := mix_of p.
  Let n := List.length (p_m p).
  Let rho i := nth i moles 0 / v.
  Let Hv : 0 < v := ps_v _ _ _ _ PS.

  Lemma vdiv (a : R) : v * a / v = a.
  Proof. field. lra. Qed.
  Lemma density_Rho : Rho X rho = density moles v.
  Proof.
    unfold Rho, density, rho. rewrite (rsum_nth moles 0 (fun x => x)).
    pose proof (ps_len _ _ _ _ PS) as L. rewrite L. change (N X) with n. unfold Rdiv. rewrite rsum_scal_r. reflexivity.
  Qed.

  (** chain contribution with the ideal chain term *)
  Theorem C09_chain dim :
    phi_chain p t (bulk_wd (chain_weight_functions p t) dim (s_rho s)) + ext_ideal_chain p (s_rho s)
    = a_hc p s / v.
  Proof.
    unfold s. rewrite (phi_chain_spec p W Hph t v moles PS dim), (ext_ideal_chain_spec p t v moles PS).
    rewrite (hc_textbook p W Hph t v moles PS), vdiv. ring.
  Qed.

  (** attraction: dispersion and the polar terms; the functional has its own quadrupole term *)
  Lemma attraction_gen dim psi : @f_eps RNum < density moles v -> 0 < psi ->
    phi_att p t (bulk_wd (@att_weight_functions RNum psi p t) dim (s_rho s))
    = (a_disp p s + a_dipole p s + a_dq p DQ35 s) / v
      + (if Nat.ltb 0 (p_nquadpole p) then pade2 (qq2_dft X t rho) (qq3 X t rho) else 0).
  Proof.
    intros He Hpsi. unfold s. rewrite (att_wd p W Hph t v moles PS psi dim Hpsi).
    unfold phi_att. rewrite <- density_Rho in He.
    rewrite (phi_att_disp_spec p W t v moles PS He), (phi_polar_gen p W Hph t v moles PS).
    fold rho. rewrite (d_quad_phi2_spec p W Hph t _ rho (rl_ix p t v moles PS)).
    rewrite (disp_textbook p W t v moles PS). unfold polar_density. fold X rho s.
    assert (Ed : a_dipole p s = v * (if Nat.ltb 0 (p_ndipole p) then f_dd X t rho else 0)).
    { destruct (p_ndipole p) eqn:E; [rewrite (a_dipole_none p s E); cbn; ring | ].
      unfold s. rewrite (dipole_textbook p W Hph t v moles PS). reflexivity. }
    assert (Ex : a_dq p DQ35 s = v * (if Nat.ltb 0 (p_ndipole p) && Nat.ltb 0 (p_nquadpole p) then f_dq X t rho 3 5 else 0)).
    { destruct (p_ndipole p) eqn:E; [rewrite (a_dq_none_d p DQ35 s E); cbn; ring | ].
      destruct (p_nquadpole p) eqn:E'; [rewrite (a_dq_none_q p DQ35 s E'); cbn; ring | ].
      unfold s. rewrite (dq_textbook p W Hph t v moles PS). reflexivity. }
    rewrite Ed, Ex.
    set (d := if Nat.ltb 0 (p_ndipole p) then _ else _). set (q := if Nat.ltb 0 (p_nquadpole p) then _ else _).
    set (dq := if andb _ _ then _ else _). change (car RNum) with R. clearbody d q dq. rn.
    field. lra.
  Qed.
  (** EOS and DFT quadrupole terms *)
  Definition quadrupole_gap : R :=
    if Nat.ltb 0 (p_nquadpole p) then pade2 (qq2_dft X t rho) (qq3 X t rho) - pade2 (qq2_code X t rho) (qq3 X t rho) else 0.
  Lemma attraction_quadrupole_gap dim psi : @f_eps RNum < density moles v -> 0 < psi ->
    phi_att p t (bulk_wd (@att_weight_functions RNum psi p t) dim (s_rho s))
    = (a_disp p s + a_dipole p s + a_quadrupole p s + a_dq p DQ35 s) / v + quadrupole_gap.
  Proof.
    intros He Hpsi. rewrite attraction_gen by auto. unfold quadrupole_gap.
    destruct (p_nquadpole p) eqn:E; cbn [Nat.ltb Nat.leb].
    - rewrite (a_quadrupole_none p s E). rewrite !Rplus_0_r. reflexivity.
    - unfold s. rewrite (quadrupole_code p W Hph t v moles PS). fold X rho s.
      set (A := a_disp p s). set (B := a_dipole p s). set (C := a_dq p DQ35 s).
      set (P1 := pade2 _ _). set (P2 := pade2 _ _). change (car RNum) with R in *. clearbody A B C P1 P2. field. lra.
  Qed.

  Lemma no_quadrupole_gap : (p_nquadpole p <= 1)%nat -> quadrupole_gap = 0.
  Proof.
    intros Hq. unfold quadrupole_gap. destruct (Nat.ltb 0 (p_nquadpole p)); auto.
    replace (qq2_code X t rho) with (qq2_dft X t rho); [apply Rminus_diag_eq; reflexivity | ].
    unfold X. rewrite <- (d_quad_phi2_spec p W Hph t _ rho (rl_ix p t v moles PS)).
    rewrite (d_quad_phi2_eq p W Hph t _ _ Hq). apply (quad_phi2_spec p W Hph t _ rho (rl_ix p t v moles PS)).
  Qed.

  Theorem C09_attraction dim psi : (p_nquadpole p <= 1)%nat -> @f_eps RNum < density moles v -> 0 < psi ->
    phi_att p t (bulk_wd (@att_weight_functions RNum psi p t) dim (s_rho s))
    = (a_disp p s + a_dipole p s + a_quadrupole p s + a_dq p DQ35 s) / v.
  Proof.
    intros Hq He Hpsi. rewrite attraction_quadrupole_gap by auto.
    rewrite no_quadrupole_gap by auto. apply Rplus_0_r.
  Qed.

  (** association, one or several associating components, whatever the linear solver does *)
  Theorem C09_association dim lu k tol : (1 <= p_nassoc p)%nat ->
    same_density
      (match phi_assoc lu k tol p t [bulk_wd (assoc_weight_functions p t) dim (s_rho s)] with
       | Ok [phi] => Some phi | _ => None end)
      (if Nat.eqb (p_nassoc p) 1 then Some (a_assoc p s) else a_cross_assoc lu k tol p s) v.
  Proof.
    intros H. unfold same_density. destruct (Nat.eqb_spec (p_nassoc p) 1) as [E | E].
    - unfold phi_assoc. rewrite E. cbn [Nat.eqb map]. f_equal.
      apply (phi_assoc_one_bulk p W Hph t v moles PS dim E).
    - unfold s. rewrite (phi_assoc_cross_bulk p W Hph t v moles PS dim lu k tol E).
      unfold a_cross_assoc. change (s_t (@state_new RNum t v moles)) with t. change (s_v (@state_new RNum t v moles)) with v.
      cbv zeta. change (@n1 RNum) with 1.
      destruct (fst _) as [a | e]; auto. apply (f_equal (@Some R)). rn. clear - Hv. revert a. change (car RNum) with R. intros a. field. lra.
  Qed.

  (** hard spheres: the external functional *)
  Theorem C09_hard_sphere : 1 / 100000 <= Eta X t rho -> ext_fmt_bulk p t (s_rho s) = a_hs p s / v.
  Proof.
    intros H. unfold s. rewrite (ext_fmt_exact p W Hph t v moles PS H).
    rewrite (hs_textbook p W Hph t v moles PS), vdiv. reflexivity.
  Qed.
  Theorem C09_hard_sphere_dilute :
    Rabs (ext_fmt_bulk p t (s_rho s) - a_hs p s / v) <= 6 / PI * Zeta X t rho 2 ^ 3 / 10 ^ 24.
  Proof.
    unfold s. rewrite (hs_textbook p W Hph t v moles PS), vdiv.
    apply (ext_fmt_close p W Hph t v moles PS).
  Qed.

  (** no chain term in either model if all segment numbers are 1 *)
  Lemma no_chain : existsb (fun m => negb (@neqb RNum m n1)) (p_m p) = false ->
    a_hc p s = 0 /\ ext_ideal_chain p (s_rho s) = 0.
  Proof.
    intros H. assert (A : forall i, (i < n)%nat -> @ix RNum (p_m p) i = 1).
    { intros i Hi. destruct (Req_dec (@ix RNum (p_m p) i) 1) as [ | Hne]; auto. exfalso.
      assert (true = false); [ | discriminate]. rewrite <- H. symmetry. apply existsb_exists.
      exists (@ix RNum (p_m p) i). split; [apply nth_In; auto | ].
      apply negb_true_iff. change (@neqb RNum) with Reqb. apply Reqb_false. auto. }
    unfold s. rewrite (hc_textbook p W Hph t v moles PS), (ext_ideal_chain_spec p t v moles PS). split.
    - unfold f_hc. change (N (mix_of p)) with n. rewrite (rsum_ext _ _ (fun _ => 0)).
      + rewrite rsum_zero by auto. toR. ring.
      + intros i Hi. apply seq_in in Hi. change (M (mix_of p) i) with (@ix RNum (p_m p) i). rewrite A by auto. ring.
    - apply rsum_zero. intros i Hi. apply seq_in in Hi. rewrite A by auto. ring.
  Qed.

  (** all contributions of the general functional *)
  Theorem general_path lu fv (o : options RNum) dim : fv = KierlikRosinberg \/ n <> 1%nat ->
    o_dq o = DQ35 -> @f_eps RNum < density moles v ->
    f_bulk lu (f_with_options p fv o) t dim (s_rho s)
    = match residual lu (with_options p o) s with
      | Some a => Some (a / v + (ext_fmt_bulk p t (s_rho s) - a_hs p s / v) + quadrupole_gap)
      | None => None
      end.
  Proof.
    intros Hf Ho He. rewrite residual_total, Ho. unfold f_bulk, f_with_options. cbn [f_params f_contributions].
    replace (is_white_bear fv && Nat.eqb (List.length (p_m p)) 1)%bool with false.
    2:{ symmetry. apply andb_false_iff. destruct Hf as [-> | Hf]; [left; reflexivity | right].
        apply Nat.eqb_neq. exact Hf. }
    assert (A : bulk_contribution lu p t dim (s_rho s) FAtt
      = Some ((a_disp p s + a_dipole p s + a_quadrupole p s + a_dq p DQ35 s) / v + quadrupole_gap)).
    { cbn [bulk_contribution]. apply (f_equal (@Some R)). apply attraction_quadrupole_gap; auto. unfold psi_dft; rn; lra. }
    assert (C : exists c, map (bulk_contribution lu p t dim (s_rho s))
                 (if existsb (fun m => negb (@neqb RNum m n1)) (p_m p) then [FChain] else []) = map Some c
                 /\ rsum c (fun x => x) + ext_ideal_chain p (s_rho s) = a_hc p s / v).
    { destruct (existsb (fun m => negb (@neqb RNum m n1)) (p_m p)) eqn:E.
      - eexists [_]. split; [reflexivity | ]. cbn [rsum]. rewrite Rplus_0_r. apply C09_chain.
      - exists []. split; auto. destruct (no_chain E) as [-> ->]. cbn [rsum]. lra. }
    destruct C as (c & EC & HC).
    assert (B : match assoc_term lu o p s with
      | Some a => exists l, map (bulk_contribution lu p t dim (s_rho s))
           (if Nat.ltb 0 (p_nassoc p) then [FAssoc (o_max_iter o) (o_tol o)] else []) = map Some l
           /\ rsum l (fun x => x) = a / v
      | None => map (bulk_contribution lu p t dim (s_rho s))
           (if Nat.ltb 0 (p_nassoc p) then [FAssoc (o_max_iter o) (o_tol o)] else []) = [None]
      end).
    { pose proof (C09_association dim lu (o_max_iter o) (o_tol o)) as H. unfold same_density in H.
      unfold assoc_term. destruct (p_nassoc p) as [ | [ | na]].
      - exists []. split; auto. cbn [rsum]. unfold Rdiv. ring.
      - cbn [Nat.eqb] in H. specialize (H ltac:(lia)). eexists [_]. split.
        + exact (f_equal (fun z => [z]) H).
        + cbn [rsum]. rn. ring.
      - cbn [Nat.eqb] in H. specialize (H ltac:(lia)). 
        destruct (a_cross_assoc lu (o_max_iter o) (o_tol o) p s) as [a | ].
        + eexists [_]. split; [exact (f_equal (fun z => [z]) H) | ]. cbn [rsum]. rn. ring.
        + exact (f_equal (fun z => [z]) H). }
    rewrite !map_app, EC. cbn [map]. rewrite A.
    change (bulk_contribution lu p t dim (s_rho s) (FFmt fv)) with (Some (ext_fmt_bulk p t (s_rho s))).
    destruct (assoc_term lu o p s) as [a | ].
    - destruct B as (l & -> & HB).
      match goal with |- context [collect_opt ?L] =>
        replace L with (map Some ([ext_fmt_bulk p t (s_rho s)] ++ c ++ [(a_disp p s + a_dipole p s + a_quadrupole p s + a_dq p DQ35 s) / v + quadrupole_gap] ++ l))
          by (rewrite !map_app; reflexivity) end.
      rewrite collect_opt_Some. apply (f_equal (@Some R)).
      rewrite nsum_R, !rsum_app. cbn [rsum].
      change (car RNum) with R in *.
      set (rc := rsum c _) in *. set (rl := rsum l _) in *. clearbody rc rl.
      set (x0 := ext_fmt_bulk p t (s_rho s)). set (x1 := ext_ideal_chain p (s_rho s)) in *.
      generalize (a_disp p s) (a_dipole p s) (a_quadrupole p s) (a_dq p DQ35 s) (a_hs p s).
      set (h := a_hc p s) in *. clearbody h x0 x1. change (car RNum) with R in *. intros b1 b2 b3 b4 b5.
      replace rl with (a / v). replace rc with (h / v - x1) by lra. rn. field. lra.
    - rewrite B.
      match goal with |- match ?x with _ => _ end = None => replace x with (@None (list R)); auto end.
      symmetry. apply collect_opt_None. apply in_or_app. right. apply in_or_app. right. right. left. reflexivity.
  Qed.

  Theorem C09_mixture lu fv o dim : fv = KierlikRosinberg \/ n <> 1%nat ->
    (p_nquadpole p <= 1)%nat -> o_dq o = DQ35 -> @f_eps RNum < density moles v -> 1 / 100000 <= Eta X t rho ->
    same_density (f_bulk lu (f_with_options p fv o) t dim (s_rho s)) (residual lu (with_options p o) s) v.
  Proof.
    intros Hf Hq Ho He Hn. rewrite general_path, C09_hard_sphere, no_quadrupole_gap by auto. unfold same_density.
    destruct (residual lu (with_options p o) s); auto. f_equal. ring.
  Qed.
  Theorem C09_mixture_dilute lu fv o dim : fv = KierlikRosinberg \/ n <> 1%nat ->
    (p_nquadpole p <= 1)%nat -> o_dq o = DQ35 -> @f_eps RNum < density moles v ->
    close_density (f_bulk lu (f_with_options p fv o) t dim (s_rho s)) (residual lu (with_options p o) s) v
      (6 / PI * Zeta X t rho 2 ^ 3 / 10 ^ 24).
  Proof.
    intros Hf Hq Ho He. rewrite general_path, no_quadrupole_gap by auto. unfold close_density.
    destruct (residual lu (with_options p o) s) as [a | ]; auto.
    replace (a / v + (ext_fmt_bulk p t (s_rho s) - a_hs p s / v) + 0 - a / v)
      with (ext_fmt_bulk p t (s_rho s) - a_hs p s / v) by ring.
    apply C09_hard_sphere_dilute.
  Qed.
End C09.

(* ------------------------------------------------------------------- one component *)

Section C10.
  Variables (prs : list (pure_record RNum)) (bin : list (list R)) (p : params RNum).
  Hypothesis Hp : from_records prs bin = Some p.
  Hypothesis Hph : phys p.
  Hypothesis L1 : List.length (p_m p) = 1%nat.
  Variables (t v : R) (moles : list R).
  Hypothesis PS : phys_state p t v moles.
  Hypothesis K0 : nth 0 (nth 0 (p_k_ij p) []) 0 = 0.
  Let W := wfp_from_records _ _ _ Hp.
  Let s := @state_new RNum t v moles.
  Let X := mix_of p.
  Let rho i := nth i moles 0 / v.
  Let Hv : 0 < v := ps_v _ _ _ _ PS.

  (** hard spheres and association *)
  Theorem C10_fmt_association fv dim dim' lu k tol : fv <> KierlikRosinberg ->
    phi_pure_fmt_assoc fv p t [bulk_wd (pure_fmt_weight_functions p t) dim (s_rho s)]
    = Value (if Nat.ltb 0 (p_nassoc p) then
               match phi_assoc lu k tol p t [bulk_wd (assoc_weight_functions p t) dim' (s_rho s)] with
               | Ok [phi] => Ok [ext_fmt_bulk p t (s_rho s) + phi]
               | Ok l => Ok l
               | Err e => Err e
               end
             else Ok [ext_fmt_bulk p t (s_rho s)]).
  Proof.
    intros Hf. unfold phi_pure_fmt_assoc. cbn [existsb map].
    assert (EF := pure_phi_fmt_bulk p W Hph L1 t v moles PS fv dim Hf). fold s in EF. rewrite EF. clear EF.
    replace (@nltb RNum n1 (@ix RNum (bulk_wd (pure_fmt_weight_functions p t) dim (s_rho s)) 1)) with false.
    2:{ destruct (pure_fmt_wd p W L1 t v moles PS dim) as (Z & E & _). unfold s. rewrite E.
        symmetry. change (@nltb RNum) with Rltb. apply Rltb_false.
        pose proof (z3_lt1 p t v moles PS) as H. change (@n1 RNum) with 1.
        match goal with |- context [@ix RNum (?a :: ?b :: Z) 1] => change (@ix RNum (a :: b :: Z) 1) with b end. lra. }
    cbn [orb collect_opt].
    assert (Hn : (p_nassoc p <= 1)%nat).
    { rewrite (w_na _ W), (w_ass _ W). rewrite L1. cbn [seq filter].
      match goal with |- context [if ?b then _ else _] => destruct b end; cbn; lia. }
    destruct (p_nassoc p) as [ | [ | na]] eqn:E; [ reflexivity | | lia].
    cbn [Nat.eqb Nat.ltb Nat.leb]. unfold phi_assoc. rewrite E. cbn [Nat.eqb map].
    do 3 f_equal. unfold s. rewrite (pure_phi_assoc_bulk p W Hph L1 t v moles PS dim dim' E). reflexivity.
  Qed.

  (** chain *)
  Theorem C10_chain dim dim' :
    phi_pure_chain p (bulk_wd (pure_chain_weight_functions p t) dim (s_rho s))
    = phi_chain p t (bulk_wd (chain_weight_functions p t) dim' (s_rho s)).
  Proof. apply (phi_pure_chain_bulk p W Hph L1 t v moles PS). Qed.

  (** dispersion and polar terms: the dipole-quadrupole term is the only difference *)
  Theorem attraction_gap dim dim' : @f_eps RNum < density moles v ->
    phi_att p t (bulk_wd (att_weight_functions psi_dft p t) dim' (s_rho s))
    = phi_pure_att p t (bulk_wd (att_weight_functions psi_dft p t) dim (s_rho s))
      + (if (Nat.ltb 0 (p_ndipole p) && Nat.ltb 0 (p_nquadpole p))%bool then f_dq X t rho 3 5 else 0).
  Proof.
    intros He.
    unfold s. rewrite (phi_pure_att_spec p W Hph L1 t v moles PS K0).
    rewrite (att_wd p W Hph t v moles PS) by (unfold psi_dft; rn; lra).
    unfold phi_att. rewrite <- (density_Rho p t v moles PS) in He.
    rewrite (phi_att_disp_spec p W t v moles PS He), (phi_polar_spec p W Hph t v moles PS).
    - unfold polar_density. fold X rho. fold (f_qq X t rho). rn. ring.
    - rewrite (w_nq _ W), (w_quad _ W), L1. cbn [seq filter].
      match goal with |- context [if ?b then _ else _] => destruct b end; cbn; lia.
  Qed.
  Theorem C10_attraction dim dim' : @f_eps RNum < density moles v ->
    p_ndipole p = 0%nat \/ p_nquadpole p = 0%nat ->
    phi_pure_att p t (bulk_wd (att_weight_functions psi_dft p t) dim (s_rho s))
    = phi_att p t (bulk_wd (att_weight_functions psi_dft p t) dim' (s_rho s)).
  Proof.
    intros He H. rewrite (attraction_gap dim dim' He).
    replace (Nat.ltb 0 (p_ndipole p) && Nat.ltb 0 (p_nquadpole p))%bool with false; [symmetry; apply Rplus_0_r | ].
    destruct H as [-> | ->]; [reflexivity | ]. rewrite andb_false_r. reflexivity.
  Qed.

  (** What the choice of a version changes: the specialised functional leaves out the chain
      term if the segment number is below 1 and the dipole-quadrupole term always. *)
  Definition pure_gap : R :=
    (if Rlt_dec (@ix RNum (p_m p) 0) 1 then
       phi_chain p t (bulk_wd (chain_weight_functions p t) 0 (s_rho s)) else 0)
    + (if (Nat.ltb 0 (p_ndipole p) && Nat.ltb 0 (p_nquadpole p))%bool then f_dq X t rho 3 5 else 0).

  Theorem version_gap lu fv (o : options RNum) dim dim' : fv <> KierlikRosinberg -> @f_eps RNum < density moles v ->
    f_bulk lu (f_with_options p KierlikRosinberg o) t dim' (s_rho s)
    = match f_bulk lu (f_with_options p fv o) t dim (s_rho s) with
      | Some f => Some (f + pure_gap)
      | None => None
      end.
  Proof.
    intros Hf He. unfold f_bulk, f_with_options. cbn [f_params f_contributions is_white_bear andb].
    replace (is_white_bear fv && Nat.eqb (List.length (p_m p)) 1)%bool with true.
    2:{ rewrite L1. destruct fv; try reflexivity. contradiction. }
    set (m := @ix RNum (p_m p) 0).
    assert (Em : p_m p = [m]).
    { unfold m. destruct (p_m p) as [ | a [ | b l]]; try discriminate L1. reflexivity. }
    assert (Echain : forall d, phi_chain p t (bulk_wd (chain_weight_functions p t) d (s_rho s))
       = phi_chain p t (bulk_wd (chain_weight_functions p t) 0 (s_rho s))).
    { intros d. unfold s. rewrite !(phi_chain_spec p W Hph t v moles PS). reflexivity. }
    set (ch := phi_chain p t (bulk_wd (chain_weight_functions p t) 0 (s_rho s))) in *.
    assert (C1' : exists c, map (bulk_contribution lu p t dim' (s_rho s))
       (if existsb (fun m => negb (@neqb RNum m n1)) (p_m p) then [FChain] else []) = map Some c
       /\ rsum c (fun x => x) = if Req_EM_T m 1 then 0 else ch).
    { rewrite Em. cbn [existsb]. rewrite orb_false_r. change (@neqb RNum m n1) with (Reqb m 1).
      destruct (Req_EM_T m 1) as [E | E].
      - replace (Reqb m 1) with true by (symmetry; apply Reqb_true; auto). exists []. auto.
      - replace (Reqb m 1) with false by (symmetry; apply Reqb_false; auto). eexists [_].
        split; [reflexivity | ]. cbn [rsum]. rewrite Echain. ring. }
    assert (C2' : exists c, map (bulk_contribution lu p t dim (s_rho s))
       (if existsb (fun m => @nltb RNum n1 m) (p_m p) then [FPureChain] else []) = map Some c
       /\ rsum c (fun x => x) = if Rlt_dec 1 m then ch else 0).
    { rewrite Em. cbn [existsb]. rewrite orb_false_r. change (@nltb RNum n1 m) with (Rltb 1 m).
      destruct (Rlt_dec 1 m) as [E | E].
      - replace (Rltb 1 m) with true by (symmetry; apply Rltb_true; auto). eexists [_].
        split; [reflexivity | ]. cbn [rsum]. rewrite (C10_chain dim 0). fold ch. ring.
      - replace (Rltb 1 m) with false by (symmetry; apply Rltb_false; lra). exists []. auto. }
    destruct C1' as (c1 & E1 & S1), C2' as (c2 & E2 & S2).
    rewrite !map_app, E1, E2. cbn [map]. clear E1 E2.
    set (ic := ext_ideal_chain p (s_rho s)).
    set (x0 := ext_fmt_bulk p t (s_rho s)).
    change (bulk_contribution lu p t dim' (s_rho s) (FFmt KierlikRosinberg)) with (Some x0).
    change (bulk_contribution lu p t dim' (s_rho s) FAtt)
      with (Some (phi_att p t (bulk_wd (att_weight_functions psi_dft p t) dim' (s_rho s)))).
    rewrite (attraction_gap dim dim' He).
    change (bulk_contribution lu p t dim (s_rho s) FPureAtt)
      with (Some (phi_pure_att p t (bulk_wd (att_weight_functions psi_dft p t) dim (s_rho s)))).
    set (at_ := phi_pure_att _ _ _).
    pose proof (C10_fmt_association fv dim dim' lu (o_max_iter o) (o_tol o) Hf) as HA. fold x0 in HA.
    cbn [bulk_contribution]. rewrite HA. clear HA.
    set (g2 := if andb _ _ then _ else _).
    assert (Eg : pure_gap = rsum c1 (fun x => x) - rsum c2 (fun x => x) + g2).
    { unfold pure_gap. fold m ch g2. rewrite S1, S2. destruct (Rlt_dec m 1), (Req_EM_T m 1), (Rlt_dec 1 m); try lra. }
    rewrite Eg. clear Eg S1 S2.
    assert (Hn : (p_nassoc p <= 1)%nat).
    { rewrite (w_na _ W), (w_ass _ W). rewrite L1. cbn [seq filter].
      match goal with |- context [if ?b then _ else _] => destruct b end; cbn; lia. }
    destruct (p_nassoc p) as [ | [ | na]] eqn:E; [ | | lia].
    - cbn [Nat.ltb Nat.leb map].
      match goal with |- match collect_opt ?L with _ => _ end = _ =>
        replace L with (map Some ([x0] ++ c1 ++ [at_ + g2])) by (rewrite !map_app; reflexivity) end.
      replace ([Some x0] ++ map Some c2 ++ [Some at_]) with (map Some ([x0] ++ c2 ++ [at_]))
        by (rewrite !map_app; reflexivity).
      rewrite !collect_opt_Some. apply (f_equal (@Some R)). rewrite !nsum_R, !rsum_app. cbn [rsum].
      change (car RNum) with R in *. set (r1 := rsum c1 _). set (r2 := rsum c2 _).
      clearbody x0 at_ g2 ic r1 r2. change (car RNum) with R in *. rn. ring.
    - cbn [Nat.ltb Nat.leb map bulk_contribution]. unfold phi_assoc. rewrite E. cbn [Nat.eqb map].
      set (pa := phi_assoc_one _ _ _).
      match goal with |- match collect_opt ?L with _ => _ end = _ =>
        replace L with (map Some ([x0] ++ c1 ++ [at_ + g2] ++ [pa])) by (rewrite !map_app; reflexivity) end.
      match goal with |- _ = match (match collect_opt ?L with _ => _ end) with _ => _ end =>
        replace L with (map Some ([x0 + pa] ++ c2 ++ [at_])) by (rewrite !map_app; reflexivity) end.
      rewrite !collect_opt_Some. apply (f_equal (@Some R)). rewrite !nsum_R, !rsum_app. cbn [rsum].
      change (car RNum) with R in *. set (r1 := rsum c1 _). set (r2 := rsum c2 _).
      clearbody x0 at_ g2 ic r1 r2 pa. change (car RNum) with R in *. rn. ring.
  Qed.

  Theorem C10_total lu fv (o : options RNum) dim dim' : fv <> KierlikRosinberg -> @f_eps RNum < density moles v ->
    1 <= @ix RNum (p_m p) 0 -> p_ndipole p = 0%nat \/ p_nquadpole p = 0%nat ->
    f_bulk lu (f_with_options p fv o) t dim (s_rho s)
    = f_bulk lu (f_with_options p KierlikRosinberg o) t dim' (s_rho s).
  Proof.
    intros Hf He Hm Hpol. rewrite (version_gap lu fv o dim dim' Hf He).
    assert (pure_gap = 0) as ->.
    { unfold pure_gap. destruct (Rlt_dec _ _); [lra | ].
      replace (Nat.ltb 0 (p_ndipole p) && Nat.ltb 0 (p_nquadpole p))%bool with false; [ring | ].
      destruct Hpol as [-> | ->]; [reflexivity | ]. rewrite andb_false_r. reflexivity. }
    destruct (f_bulk lu (f_with_options p fv o) t dim (s_rho s)) as [f | ]; auto.
    apply (f_equal (@Some R)). symmetry. apply Rplus_0_r.
  Qed.

  (** every version of the functional of one component against the equation of state *)
  Theorem C09_pure lu fv (o : options RNum) dim : @f_eps RNum < density moles v -> 1 / 100000 <= Eta X t rho ->
    o_dq o = DQ35 -> 1 <= @ix RNum (p_m p) 0 -> p_ndipole p = 0%nat \/ p_nquadpole p = 0%nat ->
    same_density (f_bulk lu (f_with_options p fv o) t dim (s_rho s)) (residual lu (with_options p o) s) v.
  Proof.
    intros He Hn Ho Hm Hpol.
    assert (G : same_density (f_bulk lu (f_with_options p KierlikRosinberg o) t dim (s_rho s)) (residual lu (with_options p o) s) v).
    { apply (C09_mixture _ _ _ Hp Hph t v moles PS); auto.
      rewrite (w_nq _ W), (w_quad _ W), L1. cbn [seq filter].
      match goal with |- context [if ?b then _ else _] => destruct b end; cbn; lia. }
    destruct fv; auto; rewrite (C10_total lu _ o dim dim) by (auto; discriminate); auto.
  Qed.
End C10.
