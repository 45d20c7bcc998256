(** C07: evaluation never leaves the finite numbers.

    Parameters, states and contributions are evaluated over the extended reals of XNum.v, where
    0/0, inf - inf, ln of a negative number, ... give NaN and x/0 gives an infinity, as for f64.
    [xparams], [xstate] embed finite parameters and states. *)
From Coq Require Import ZArith QArith Reals Lra Lia String List Bool.
From Interval Require Import Tactic.
From Verif Require Import Num RNum RSum Tables M_Params F_Params M_Eos Spec F_Spec F_SpecPolar F_SpecAssoc
  F_Contrib F_Cross F_Total Samples F_Transfer XNum F_Transfer2 F_Transfer3 F_XParams P_Limit.
Import ListNotations.
Local Open Scope R_scope.
Set Bullet Behavior "Strict Subproofs".

Definition xstate (t v : R) (moles : list R) : state XNum := @state_new XNum (Fin t) (Fin v) (map Fin moles).
Definition xoptions (o : options RNum) : options XNum := lift_options (K := XNum) Fin o.

(** Building parameters from physical records produces only finite numbers: the result over the
    extended reals is the embedding of the real one (and panics for the same inputs). *)
Theorem C07_parameters prs bin : Forall phys_record prs ->
  @from_records XNum (map xrec prs) (xmat bin)
  = match @from_records RNum prs bin with Some p => Some (xparams p) | None => None end.
Proof. exact (from_records_x prs bin). Qed.

Notation TX := (XTransfer 0).
Lemma lrel_const (l : list R) : lrel TX (fun _ => l) (map Fin l).
Proof.
  exists (map (fun r _ => r) l). split.
  - intros u. rewrite map_map. symmetry. apply map_id.
  - induction l; cbn; constructor; auto.
Qed.
Lemma lrel_x fl l : lrel TX fl l -> l = map Fin (fl 0).
Proof.
  intros (fs & E & F). rewrite E. clear E. induction F as [ | f a fs l H F IH]; cbn; auto.
  rewrite IH. f_equal. exact H.
Qed.
Lemma lrel2_x M M2 : lrel2 TX M M2 -> M2 = xmat (M 0).
Proof.
  intros (r & E & F). rewrite E. clear E. unfold xmat. induction F as [ | f a fs l H F IH]; cbn; auto.
  rewrite IH. f_equal. apply lrel_x; auto.
Qed.

Section C07.
  Variables (prs : list (pure_record RNum)) (bin : list (list R)) (p : params RNum).
  Hypothesis Hp : from_records prs bin = Some p.
  Hypothesis Hph : phys p.
  Variables (t v : R) (moles : list R).
  Hypothesis PS : phys_state p t v moles.
  Let W : wfp p := wfp_from_records prs bin p Hp.
  Let X := mix_of p.
  Let rho := fun i => nth i moles 0 / v.
  Let s := @state_new RNum t v moles.
  Notation q := (xparams p).
  Notation xs := (xstate t v moles).
  Let Tt : rel TX (fun _ => t) (Fin t) := eq_refl.
  Let Tv : rel TX (fun _ => v) (Fin v) := eq_refl.
  Let Tm : lrel TX (fun _ => moles) (map Fin moles) := lrel_const moles.

  Theorem C07_hard_sphere : a_hs q xs = Fin (a_hs p s).
  Proof. exact (tr_hs TX p W Hph _ _ _ _ _ _ Tt Tv Tm PS). Qed.
  Theorem C07_hard_chain : a_hc q xs = Fin (a_hc p s).
  Proof. exact (tr_hc TX p W Hph _ _ _ _ _ _ Tt Tv Tm PS). Qed.
  Theorem C07_dispersion : a_disp q xs = Fin (a_disp p s).
  Proof. exact (tr_disp TX p W Hph _ _ _ _ _ _ Tt Tv Tm PS). Qed.

  Let Hr : forall i, (i < length (p_m p))%nat -> @ix RNum (s_rho s) i = rho i.
  Proof. intros. apply (s_rho_ix p t v moles); auto. apply (ps_len _ _ _ _ PS). Qed.
  Let Hpack : packing p t (s_rho s) = Eta X t rho.
  Proof. exact (packing_spec p W t v moles (ps_len _ _ _ _ PS)). Qed.

  (** The polar terms are finite unless the second and third order terms coincide without
      vanishing: then the denominator of the Pade approximant is zero and the numerator is not,
      which the guard against NaN does not catch ([C07_dipole_refuted] below). *)
  Theorem C07_dipole : dd2 X t rho <> dd3 X t rho \/ dd2 X t rho = 0 -> a_dipole q xs = Fin (a_dipole p s).
  Proof.
    intros H. apply (tr_dipole TX p W Hph _ _ _ _ _ _ Tt Tv Tm PS).
    pose proof (dipole_phi2_spec p W Hph t _ rho Hr) as E2. pose proof (dipole_phi3_spec p W Hph t _ rho Hr) as E3.
    fold X in E2, E3. rewrite <- Hpack in E2, E3. rewrite <- E2, <- E3 in H. exact H.
  Qed.
  Theorem C07_quadrupole : qq2_code X t rho <> qq3 X t rho \/ qq2_code X t rho = 0 ->
    a_quadrupole q xs = Fin (a_quadrupole p s).
  Proof.
    intros H. apply (tr_quadrupole TX p W Hph _ _ _ _ _ _ Tt Tv Tm PS).
    pose proof (quad_phi2_spec p W Hph t _ rho Hr) as E2. pose proof (quad_phi3_spec p W Hph t _ rho Hr) as E3.
    fold X in E2, E3. rewrite <- Hpack in E2, E3. rewrite <- E2, <- E3 in H. exact H.
  Qed.
  Definition dq2_code (var : dq_variant) : R := dq2 X t rho (fst (dq_exps var)) (snd (dq_exps var)).
  Theorem C07_dipole_quadrupole var : dq2_code var <> dq3 X t rho \/ dq2_code var = 0 ->
    a_dq q var xs = Fin (a_dq p var s).
  Proof.
    intros H. apply (tr_dq TX p W Hph _ _ _ _ _ _ Tt Tv Tm PS). unfold dq2_code in H.
    pose proof (dq_phi2_spec p W Hph t _ rho Hr var) as E2. pose proof (dq_phi3_spec p W t _ rho Hr) as E3.
    fold X in E2, E3. rewrite <- Hpack in E2, E3. rewrite <- E2, <- E3 in H. exact H.
  Qed.

  (** One associating component: finite for a positive number of A sites and, with B sites, up to
      2^26 sites in total (beyond, the low-density expansion can become negative). *)
  Theorem C07_association a : p_assoc_comp p = [a] -> assoc_phys p ->
    0 < Na X a -> (0 < Nb X a -> Na X a + Nb X a <= 2 ^ 26) -> a_assoc q xs = Fin (a_assoc p s).
  Proof.
    intros Ha Hap Hna Hnb. apply (tr_assoc TX p W Hph _ _ _ _ _ _ Tt Tv Tm PS a Ha Hap Hna).
    - intros B. specialize (Hnb B). replace 67108864 with (2 ^ 26) by lra. exact Hnb.
    - exact I.
  Qed.

  (** the whole residual Helmholtz energy, up to one associating component *)
  Theorem C07_residual lu lu2 o :
    (dd2 X t rho <> dd3 X t rho \/ dd2 X t rho = 0) ->
    (qq2_code X t rho <> qq3 X t rho \/ qq2_code X t rho = 0) ->
    (dq2_code (o_dq o) <> dq3 X t rho \/ dq2_code (o_dq o) = 0) ->
    (p_nassoc p <= 1)%nat ->
    (forall a, p_assoc_comp p = [a] -> assoc_phys p /\ 0 < Na X a /\ (0 < Nb X a -> Na X a + Nb X a <= 2 ^ 26)) ->
    exists r, residual lu (with_options p o) s = Some r /\
              residual lu2 (with_options q (xoptions o)) xs = Some (Fin r).
  Proof.
    intros H1 H2 H3 Hn Ha.
    destruct (tr_residual TX p W Hph (fun _ => t) (fun _ => v) _ _ (fun _ => moles) _ Tt Tv Tm PS lu lu2 o) as (f & a & E1 & E2 & E3); auto.
    - intros _. apply C07_dipole; auto.
    - intros _. apply C07_quadrupole; auto.
    - intros _ _. apply C07_dipole_quadrupole; auto.
    - intros E. assert (exists a, p_assoc_comp p = [a]) as (a & Ea).
      { rewrite (w_na _ W) in E. destruct (p_assoc_comp p) as [ | a [ | b l]]; try discriminate. exists a; auto. }
      destruct (Ha a Ea) as (A & B & C). apply (C07_association a); auto.
    - exists (f 0). split; [apply (E1 0) | ]. rewrite E3 in E2. exact E2.
  Qed.

  (* ------------------------------------------------------------- cross-association *)

  (** the linear solver returns, for finite input, the finite result of exact arithmetic *)
  Definition lu_lifts (lu : lu_solver RNum) (lu2 : lu_solver XNum) : Prop :=
    forall h g, lu2 (xmat h) (map Fin g) = match lu h g with Some x => Some (map Fin x) | None => None end.
  (** no iterate that is stepped from has a zero entry *)
  Fixpoint run_ok (step : list R -> res (list R * bool)) (fuel : nat) (x : list R) : Prop :=
    match fuel with
    | O => True
    | S k => nz (p_nassoc p) x /\ match step x with Ok (x', false) => run_ok step k x' | _ => True end
    end.
  Definition ca_step (lu : lu_solver RNum) (tol : R) : list R -> res (list R * bool) :=
    @newton_step RNum lu (p_nassoc p) (ca_delta p t (seg_radius p t) (assoc_n2 p t (s_rho s)) (nrecip (nadd (nopp (packing p t (s_rho s))) (nlit 1%Q))) (@n1 RNum))
      (ca_sel p (p_na p)) (ca_sel p (p_nb p)) (ca_sel p (s_rho s)) tol.

  Lemma newton_step_x lu lu2 delta na nb rl tol x : lu_lifts lu lu2 -> nz (p_nassoc p) x ->
    @newton_step XNum lu2 (p_nassoc p) (xmat delta) (map Fin na) (map Fin nb) (map Fin rl) (Fin tol) (map Fin x)
    = match @newton_step RNum lu (p_nassoc p) delta na nb rl tol x with Ok (y, b) => Ok (map Fin y, b) | Err e => Err e end.
  Proof.
    intros Hl Z. unfold newton_step.
    assert (Td : forall i j, (i < p_nassoc p)%nat -> (j < p_nassoc p)%nat ->
      rel TX (fun _ => @ix2 RNum delta i j) (@ix2 XNum (xmat delta) i j)).
    { intros i j _ _. exact (ix2_x delta i j). }
    pose proof (lrel_x _ _ (tr_grad TX (p_nassoc p) (fun _ => delta) (xmat delta) (fun _ => na) (fun _ => nb) (fun _ => rl) (fun _ => x)
      _ _ _ _ Td (lrel_const na) (lrel_const nb) (lrel_const rl) (lrel_const x) Z)) as G.
    pose proof (lrel2_x _ _ (tr_hess TX (p_nassoc p) (fun _ => delta) (xmat delta) (fun _ => na) (fun _ => nb) (fun _ => rl) (fun _ => x)
      _ _ _ _ Td (lrel_const na) (lrel_const nb) (lrel_const rl) (lrel_const x) Z)) as Hh.
    cbn beta in G, Hh. rewrite G, Hh, Hl.
    set (g := @ca_grad RNum (p_nassoc p) delta na nb rl x). set (h := @ca_hess RNum (p_nassoc p) delta na nb rl x).
    destruct (lu h g) as [dx | ]; [ | reflexivity]. f_equal. f_equal.
    - clear. revert dx. induction x as [ | a x IH]; intros [ | d dx]; cbn; auto. f_equal. apply IH.
    - cbn [nre XNum RNum]. rewrite !map_id. unfold norm.
      assert (Ns : forall l : list R, @nsum XNum (map (fun x => @nmul XNum x x) (map Fin l)) = Fin (@nsum RNum (map (fun x => @nmul RNum x x) l))).
      { intros l. unfold nsum. rewrite map_map. change (@n0 XNum) with (Fin (@n0 RNum)). generalize (@n0 RNum). induction l; intros z; cbn; auto. }
      rewrite Ns. cbn [nsqrt XNum nltb]. rewrite xsqrt_fin; [reflexivity | ].
      rewrite nsum_R. apply rsum_nonneg. intros y Hy. apply in_map_iff in Hy. destruct Hy as (z & <- & _).
      cbn. apply Rle_0_sqr.
  Qed.
  Lemma newton_loop_x lu lu2 delta na nb rl tol fuel x : lu_lifts lu lu2 ->
    run_ok (@newton_step RNum lu (p_nassoc p) delta na nb rl tol) fuel x ->
    @newton_loop XNum (@newton_step XNum lu2 (p_nassoc p) (xmat delta) (map Fin na) (map Fin nb) (map Fin rl) (Fin tol)) fuel (map Fin x)
    = match @newton_loop RNum (@newton_step RNum lu (p_nassoc p) delta na nb rl tol) fuel x with Ok y => Ok (map Fin y) | Err e => Err e end.
  Proof.
    intros Hl. revert x. induction fuel as [ | k IH]; intros x Hx; cbn [newton_loop run_ok] in *; [reflexivity | ].
    destruct Hx as [Z Hx]. rewrite (newton_step_x lu lu2 delta na nb rl tol x Hl Z).
    destruct (@newton_step RNum lu (p_nassoc p) delta na nb rl tol x) as [[y [ | ]] | e]; auto.
    destruct k; auto.
  Qed.

  (** whatever the Newton iteration over the reals accepts, the evaluation over the extended reals
      returns the energy of the same vector, provided that no iterate has a zero entry *)
  Lemma cross_association_x lu lu2 max_iter tol x : lu_lifts lu lu2 ->
    run_ok (ca_step lu tol) max_iter (repeat (/ 5) (2 * p_nassoc p)) ->
    @newton_loop RNum (ca_step lu tol) max_iter (repeat (/ 5) (2 * p_nassoc p)) = Ok x ->
    if @nltb RNum (@nsum RNum (s_rho s)) (@f_eps RNum)
    then a_cross_assoc lu max_iter tol p s = Some (0 * v) /\ a_cross_assoc lu2 max_iter (Fin tol) q xs = Some (Fin (0 * v))
    else a_cross_assoc lu max_iter tol p s =
           Some (@ca_energy RNum (p_nassoc p) (ca_sel p (p_na p)) (ca_sel p (p_nb p)) (ca_sel p (s_rho s)) x * v) /\
         a_cross_assoc lu2 max_iter (Fin tol) q xs =
           Some (@nmul XNum (@ca_energy XNum (p_nassoc p) (map Fin (ca_sel p (p_na p))) (map Fin (ca_sel p (p_nb p)))
             (map Fin (ca_sel p (s_rho s))) (map Fin x)) (Fin v)).
  Proof.
    intros Hl Hrun Hloop.
    pose proof (tr_rho TX p (fun _ => t) (fun _ => v) (Fin t) _ (fun _ => moles) _ Tv Tm PS) as Trho.
    assert (Er : s_rho xs = map Fin (s_rho s)) by exact (lrel_x _ _ Trho).
    assert (Esel : forall l, ca_sel q (map Fin l) = map Fin (ca_sel p l)).
    { intros l. unfold ca_sel. change (p_nassoc q) with (p_nassoc p). change (p_assoc_comp q) with (p_assoc_comp p).
      apply (mk1_x (p_nassoc p)). intros i _. apply ix_x. }
    set (n2 := assoc_n2 p t (s_rho s)).
    set (n3i := @nrecip RNum (@nadd RNum (@nopp RNum (packing p t (s_rho s))) (@nlit RNum 1%Q))).
    set (delta := @ca_delta RNum p t (seg_radius p t) n2 n3i (@n1 RNum)).
    assert (Tn2 := tr_n2 TX p (fun _ => t) (fun _ => v) _ _ (fun _ => moles) _ Tt Tv Tm PS).
    assert (Tn3 := tr_n3i TX p W Hph (fun _ => t) (fun _ => v) _ _ (fun _ => moles) _ Tt Tv Tm PS).
    assert (Edelta : @ca_delta XNum q (Fin t) (seg_radius q (Fin t)) (assoc_n2 q (Fin t) (s_rho xs))
       (@nrecip XNum (@nadd XNum (@nopp XNum (packing q (Fin t) (s_rho xs))) (@nlit XNum 1%Q))) (@n1 XNum) = xmat delta).
    { unfold ca_delta, delta. change (p_nassoc q) with (p_nassoc p). change (p_assoc_comp q) with (p_assoc_comp p).
      apply (mk2_x (p_nassoc p) (p_nassoc p)). intros i j Hi Hj.
      assert (Hc : forall k, (k < p_nassoc p)%nat -> (ixn (p_assoc_comp p) k < length (p_m p))%nat).
      { intros k Hk. rewrite (w_na _ W), (w_ass _ W) in Hk. rewrite (w_ass _ W). apply ixn_filter in Hk. tauto. }
      exact (tr_strength TX p W Hph (fun _ => t) (fun _ => v) _ (fun _ => moles) Tt PS _ _ _ _ _ _ _ _ (Hc i Hi) (Hc j Hj) Tn2 Tn3 (tr_n1 TX)). }
    unfold a_cross_assoc. cbv zeta. change (s_t xs) with (Fin t). change (s_t s) with t.
    unfold cross_association.
    assert (Esum : @nsum XNum (s_rho xs) = Fin (@nsum RNum (s_rho s))).
    { rewrite Er. exact (tr_nsum TX _ _ (lrel_const (s_rho s))). }
    rewrite Esum. change (@nltb XNum (Fin (@nsum RNum (s_rho s))) (@f_eps XNum)) with (@nltb RNum (@nsum RNum (s_rho s)) (@f_eps RNum)).
    destruct (@nltb RNum (@nsum RNum (s_rho s)) (@f_eps RNum)).
    { split; reflexivity. }
    cbv zeta. fold n2. fold n3i. fold delta. rewrite Edelta. rewrite Er.
    change (p_na q) with (map Fin (p_na p)). change (p_nb q) with (map Fin (p_nb p)).
    rewrite !Esel. change (p_nassoc q) with (p_nassoc p).
    cbn [nre XNum RNum nderiv newton_deriv]. rewrite !map_id.
    rewrite (map_ext (map (fun x : xr => x)) (fun l => l)) by apply map_id.
    rewrite (map_ext (map (fun x : R => x)) (fun l => l)) by apply map_id.
    rewrite !map_id.
    assert (E5 : @nlit RNum 0.2%Q = / 5) by (rn; lra).
    assert (Erep : repeat (@nlit XNum 0.2%Q) (2 * p_nassoc p) = map Fin (repeat (/ 5) (2 * p_nassoc p))).
    { rewrite <- E5. generalize (2 * p_nassoc p)%nat. intros k. induction k; cbn [repeat map]; [reflexivity | ]. f_equal. exact IHk. }
    rewrite Erep, E5.
    assert (EL := newton_loop_x lu lu2 delta (ca_sel p (p_na p)) (ca_sel p (p_nb p)) (ca_sel p (s_rho s)) tol max_iter
      (repeat (/ 5) (2 * p_nassoc p)) Hl Hrun).
    match type of EL with ?a = _ => match goal with |- context [@newton_loop XNum ?f ?k ?x] => change (@newton_loop XNum f k x) with a end end.
    rewrite EL.
    change (@newton_loop RNum (@newton_step RNum lu (p_nassoc p) delta (ca_sel p (p_na p)) (ca_sel p (p_nb p)) (ca_sel p (s_rho s)) tol) max_iter (repeat (/ 5) (2 * p_nassoc p)))
      with (@newton_loop RNum (ca_step lu tol) max_iter (repeat (/ 5) (2 * p_nassoc p))).
    rewrite Hloop. split; reflexivity.
  Qed.

  (** Two or more associating components: if the Newton iteration over the reals accepts positive
      site fractions and no iterate has a zero entry, the evaluation over the extended reals
      returns the same, finite energy. *)
  Theorem C07_cross_association lu lu2 max_iter tol x : lu_lifts lu lu2 ->
    run_ok (ca_step lu tol) max_iter (repeat (/ 5) (2 * p_nassoc p)) ->
    @newton_loop RNum (ca_step lu tol) max_iter (repeat (/ 5) (2 * p_nassoc p)) = Ok x -> posv (p_nassoc p) x ->
    exists r, a_cross_assoc lu max_iter tol p s = Some r /\
              a_cross_assoc lu2 max_iter (Fin tol) q xs = Some (Fin r).
  Proof.
    intros Hl Hrun Hloop Hpos. pose proof (cross_association_x lu lu2 max_iter tol x Hl Hrun Hloop) as A.
    destruct (@nltb RNum (@nsum RNum (s_rho s)) (@f_eps RNum)); destruct A as [A B]; [exists (0 * v); auto | ].
    eexists. split; [exact A | ]. rewrite B.
    pose proof (tr_energy TX (p_nassoc p) (fun _ => ca_sel p (p_na p)) (fun _ => ca_sel p (p_nb p)) (fun _ => ca_sel p (s_rho s)) (fun _ => x)
      _ _ _ _ (lrel_const _) (lrel_const _) (lrel_const _) (lrel_const x) Hpos) as E.
    change (@ca_energy XNum (p_nassoc p) (map Fin (ca_sel p (p_na p))) (map Fin (ca_sel p (p_nb p))) (map Fin (ca_sel p (s_rho s))) (map Fin x)
      = Fin (@ca_energy RNum (p_nassoc p) (ca_sel p (p_na p)) (ca_sel p (p_nb p)) (ca_sel p (s_rho s)) x)) in E.
    rewrite E. reflexivity.
  Qed.
End C07.
