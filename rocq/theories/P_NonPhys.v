(** C07, C13, C48: what the default start vector of the cross-association routine leads to.

    Two substances of the shipped files, 1-nonanol (loetgeringlin2018.json) and water with two A
    and one B site (rehner2020.json), at 300 K and a packing fraction of 0.474: six Newton steps
    from 0.2 end in a root of the law of mass action with three negative entries.  It is accepted,
    and its energy contains logarithms of negative numbers. *)
From Coq Require Import ZArith QArith Reals Lra Lia String List Bool.
From Interval Require Import Tactic.
From Verif Require Import Num RNum RSum Tables M_Params F_Params M_Eos Spec F_Spec F_SpecAssoc F_Contrib
  F_MassAction F_Newton F_Gauss F_NewtonR F_Cross Samples F_Transfer XNum F_Transfer2 F_Transfer3 F_XParams
  P_Params P_Assoc P_Assoc2 P_Finite M_Shipped Shipped P_Select P_DftR P_Shipped F_Track F_Nonanol.
Import ListNotations.
Local Open Scope R_scope.
Set Bullet Behavior "Strict Subproofs".
Notation length := List.length.

(* ------------------------------------------------------------------------ the substances *)

Definition e_nonanol : entry :=
  mkEntry "1-nonanol" 144.257 [("m"%string, QN 4.749); ("sigma"%string, QN 3.729); ("epsilon_k"%string, QN 253.6291);
    ("mu"%string, QN 1.6099); ("q"%string, QN 0.0); ("kappa_ab"%string, QN 0.03); ("epsilon_k_ab"%string, QN 2073.3555);
    ("viscosity"%string, QA [(-1.4657)%Q; (-2.71167)%Q; (-0.49511)%Q; (-0.13491)%Q])].
Definition e_water3 : entry :=
  mkEntry "water_3B" 18.01528 [("m"%string, QN 1.6330279759286626); ("sigma"%string, QN 2.4570046159550527);
    ("epsilon_k"%string, QN 238.31794591948915); ("kappa_ab"%string, QN 0.037807044304069184);
    ("epsilon_k_ab"%string, QN 2749.004567423258); ("na"%string, QN 2)].
Lemma both_shipped : forall e, In e [e_nonanol; e_water3] -> In e shipped.
Proof.
  assert (A : In e_nonanol loetgeringlin2018) by exact (nth_error_In loetgeringlin2018 107 eq_refl).
  assert (B : In e_water3 rehner2020) by (unfold rehner2020; repeat (first [left; reflexivity | right])).
  intros e [<- | [<- | []]]; unfold shipped; rewrite !in_app_iff; tauto.
Qed.

Definition pr_nonanol : pure_record RNum :=
  @mkPure RNum (mkIdent None (Some "1-nonanol"%string) None None None None) 144.257
    (@mkRec RNum 4.749 3.729 253.6291 (Some 1.6099) (Some 0.0) (Some 0.03) (Some 2073.3555) None None
       (Some (-1.4657, -2.71167, -0.49511, -0.13491)) None None) None.
Definition pr_water3 : pure_record RNum :=
  @mkPure RNum (mkIdent None (Some "water_3B"%string) None None None None) 18.01528
    (@mkRec RNum 1.6330279759286626 2.4570046159550527 238.31794591948915 None None (Some 0.037807044304069184)
       (Some 2749.004567423258) (Some 2) None None None None) None.
Notation nw := (@from_records_raw RNum [pr_nonanol; pr_water3] (zeros 2)).
Lemma nw_ok : from_records [pr_nonanol; pr_water3] (zeros 2) = Some nw.
Proof. reflexivity. Qed.
Lemma nw_read : read_all (K := RNum) [e_nonanol; e_water3] = Some [pr_nonanol; pr_water3].
Proof.
  destruct (C48_mixture [e_nonanol; e_water3] (zeros 2) both_shipped) as (prs & p & A & _).
  - cbn. lia.
  - intros row Hr. cbn in Hr. destruct Hr as [<- | [<- | []]]; cbn; lia.
  - rewrite A. f_equal. apply Some_inj. rewrite <- A. reflexivity.
Qed.

Lemma nw_sound : forall pr, In pr [pr_nonanol; pr_water3] -> sound_record (pr_model pr).
Proof. exact (all_sound _ both_shipped _ nw_read). Qed.
Lemma nw_phys : phys nw.
Proof. exact (sound_phys _ _ _ nw_sound nw_ok). Qed.
Lemma nw_assoc : assoc_phys nw.
Proof. exact (sound_assoc _ _ _ nw_sound nw_ok). Qed.
Definition nw_n : list R := [5; 3].
Lemma nw_state : phys_state nw 300 1400 nw_n.
Proof.
  apply Samples.phys_state_intro; [exact nw_phys | lra | lra | reflexivity | | | ].
  - intros i Hi. cbn in Hi. destruct i as [ | [ | i]]; cbn; try lra; lia.
  - exists 0%nat. cbn. split; [lia | lra].
  - cbn. lra.
Qed.
Lemma nw_comp : p_assoc_comp nw = [0%nat; 1%nat].
Proof.
  change (p_assoc_comp nw) with (nonzero_comp (p_kappa_ab nw)). unfold nonzero_comp.
  cbn [from_records_raw p_kappa_ab pr_nonanol pr_water3 map pr_model r_kappa_ab unwrap_or List.length seq filter ix nth].
  assert (H : forall x, 0 < x -> @nltb RNum (@n0 RNum) (@nabs RNum x) = true).
  { intros x Hx. apply Rltb_true. unfold n0. cbn. rewrite Rabs_pos_eq by lra. lra. }
  rewrite !H by lra. reflexivity.
Qed.
Lemma nw_nassoc : p_nassoc nw = 2%nat.
Proof. change (p_nassoc nw) with (List.length (p_assoc_comp nw)). rewrite nw_comp. reflexivity. Qed.
Lemma nw_cmp i : (i < 2)%nat -> comp nw i = i.
Proof. intros Hi. unfold comp. rewrite nw_comp. destruct i as [ | [ | i]]; auto; lia. Qed.
Lemma nw_wf : wfp nw.
Proof. exact (wfp_from_records _ _ _ nw_ok). Qed.

(* ------------------------------------------------------------- densities times strengths *)

Notation nw_rho := (fun i : nat => nth i nw_n 0 / 1400).
Definition nwd (i j : nat) : R := Delta (mix_of nw) 300 nw_rho i j.
Lemma nw_strengths : strengths (5 / 1400 * nwd 0 0) (3 / 1400 * nwd 0 1) (5 / 1400 * nwd 1 0) (3 / 1400 * nwd 1 1).
Proof.
  unfold strengths, nwd, Delta, Gij, Zeta, Kapij, Sij, Di. cbn.
  repeat split; interval with (i_prec 240).
Qed.

(* ---------------------------------------------------------------------------- the run *)

Section Run.
  Variables (lu : lu_solver RNum) (tol : R).
  Hypothesis Hlu : lu_exact lu.
  Hypothesis Htol : 1 / 10 ^ 11 < tol <= 1 / 10 ^ 9.
  Notation delta := (F_Cross.delta_ nw 300 1400 nw_n).
  Notation step := (@newton_step RNum lu 2 delta (na_ nw) (nb_ nw) (rho_ nw 300 1400 nw_n) tol).
  Notation b00 := (5 / 1400 * nwd 0 0).
  Notation b01 := (3 / 1400 * nwd 0 1).
  Notation b10 := (5 / 1400 * nwd 1 0).
  Notation b11 := (3 / 1400 * nwd 1 1).
  Notation dl i j := (@ix2 RNum delta i j).

  Lemma nw_dl i j : (i < 2)%nat -> (j < 2)%nat -> dl i j = nwd i j.
  Proof.
    intros Hi Hj. rewrite (delta_ix nw nw_wf nw_phys 300 1400 nw_n nw_state) by (rewrite nw_nassoc; auto).
    rewrite !nw_cmp by auto. reflexivity.
  Qed.
  Lemma nw_rl i : (i < 2)%nat -> @ix RNum (rho_ nw 300 1400 nw_n) i = nth i nw_n 0 / 1400.
  Proof.
    intros Hi. rewrite (rho_ix nw nw_wf 300 1400 nw_n nw_state) by (rewrite nw_nassoc; auto).
    rewrite nw_cmp by auto. reflexivity.
  Qed.
  Lemma nw_nal i : (i < 2)%nat -> @ix RNum (na_ nw) i = nth i [1; 2] 0.
  Proof.
    intros Hi. rewrite na_ix by (rewrite nw_nassoc; auto). rewrite nw_cmp by auto.
    destruct i as [ | [ | i]]; try lia; reflexivity.
  Qed.
  Lemma nw_nbl i : (i < 2)%nat -> @ix RNum (nb_ nw) i = nth i [1; 1] 0.
  Proof.
    intros Hi. rewrite nb_ix by (rewrite nw_nassoc; auto). rewrite nw_cmp by auto.
    destruct i as [ | [ | i]]; try lia; reflexivity.
  Qed.

  Lemma nw_step k x0 x1 x2 x3 : x0 <> 0 -> x1 <> 0 -> x2 <> 0 -> x3 <> 0 ->
    tracked b00 b01 b10 b11 k x0 x1 x2 x3 ->
    exists z0 z1 z2 z3, step [x0; x1; x2; x3] = Ok ([z0; z1; z2; z3], negb (k <? 5)%nat) /\ iterate (S k) z0 z1 z2 z3.
  Proof.
    intros X0 X1 X2 X3 (H0 & H1 & Hd & He & Hi).
    destruct (two_step lu delta (na_ nw) (nb_ nw) (rho_ nw 300 1400 nw_n) tol Hlu b00 b01 b10 b11 b00 (2 * b01) b10 (2 * b11))
      with (x0 := x0) (x1 := x1) (x2 := x2) (x3 := x3) as (z0 & z1 & z2 & z3 & E0 & E1 & E2 & E3 & E); auto.
    - rewrite !nw_rl, !nw_nbl, !nw_dl by lia. cbn [nw_n nth]. repeat split; ring.
    - rewrite !nw_rl, !nw_nal, !nw_dl by lia. cbn [nw_n nth]. repeat split; field.
    - exists z0, z1, z2, z3. split; [ | rewrite E0, E1, E2, E3; exact Hi].
      rewrite E. clear E. match goal with |- Ok (_, ?b) = _ => set (bb := b) end. destruct (k <? 5)%nat; cbn [negb].
      + assert (bb = false) as ->; [apply Rltb_false; lra | reflexivity].
      + assert (bb = true) as ->; [apply Rltb_true; lra | reflexivity].
  Qed.
  Lemma nw_iterate_nz k x0 x1 x2 x3 : (k < 7)%nat -> iterate k x0 x1 x2 x3 -> x0 <> 0 /\ x1 <> 0 /\ x2 <> 0 /\ x3 <> 0.
  Proof.
    intros Hk H. do 7 (destruct k as [ | k]; [cbn [iterate] in H; lra | ]). lia.
  Qed.
  Lemma nw_tracked k x0 x1 x2 x3 : (k < 6)%nat -> iterate k x0 x1 x2 x3 -> tracked b00 b01 b10 b11 k x0 x1 x2 x3.
  Proof.
    intros Hk H. pose proof nw_strengths as HB.
    destruct k as [ | [ | [ | [ | [ | [ | k]]]]]]; try lia;
      [apply track0 | apply track1 | apply track2 | apply track3 | apply track4 | apply track5]; auto.
  Qed.
  (** the accepted vector, and no vector on the way to it has a zero entry *)
  Lemma nw_run fuel : (6 <= fuel)%nat ->
    exists z0 z1 z2 z3, iterate 6 z0 z1 z2 z3 /\
      @newton_loop RNum step fuel (repeat (/ 5) 4) = Ok [z0; z1; z2; z3] /\ run_ok nw step fuel (repeat (/ 5) 4).
  Proof.
    intros Hf.
    assert (G : forall m k fuel x0 x1 x2 x3, (m + k = 5)%nat -> (S m <= fuel)%nat -> iterate k x0 x1 x2 x3 ->
      exists z0 z1 z2 z3, iterate 6 z0 z1 z2 z3 /\ @newton_loop RNum step fuel [x0; x1; x2; x3] = Ok [z0; z1; z2; z3] /\
        run_ok nw step fuel [x0; x1; x2; x3]).
    { clear fuel Hf. intros m. induction m as [ | m IH]; intros k fuel x0 x1 x2 x3 Ek Hf Hi;
        (destruct fuel as [ | fuel]; [lia | ]); cbn [newton_loop run_ok];
        (destruct (nw_iterate_nz k x0 x1 x2 x3 ltac:(lia) Hi) as (X0 & X1 & X2 & X3));
        (destruct (nw_step k x0 x1 x2 x3 X0 X1 X2 X3 (nw_tracked k _ _ _ _ ltac:(lia) Hi)) as (z0 & z1 & z2 & z3 & E & Hn));
        (assert (Z : nz (p_nassoc nw) [x0; x1; x2; x3])
           by (rewrite nw_nassoc; intros i Hl; destruct i as [ | [ | i]]; cbn; auto; lia));
        rewrite E.
      - replace k with 5%nat in * by lia. cbn. exists z0, z1, z2, z3. auto.
      - replace (k <? 5)%nat with true by (symmetry; apply Nat.ltb_lt; lia). cbn [negb].
        destruct (IH (S k) fuel z0 z1 z2 z3 ltac:(lia) ltac:(lia) Hn) as (y0 & y1 & y2 & y3 & A & B & C).
        exists y0, y1, y2, y3. split; auto. split; [ | split; auto].
        destruct fuel; [lia | exact B]. }
    destruct (G 5%nat 0%nat fuel (/ 5) (/ 5) (/ 5) (/ 5)) as (z0 & z1 & z2 & z3 & A & B & C); auto.
    - cbn [iterate]. lra.
    - exists z0, z1, z2, z3. auto.
  Qed.
End Run.

(* ------------------------------------------------------------------------- the results *)

Lemma nw_density : @nltb RNum (@nsum RNum (s_rho (@state_new RNum 300 1400 nw_n))) (@f_eps RNum) = false.
Proof. apply Rltb_false. rewrite f_eps_R. cbn. lra. Qed.
Lemma nw_default_tol : @o_tol RNum default_options = / 10 ^ 10.
Proof. cbn. lits. lra. Qed.
Lemma nw_tol : 1 / 10 ^ 11 < / 10 ^ 10 <= 1 / 10 ^ 9.
Proof. lra. Qed.

(** From the start vector the equation of state uses (0.2 for every site), with the default
    iteration limit and tolerance, the routine accepts a vector with negative entries. *)
Theorem C13_default_start_refuted :
  exists prs bin p t v moles, from_records prs bin = Some p /\ phys p /\ assoc_phys p /\ phys_state p t v moles /\
    Eta (mix_of p) t (fun i => nth i moles 0 / v) < 1 / 2 /\
    let s := @state_new RNum t v moles in
    forall lu, lu_exact lu -> exists a x,
      @cross_association RNum lu p t (s_rho s) (seg_radius p t) (assoc_n2 p t (s_rho s))
        (@nrecip RNum (1 - packing p t (s_rho s))) (@n1 RNum) (@o_max_iter RNum default_options) (@o_tol RNum default_options)
        (Some (repeat (2 / 10) (2 * p_nassoc p))) = (Ok a, Some x) /\
      length x = 4%nat /\ 5 < nth 0 x 0 /\ nth 1 x 0 < -3 /\ nth 2 x 0 < 0 /\ nth 3 x 0 < 0.
Proof.
  exists [pr_nonanol; pr_water3], (zeros 2), nw, 300, 1400, nw_n. split; [exact nw_ok | ]. split; [exact nw_phys | ].
  split; [exact nw_assoc | ]. split; [exact nw_state | ]. split; [unfold Eta, Zeta, Di; cbn; interval | ].
  cbv zeta. intros lu Hlu. rewrite nw_default_tol. change (@o_max_iter RNum default_options) with 50%nat.
  destruct (nw_run lu (/ 10 ^ 10) Hlu nw_tol 50 ltac:(lia)) as (z0 & z1 & z2 & z3 & I & L & _).
  eexists. exists [z0; z1; z2; z3]. split; [ | cbn [iterate] in I; split; [reflexivity | cbn; lra]].
  unfold cross_association. rewrite nw_density. cbv zeta.
  assert (E3 : @nrecip RNum (1 - packing nw 300 (s_rho (@state_new RNum 300 1400 nw_n))) = n3i_ nw 300 1400 nw_n).
  { unfold n3i_. f_equal. rn. ring. }
  rewrite E3. cbn [nre RNum nderiv newton_deriv]. rewrite !map_id.
  rewrite (map_ext (map (fun x : R => x)) (fun l => l)) by apply map_id. rewrite !map_id.
  rewrite nw_nassoc. replace (2 / 10) with (/ 5) by lra.
  match goal with |- context [@newton_loop RNum ?f ?k ?x] => change (@newton_loop RNum f k x) with
    (@newton_loop RNum (@newton_step RNum lu 2 (F_Cross.delta_ nw 300 1400 nw_n) (na_ nw) (nb_ nw) (rho_ nw 300 1400 nw_n) (/ 10 ^ 10)) 50 (repeat (/ 5) 4)) end.
  rewrite L. reflexivity.
Qed.

(** the energy of a vector with a negative entry is not a number *)
Lemma xadd_nan_l a : @nadd XNum NaN a = NaN.
Proof. destruct a; reflexivity. Qed.
Lemma xadd_nan_r a : @nadd XNum a NaN = NaN.
Proof. destruct a; reflexivity. Qed.
Lemma xsum_nan (l : list xr) : In NaN l -> @nsum XNum l = NaN.
Proof.
  unfold nsum. generalize (@n0 XNum). induction l as [ | b l IH]; intros a H; cbn [fold_left]; [destruct H | destruct H as [-> | H]].
  - rewrite xadd_nan_r. clear. induction l as [ | b l IH]; cbn [fold_left]; auto.
  - apply IH. auto.
Qed.
Lemma f_assoc_nan x : x < 0 -> @f_assoc XNum (Fin x) = NaN.
Proof.
  intros Hx. unfold f_assoc. change (@nln XNum (Fin x)) with (xln (Fin x)). unfold xln.
  destruct (Rlt_dec 0 x); [lra | ]. destruct (Req_EM_T x 0); [lra | ]. reflexivity.
Qed.

Lemma nw_energy_nan (na nb rl : list R) z0 z1 z2 z3 : z2 < 0 ->
  @ca_energy XNum 2 (map Fin na) (map Fin nb) (map Fin rl) (map Fin [z0; z1; z2; z3]) = NaN.
Proof.
  intros Hz. unfold ca_energy. cbn [map firstn skipn]. unfold nsumi. apply xsum_nan. cbn [seq map]. left.
  cbn [ix nth]. rewrite (f_assoc_nan z2 Hz).
  assert (M : forall a, @nmul XNum NaN a = NaN) by (intros []; reflexivity).
  assert (M2 : forall a, @nmul XNum a NaN = NaN) by (intros []; reflexivity).
  rewrite M, xadd_nan_r, M2. reflexivity.
Qed.

Lemma nw_not_a_number lu lu2 : lu_exact lu -> lu_lifts lu lu2 ->
  residual lu2 (with_options (xparams nw) (xoptions default_options)) (xstate 300 1400 nw_n) = Some NaN.
Proof.
  intros Hlu Hl.
  destruct (nw_run lu (/ 10 ^ 10) Hlu nw_tol 50 ltac:(lia)) as (z0 & z1 & z2 & z3 & I & L & Rn).
  assert (A := cross_association_x [pr_nonanol; pr_water3] (zeros 2) nw nw_ok nw_phys 300 1400 nw_n nw_state
    lu lu2 50 (/ 10 ^ 10) [z0; z1; z2; z3] Hl).
  unfold ca_step in A. rewrite nw_nassoc in A. specialize (A Rn L). rewrite nw_density in A. destruct A as [_ A].
  rewrite nw_energy_nan in A by (cbn [iterate] in I; lra).
  change (@nmul XNum NaN (Fin 1400)) with NaN in A.
  assert (Et : @o_tol XNum (xoptions default_options) = Fin (/ 10 ^ 10)) by (rewrite <- nw_default_tol; reflexivity).
  unfold residual, with_options. cbn [e_params e_contributions].
  change (p_nassoc (xparams nw)) with (p_nassoc nw). rewrite nw_nassoc.
  rewrite Et. change (@o_max_iter XNum (xoptions default_options)) with 50%nat.
  set (cs := _ ++ _).
  assert (C : forall c, In c cs -> c = @CCrossAssociation XNum 50 (Fin (/ 10 ^ 10)) \/
    exists r, eval_contribution lu2 (xparams nw) c (xstate 300 1400 nw_n) = Some r).
  { intros c. unfold cs. rewrite !in_app_iff. intros H.
    destruct H as [H | [H | [H | [H | H]]]].
    - destruct H as [<- | [<- | [<- | []]]]; right; eexists; reflexivity.
    - destruct (Nat.ltb 0 _) in H; [destruct H as [<- | []]; right; eexists; reflexivity | destruct H].
    - destruct (Nat.ltb 0 _) in H; [destruct H as [<- | []]; right; eexists; reflexivity | destruct H].
    - destruct (_ && _) in H; [destruct H as [<- | []]; right; eexists; reflexivity | destruct H].
    - destruct H as [<- | []]. left. reflexivity. }
  assert (H : In (@CCrossAssociation XNum 50 (Fin (/ 10 ^ 10))) cs) by (unfold cs; rewrite !in_app_iff; do 4 right; left; reflexivity).
  clearbody cs.
  assert (G : exists l, collect_opt (map (fun c => eval_contribution lu2 (xparams nw) c (xstate 300 1400 nw_n)) cs) = Some l /\
    (In (@CCrossAssociation XNum 50 (Fin (/ 10 ^ 10))) cs -> In NaN l)).
  { clear H. induction cs as [ | c cs IH]; [exists []; split; [reflexivity | intros []] | ].
    destruct IH as (l & E & Hl'); [intros c' Hc'; apply C; right; auto | ].
    assert (V : exists r, eval_contribution lu2 (xparams nw) c (xstate 300 1400 nw_n) = Some r /\
      (c = @CCrossAssociation XNum 50 (Fin (/ 10 ^ 10)) -> r = NaN)).
    { destruct (C c (or_introl eq_refl)) as [-> | [r Hr]]; [exists NaN; split; auto; exact A | ].
      exists r. split; auto. intros ->. cbn [eval_contribution] in Hr. rewrite A in Hr. apply (Some_inj _ _) in Hr. auto. }
    destruct V as (r & V & Hr). exists (r :: l). cbn [map collect_opt]. rewrite V, E. split; auto.
    intros [-> | Hc]; [left; auto | right; auto]. }
  destruct G as (l & -> & Hn). rewrite (xsum_nan l (Hn H)). reflexivity.
Qed.

(** a linear solver for the extended reals: reads finite matrices, solves over the reals *)
Definition finite_part (a : xr) : R := match a with Fin r => r | _ => 0 end.
Definition lifted (lu : lu_solver RNum) : lu_solver XNum := fun h g =>
  match lu (map (map finite_part) h) (map finite_part g) with Some x => Some (map Fin x) | None => None end.
Lemma lifted_ok lu : lu_lifts lu (lifted lu).
Proof.
  intros h g. unfold lifted, xmat.
  assert (E : forall l, map finite_part (map Fin l) = l) by (intros l; rewrite map_map; apply map_id).
  rewrite E. rewrite map_map. rewrite (map_ext _ (fun l => l)) by apply E. rewrite map_id. reflexivity.
Qed.

(** C07 fails with two associating substances, for parameters, temperature, density and options in
    everyday use: the residual Helmholtz energy is not a number, whichever (exact) solver is used *)
Theorem C07_cross_association_refuted :
  exists prs bin p t v moles, from_records prs bin = Some p /\ phys p /\ assoc_phys p /\ phys_state p t v moles /\
    Eta (mix_of p) t (fun i => nth i moles 0 / v) < 1 / 2 /\ (exists lu lu2, lu_exact lu /\ lu_lifts lu lu2) /\
    forall lu lu2, lu_exact lu -> lu_lifts lu lu2 ->
      residual lu2 (with_options (xparams p) (xoptions default_options)) (xstate t v moles) = Some NaN.
Proof.
  exists [pr_nonanol; pr_water3], (zeros 2), nw, 300, 1400, nw_n. split; [exact nw_ok | ]. split; [exact nw_phys | ].
  split; [exact nw_assoc | ]. split; [exact nw_state | ]. split; [unfold Eta, Zeta, Di; cbn; interval | ].
  split; [exists gauss_lu, (lifted gauss_lu); split; [exact gauss_lu_exact | apply lifted_ok] | ].
  exact nw_not_a_number.
Qed.

(** and this happens with two entries of the shipped files *)
Theorem C48_cross_association_refuted :
  exists e1 e2 (prs : list (pure_record RNum)) p t v moles, In e1 loetgeringlin2018 /\ In e2 rehner2020 /\
    read_all [e1; e2] = Some prs /\ from_records prs [[0; 0]; [0; 0]] = Some p /\ phys_state p t v moles /\
    Eta (mix_of p) t (fun i => nth i moles 0 / v) < 1 / 2 /\
    forall lu lu2, lu_exact lu -> lu_lifts lu lu2 ->
      residual lu2 (with_options (xparams p) (xoptions default_options)) (xstate t v moles) = Some NaN.
Proof.
  exists e_nonanol, e_water3, [pr_nonanol; pr_water3], nw, 300, 1400, nw_n.
  split; [exact (nth_error_In loetgeringlin2018 107 eq_refl) | ].
  split; [unfold rehner2020; repeat (first [left; reflexivity | right]) | ]. split; [exact nw_read | ]. split; [exact nw_ok | ].
  split; [exact nw_state | ]. split; [unfold Eta, Zeta, Di; cbn; interval | ].
  exact nw_not_a_number.
Qed.

Print Assumptions C13_default_start_refuted.
Print Assumptions C07_cross_association_refuted.
Print Assumptions C48_cross_association_refuted.
