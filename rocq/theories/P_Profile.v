(** C45 and the non-uniform part of C10: the functional at the points of a density profile. *)
From Coq Require Import ZArith QArith Reals Lra Lia String List Bool Psatz.
From Verif Require Import Num RNum RSum Tables M_Params F_Params M_Eos M_Dft M_Profile Spec SpecDft F_Spec F_SpecPolar
  F_SpecAssoc F_Contrib Samples F_Total P_Params P_Select P_Fmt P_Assoc F_Dft F_Dft2 F_DftT2 P_Dft P_DftR.
Import ListNotations.
Local Open Scope R_scope.
Set Bullet Behavior "Strict Subproofs".

Lemma ndot_R (a b : nat -> R) dim : @ndot RNum (map a (seq 0 dim)) (map b (seq 0 dim)) = dot dim a b.
Proof.
  unfold ndot. rewrite nsum_R. unfold nmul1, dot. rewrite rsum_map.
  generalize (seq 0 dim). intros l. induction l as [ | x l IH]; [reflexivity | ].
  cbn [map combine rsum fold_right] in *. unfold rsum in *. cbn [map fold_right fst snd] in *. rewrite IH. reflexivity.
Qed.

Lemma rsum_ge_term (l : list nat) (f : nat -> R) i : (forall j, In j l -> 0 <= f j) -> In i l -> f i <= rsum l f.
Proof.
  unfold rsum. induction l as [ | a l IH]; intros H I; [destruct I | ]. cbn [map fold_right].
  assert (A : 0 <= f a) by (apply H; left; auto).
  assert (B : 0 <= rsum l f) by (apply rsum_nonneg; intros j Hj; apply H; right; auto). unfold rsum in B.
  destruct I as [-> | I]; [lra | ]. specialize (IH (fun j Hj => H j (or_intror Hj)) I). lra.
Qed.

Lemma flat_single (f : nat -> nat -> R) l : flat_map (fun k => mk1 1 (f k)) l = map (fun k => f k 0%nat) l.
Proof. induction l as [ | a l IH]; [reflexivity | ]. cbn [flat_map map]. rewrite IH. reflexivity. Qed.

Lemma ix_rows n (f : nat -> nat -> R) dim k i : (k < dim)%nat -> (i < n)%nat ->
  @ix RNum (flat_map (fun k => mk1 n (f k)) (seq 0 dim)) (n * k + i) = f k i.
Proof.
  intros Hk Hi. 
  enough (H : forall s, @ix RNum (flat_map (fun k => mk1 n (f k)) (seq s dim)) (n * k + i) = f (s + k)%nat i) by apply H.
  revert k Hk. induction dim as [ | dim IH]; intros k Hk s; [lia | ].
  cbn [seq flat_map]. destruct k as [ | k].
  - rewrite ix_app1 by (rewrite mk1_length; lia).
    replace (n * 0 + i)%nat with i by lia. rewrite (ix_mk1 (K := RNum)) by auto. f_equal. lia.
  - rewrite ix_app2 by (rewrite mk1_length; lia). rewrite mk1_length.
    replace (n * S k + i - n)%nat with (n * k + i)%nat by lia.
    rewrite IH by lia. f_equal. lia.
Qed.

(* ------------------------------------------------------------------ weighted densities *)

Section Point.
  Variables (prs : list (pure_record RNum)) (bin : list (list R)) (p : params RNum).
  Hypothesis Hp : from_records prs bin = Some p.
  Hypothesis Hph : phys p.
  Variable t : R.
  Hypothesis Ht : 0 < t.
  Let W := wfp_from_records _ _ _ Hp.
  Let X := mix_of p.
  Notation n := (List.length (p_m p)).
  (* the density profile seen from the point *)
  Variables (dim : nat) (local : nat -> R) (conv : wf_shape -> R -> nat -> nat -> R).

  (** densities entering the chain functional: mean density on the sphere of radius d_i, moments *)
  Definition chain_lambda (i : nat) : R := conv M_Dft.Delta (Di X t i) i 0 / (4 * PI * Di X t i ^ 2).
  Definition chain_z2 : R := Sum i < n, M X i / (8 * Di X t i) * conv Theta (Di X t i) i 0.
  Definition chain_z3 : R := Sum i < n, M X i / 8 * conv Theta (Di X t i) i 0.
  (** densities entering the association functional *)
  Definition as_n0 (i : nat) : R := conv M_Dft.Delta (Di X t i / 2) i 0 / (PI * Di X t i ^ 2).
  Definition as_v2 (k i : nat) : R := M X i * conv DeltaVec (Di X t i / 2) i k.
  Definition as_n3 : R := Sum i < n, M X i * conv Theta (Di X t i / 2) i 0.
  (** averages over the sphere of radius psi d_i *)
  Definition att_rho (psi : R) (i : nat) : R :=
    conv Theta (psi * Di X t i) i 0 / (4 / 3 * PI * (psi * Di X t i) ^ 3).

  Let Lhs' : @List.length R (@hs_diameter RNum p t) = n.
  Proof. unfold hs_diameter. cbv zeta. lenR. rewrite mk1_length. apply (w_ns _ W). Qed.
  Let Dp i : (i < n)%nat -> 0 < Di X t i.
  Proof. intros Hi. apply (Di_pos p Hph); auto. Qed.

  Lemma chain_pwd : profile_wd (chain_weight_functions p t) n dim local conv
    = mk1 n local ++ mk1 n chain_lambda ++ [chain_z2; chain_z3].
  Proof.
    unfold profile_wd, chain_weight_functions. cbn [wi_local wi_comp wi_fmt].
    cbn [filter is_vec wf_scaled wf_sh negb flat_map map]. rewrite !app_nil_r. cbn [app].
    f_equal. f_equal; [ | f_equal; [ | f_equal]].
    - apply mk1_ext. intros i Hi. unfold wf_scaled; cbn [wf_prefactor wf_radius wf_sh].
      rewrite (ix_map (K := RNum) _ _ _ 0) by (lenR; rewrite Lhs'; auto).
      change (nth i (hs_diameter p t) 0) with (@ix RNum (hs_diameter p t) i).
      rewrite (hs_diameter_spec p W) by auto. fold X. unfold chain_lambda, shape_integral.
      pose proof (Dp i Hi). pose proof PI_RGT_0. set (c := conv _ _ _ _). rn. field. lra.
    - rewrite nsumi_R. apply Sum_ext. intros i Hi. unfold wf_scaled; cbn [wf_prefactor wf_radius wf_sh].
      lenR. rewrite Lhs'. rewrite (ix_mk1 (K := RNum)) by auto. rewrite (hs_diameter_spec p W) by auto. fold X.
      change (M X i) with (@ix RNum (p_m p) i). pose proof (Dp i Hi). set (c := conv _ _ _ _). rn. field. lra.
    - rewrite nsumi_R. apply Sum_ext. intros i Hi. unfold wf_scaled; cbn [wf_prefactor wf_radius wf_sh].
      rewrite (ix_map (K := RNum) _ _ _ 0) by auto. rewrite (hs_diameter_spec p W) by auto. fold X.
      change (M X i) with (@ix RNum (p_m p) i). change (nth i (p_m p) 0) with (@ix RNum (p_m p) i).
      set (c := conv _ _ _ _). rn. field.
  Qed.

  Lemma assoc_pwd : profile_wd (assoc_weight_functions p t) n dim local conv
    = mk1 n as_n0 ++ flat_map (fun k => mk1 n (as_v2 k)) (seq 0 dim) ++ [as_n3].
  Proof.
    unfold profile_wd, assoc_weight_functions. cbn [wi_local wi_comp wi_fmt].
    cbn [filter is_vec wf_scaled wf_sh negb flat_map map]. rewrite !app_nil_r. cbn [app].
    assert (Lsr : @List.length R (@seg_radius RNum p t) = n) by (unfold seg_radius; rewrite map_length; exact Lhs').
    f_equal; [ | f_equal; [ | f_equal]].
    - apply mk1_ext. intros i Hi. unfold wf_scaled; cbn [wf_prefactor wf_radius wf_sh].
      rewrite (ix_map (K := RNum) _ _ _ 0) by (lenR; rewrite Lsr; auto).
      change (nth i (seg_radius p t) 0) with (@ix RNum (seg_radius p t) i).
      rewrite (seg_radius_spec p W) by auto. fold X. unfold as_n0, shape_integral.
      pose proof (Dp i Hi). pose proof PI_RGT_0. set (c := conv _ _ _ _). rn. field. lra.
    - apply flat_map_ext_in. intros k _. apply mk1_ext. intros i Hi. unfold wf_scaled; cbn [wf_prefactor wf_radius wf_sh].
      rewrite (seg_radius_spec p W) by auto. reflexivity.
    - rewrite nsumi_R. apply Sum_ext. intros i Hi. unfold wf_scaled; cbn [wf_prefactor wf_radius wf_sh].
      rewrite (seg_radius_spec p W) by auto. reflexivity.
  Qed.

  Lemma att_pwd psi : 0 < psi -> profile_wd (@att_weight_functions RNum psi p t) n dim local conv
    = mk1 n (att_rho psi).
  Proof.
    intros Hpsi. unfold profile_wd, att_weight_functions. cbn [wi_local wi_comp wi_fmt].
    cbn [filter is_vec wf_scaled wf_sh negb flat_map map]. rewrite !app_nil_r. cbn [app].
    apply mk1_ext. intros i Hi. unfold wf_scaled; cbn [wf_prefactor wf_radius wf_sh].
    rewrite (ix_map (K := RNum) _ _ _ 0) by (rewrite map_length; exact (eq_ind_r (fun k => (i < k)%nat) Hi Lhs')).
    set (l := map _ _).
    assert (E : nth i l 0 = psi * Di X t i).
    { unfold l. change (nth i (map (fun d : R => d * psi) (hs_diameter p t)) 0 = psi * Di X t i).
      rewrite (nth_indep _ _ (0 * psi)) by (rewrite map_length; exact (eq_ind_r (fun k => (i < k)%nat) Hi Lhs')).
      rewrite (map_nth (fun d : R => d * psi)). change (nth i (hs_diameter p t) 0) with (@ix RNum (hs_diameter p t) i).
      rewrite (hs_diameter_spec p W) by auto. apply Rmult_comm. }
    change (@ix RNum l i) with (nth i l 0). rewrite E. unfold att_rho, shape_integral, frac_pi_3.
    pose proof (Dp i Hi). pose proof PI_RGT_0. set (c := conv _ _ _ _). rn.
    match goal with |- / (?a * _ * _ * _ * _) * _ = _ => replace a with (psi * Di X t i) by (symmetry; exact E) end.
    field. repeat split; lra.
  Qed.

  (* ------------------------------------------------------------------------- chain *)

  Theorem C45_chain : chain_z3 < 1 ->
    phi_chain p t (profile_wd (chain_weight_functions p t) n dim local conv)
    = - Sum i < n, local i * (M X i - 1)
          * (ln (contact (Di X t i) chain_z2 chain_z3 * (Rabs (chain_lambda i) + / 2 ^ 52)) - 1).
  Proof.
    intros H3. rewrite chain_pwd. unfold phi_chain.
    set (wd := mk1 n local ++ mk1 n chain_lambda ++ [chain_z2; chain_z3]).
    assert (Lw : List.length wd = (2 * n + 2)%nat).
    { unfold wd. rewrite !app_length, !mk1_length. cbn [List.length]. lia. }
    change (@List.length (car RNum) wd) with (@List.length R wd). rewrite Lw.
    replace (Nat.div (2 * n + 2 - 2) 2) with n.
    2:{ replace (2 * n + 2 - 2)%nat with (n * 2)%nat by lia. symmetry. apply Nat.div_mul. lia. }
    assert (E2 : @ix RNum wd (2 * n) = chain_z2).
    { unfold wd. rewrite ix_app2, ix_app2; rewrite ?mk1_length; try lia.
      replace (2 * n - n - n)%nat with 0%nat by lia. reflexivity. }
    assert (E3 : @ix RNum wd (2 * n + 1) = chain_z3).
    { unfold wd. rewrite ix_app2, ix_app2; rewrite ?mk1_length; try lia.
      replace (2 * n + 1 - n - n)%nat with 1%nat by lia. reflexivity. }
    cbv zeta. rewrite E2, E3. rewrite nsubs_R. unfold mk1. rewrite rsum_map. f_equal.
    apply Sum_ext. intros i Hi.
    assert (Ei : @ix RNum wd i = local i).
    { unfold wd. rewrite ix_app1 by (rewrite mk1_length; auto). apply (ix_mk1 (K := RNum)); auto. }
    assert (En : @ix RNum wd (n + i) = chain_lambda i).
    { unfold wd. rewrite ix_app2, ix_app1; rewrite ?mk1_length; try lia.
      replace (n + i - n)%nat with i by lia. apply (ix_mk1 (K := RNum)); auto. }
    rewrite Ei, En, (hs_diameter_spec p W) by auto. fold X.
    change (M X i) with (@ix RNum (p_m p) i).
    assert (El : @lambda_reg RNum (chain_lambda i) = Rabs (chain_lambda i) + / 2 ^ 52).
    { unfold lambda_reg, f_eps. rn. destruct (Rltb (chain_lambda i) 0) eqn:E.
      - apply Rltb_true in E. rewrite Rabs_left by auto. lra.
      - apply Rltb_false in E. rewrite Rabs_right by lra. lra. }
    rewrite El.
    assert (Ey : @chain_yi RNum (Di X t i) chain_z2 (@nrecip RNum (@nadd RNum (@nopp RNum chain_z3) (@nlit RNum 1)))
       = contact (Di X t i) chain_z2 chain_z3).
    { unfold chain_yi, contact. rn. field. lra. }
    rewrite Ey. rn. ring.
  Qed.

  (* -------------------------------------------------------------------- attraction *)

  (** the attractive functional at a point is the equation of state of a uniform fluid with the
      sphere averages as densities *)
  Theorem C45_attraction psi : 0 < psi -> (p_nquadpole p <= 1)%nat ->
    let rho := mk1 n (att_rho psi) in
    phys_state p t 1 rho -> / 2 ^ 52 < (Sum i < n, att_rho psi i) ->
    let s := @state_new RNum t 1 rho in
    phi_att p t (profile_wd (@att_weight_functions RNum psi p t) n dim local conv)
    = a_disp p s + a_dipole p s + a_quadrupole p s + a_dq p DQ35 s.
  Proof.
    intros Hpsi Hq rho PS He s. rewrite att_pwd by auto. fold rho.
    assert (Es : s_rho s = rho).
    { unfold s, state_new. cbn [s_rho]. rewrite <- (map_id rho) at 2. apply map_ext. intros a. rn. field. }
    assert (He' : @f_eps RNum < density rho 1).
    { unfold density, rho. unfold mk1. unfold f_eps. rn.
      match goal with |- _ < ?b => replace b with (Sum i < n, att_rho psi i) end; [lra | ].
      rewrite rsum_map. unfold Rdiv. rewrite Rinv_1, Rmult_1_r. reflexivity. }
    pose proof (C09_attraction prs bin p Hp Hph t 1 rho PS 0 psi Hq He' Hpsi) as C. fold s in C.
    rewrite (att_wd p W Hph t 1 rho PS) in C by auto. fold s in C. rewrite Es in C.
    etransitivity; [exact C | ]. unfold Rdiv. rewrite Rinv_1. apply Rmult_1_r.
  Qed.

  (* ------------------------------------------------------------------- association *)

  Let wd := profile_wd (assoc_weight_functions p t) n dim local conv.
  Let Ewd : wd = mk1 n as_n0 ++ flat_map (fun k => mk1 n (as_v2 k)) (seq 0 dim) ++ [as_n3] := assoc_pwd.
  Hypothesis Hn : (0 < n)%nat.
  Let Lrows : List.length (flat_map (fun k => mk1 n (as_v2 k)) (seq 0 dim)) = (dim * n)%nat.
  Proof.
    clear. generalize 0%nat. induction dim as [ | d IH]; intros s; [reflexivity | ].
    cbn [seq flat_map]. rewrite app_length, mk1_length, IH. lia.
  Qed.
  Let Lwd : @List.length R wd = (n + dim * n + 1)%nat.
  Proof. rewrite Ewd, !app_length, Lrows, mk1_length. cbn [List.length]. lia. Qed.
  Lemma pt_dim : da_dim p wd = dim.
  Proof.
    unfold da_dim. lenR. rewrite Lwd. replace (n + dim * n + 1 - 1)%nat with ((1 + dim) * n)%nat by lia.
    rewrite Nat.div_mul; [lia | ]. exact (fun E => Nat.lt_irrefl 0 (eq_ind _ (fun k => (0 < k)%nat) Hn _ E)).
  Qed.
  Lemma pt_n0 i : (i < n)%nat -> da_n0i p wd i = as_n0 i.
  Proof. intros Hi. unfold da_n0i. rewrite Ewd, ix_app1 by (rewrite mk1_length; auto). apply (ix_mk1 (K := RNum)); auto. Qed.
  Lemma pt_v2 k i : (k < dim)%nat -> (i < n)%nat -> da_n2vi p wd k i = as_v2 k i.
  Proof.
    intros Hk Hi. unfold da_n2vi. rewrite Ewd. rewrite ix_app2 by (rewrite mk1_length; lia). rewrite mk1_length.
    replace (n * (k + 1) + i - n)%nat with (n * k + i)%nat by lia.
    rewrite ix_app1 by (rewrite Lrows; nia). apply ix_rows; auto.
  Qed.
  Lemma pt_n3 : da_n3 p wd = as_n3.
  Proof.
    unfold da_n3. rewrite pt_dim, Ewd. rewrite ix_app2 by (rewrite mk1_length; nia). rewrite mk1_length.
    rewrite ix_app2 by (rewrite Lrows; nia). rewrite Lrows. 
    replace (n * (dim + 1) - n - dim * n)%nat with 0%nat by nia. reflexivity.
  Qed.
  Lemma pt_n2i i : (i < n)%nat -> da_n2i p t wd i = n2i X t as_n0 i.
  Proof.
    intros Hi. unfold da_n2i. rewrite pt_n0, (seg_radius_spec p W) by auto. fold X. unfold n2i.
    change (M X i) with (@ix RNum (p_m p) i). rn. field.
  Qed.
  Lemma pt_n2 : da_n2 p t wd = n2s X t as_n0.
  Proof. unfold da_n2, n2s. rewrite nsumi_R. change (N X) with n. apply Sum_ext. exact pt_n2i. Qed.
  Lemma pt_xi : (forall i, (i < n)%nat -> 1 / 10 ^ 9 <= as_n0 i) -> da_xi p t wd = xi_s X t dim as_n0 as_v2.
  Proof.
    intros Hc. unfold da_xi. cbv zeta. rewrite pt_n2, pt_dim.
    assert (S0 : @nsumi RNum n (fun i => da_n0i p wd i) = Sum i < n, as_n0 i).
    { rewrite nsumi_R. apply Sum_ext. intros i Hi. apply pt_n0; auto. }
    rewrite S0. rn.
    match goal with |- (if ?b then _ else _) = _ => replace b with false end.
    2:{ symmetry. apply Rltb_false. rewrite n0_cutoff_R.
        apply Rle_trans with (as_n0 0%nat); [specialize (Hc 0%nat Hn); lra | ].
        apply (rsum_ge_term (seq 0 n) as_n0 0%nat).
        - intros j Hj. apply seq_in in Hj. specialize (Hc j Hj). lra.
        - apply seq_in; auto. }
    unfold xi_s, dot. rewrite nsumi_R. change (N X) with n.
    rewrite (Sum_ext dim _ (fun k => (Sum i < n, as_v2 k i) * (Sum i < n, as_v2 k i))).
    2:{ intros k Hk. rewrite nsumi_R. rewrite (Sum_ext n _ (as_v2 k)); [reflexivity | ]. intros i Hi. apply pt_v2; auto. }
    set (a := rsum _ _). set (b := n2s _ _ _). unfold Rdiv.
    replace (b ^ 2) with (b * b) by ring.
    rewrite Rinv_opp. ring.
  Qed.

  (** strength of association between any two components *)
  Lemma strength_d n2 n3 xi i j : (i < n)%nat -> (j < n)%nat -> n3 <> 1 ->
    association_strength p t (seg_radius p t) n2 (/ (1 - n3)) xi i j
    = (let D := Di X t i * Di X t j / (Di X t i + Di X t j) in
       1 / (1 - n3) + D * n2 * xi / (2 * (1 - n3) ^ 2) + D ^ 2 * n2 ^ 2 * xi / (18 * (1 - n3) ^ 3))
      * Sij X i j ^ 3 * Kapij X i j * (exp ((Eab X i + Eab X j) / 2 / t) - 1).
  Proof.
    intros Hi Hj H1. unfold association_strength.
    rewrite !(seg_radius_spec p W) by auto. fold X.
    rewrite (w_kap _ W) by auto.
    destruct (Hph i Hi) as (_ & Hsi & _). destruct (Hph j Hj) as (_ & Hsj & _).
    unfold Kapij.
    change (Kab X i) with (@ix RNum (p_kappa_ab p) i). change (Kab X j) with (@ix RNum (p_kappa_ab p) j).
    change (Sg X i) with (@ix RNum (p_sigma p) i). change (Sg X j) with (@ix RNum (p_sigma p) j).
    set (si := @ix RNum (p_sigma p) i) in *. set (sj := @ix RNum (p_sigma p) j) in *.
    assert (0 < sqrt (si * sj)) by (apply sqrt_lt_R0, Rmult_lt_0_compat; auto).
    replace (Sij X i j) with ((si + sj) / 2) by reflexivity.
    rewrite Rpowf3 by (apply Rdiv_lt_0_compat; lra).
    replace (2 * sqrt (si * sj) / (si + sj)) with (sqrt (si * sj) / ((si + sj) / 2)) by (field; lra).
    destruct (Req_EM_T (@ix RNum (p_kappa_ab p) i) 0) as [E | Ei].
    { rewrite E, Rmult_0_l, sqrt_0. rn. ring. }
    destruct (Req_EM_T (@ix RNum (p_kappa_ab p) j) 0) as [E | Ej].
    { rewrite E, Rmult_0_r, sqrt_0. rn. ring. }
    rewrite (w_eab _ W) by auto.
    change (Eab X i) with (@ix RNum (p_epsilon_k_ab p) i). change (Eab X j) with (@ix RNum (p_epsilon_k_ab p) j).
    set (ei := @ix RNum (p_epsilon_k_ab p) i). set (ej := @ix RNum (p_epsilon_k_ab p) j).
    set (K := sqrt (@ix RNum (p_kappa_ab p) i * @ix RNum (p_kappa_ab p) j)).
    pose proof (Dp i Hi) as Dip. pose proof (Dp j Hj) as Djp. cbv zeta.
    set (di := Di X t i) in *. set (dj := Di X t j) in *.
    rn. replace (/ t * ((ei + ej) / 2)) with ((ei + ej) / 2 / t) by (field; lra).
    set (E := exp _ - 1). set (sq := sqrt (si * sj)) in *.
    set (q := (sq / ((si + sj) / 2)) ^ 3).
    replace (5 / 10 * (si + sj)) with ((si + sj) / 2) by lra.
    set (s3 := ((si + sj) / 2) ^ 3).
    field. split; lra.
  Qed.
  Theorem C45_association_strength i j : (i < n)%nat -> (j < n)%nat -> as_n3 <> 1 ->
    (forall i, (i < n)%nat -> 1 / 10 ^ 9 <= as_n0 i) ->
    association_strength p t (seg_radius p t) (da_n2 p t wd) (da_n3i p wd) (da_xi p t wd) i j
    = DeltaD X t dim as_n0 as_v2 as_n3 i j.
  Proof.
    intros Hi Hj H3 Hc. rewrite pt_n2, (pt_xi Hc). unfold da_n3i. rewrite pt_n3.
    replace (@nrecip RNum (@nadd RNum (@nopp RNum as_n3) (@nlit RNum 1%Q))) with (/ (1 - as_n3)) by (rn; f_equal; ring).
    rewrite strength_d by auto. unfold DeltaD, Yij. reflexivity.
  Qed.

  (** one associating component: the fractions used solve the mass-action law of the
      non-uniform fluid and the energy density is the published one *)
  Theorem C45_association a : p_assoc_comp p = [a] -> 0 < Na X a -> 0 < Nb X a -> as_n3 < 1 ->
    (forall i, (i < n)%nat -> 1 / 10 ^ 9 <= as_n0 i) ->
    / 2 ^ 26 < DeltaD X t dim as_n0 as_v2 as_n3 a a * (as_n0 a * xi_i X t dim as_n0 as_v2 a) ->
    exists xa xb, mass_action_d X t dim as_n0 as_v2 as_n3 xa xb /\
      (forall i, 0 < xa i <= 1 /\ 0 < xb i <= 1) /\
      phi_assoc_one p t wd = f_assoc_d X t dim as_n0 as_v2 xa xb.
  Proof.
    intros Ha Hna Hnb H3 Hc Hd.
    assert (La : (a < n)%nat) by (apply (assoc_lt p W a Ha)).
    set (rho0 := as_n0 a * xi_i X t dim as_n0 as_v2 a) in *.
    set (d := DeltaD X t dim as_n0 as_v2 as_n3 a a * rho0) in *.
    assert (Er : @ix RNum (da_rho0 p t wd) a = rho0).
    { unfold da_rho0. rewrite (ix_mk1 (K := RNum)) by auto. cbv zeta. rewrite pt_dim, pt_n0, pt_n2i by auto. rn.
      match goal with |- (if ?b then _ else _) = _ => replace b with false end.
      2:{ symmetry. apply Rltb_false. rewrite n0_cutoff_R. specialize (Hc a La). lra. }
      rewrite nsumi_R. unfold rho0, xi_i, dot.
      rewrite (Sum_ext dim _ (fun k => as_v2 k a * as_v2 k a)) by (intros k Hk; rewrite pt_v2 by auto; reflexivity).
      set (A := rsum _ _). set (b := n2i _ _ _ _). unfold Rdiv. replace (b ^ 2) with (b * b) by ring. rewrite Rinv_opp. ring. }
    destruct (C11_solves_mass_action d (Na X a) (Nb X a) Hd Hna Hnb) as (Pa & Pb & L1 & L2 & _).
    set (x := @assoc_site_frac_ab RNum d (Na X a) (Nb X a)) in *.
    set (y := (x - 1) * (Na X a / Nb X a) + 1) in *.
    exists (fun i => if Nat.eqb i a then x else 1), (fun i => if Nat.eqb i a then y else 1).
    assert (Z : forall i j, (i < n)%nat -> (j < n)%nat -> i <> a \/ j <> a -> DeltaD X t dim as_n0 as_v2 as_n3 i j = 0).
    { intros i j Hi Hj H. unfold DeltaD, Kapij.
      assert (Kab X i * Kab X j = 0) as E.
      { pose proof (assoc_unique p W a Ha) as U. fold X in U. destruct H as [H | H].
        - destruct (Req_EM_T (Kab X i) 0) as [-> | E]; [ring | ]. apply U in E; auto; contradiction.
        - destruct (Req_EM_T (Kab X j) 0) as [-> | E]; [ring | ]. apply U in E; auto; contradiction. }
      rewrite E, sqrt_0. ring. }
    split; [ | split].
    - intros i Hi. change (N X) with n.
      destruct (Nat.eqb i a) eqn:E.
      + apply Nat.eqb_eq in E. subst i.
        assert (S1 : (Sum j < n, as_n0 j * xi_i X t dim as_n0 as_v2 j * Nb X j * (if Nat.eqb j a then y else 1) * DeltaD X t dim as_n0 as_v2 as_n3 a j) = d * Nb X a * y).
        { rewrite (Sum_single n a); [rewrite Nat.eqb_refl; unfold d, rho0; ring | auto | ].
          intros j Hj Hne. rewrite (Z a j) by auto. ring. }
        assert (S2 : (Sum j < n, as_n0 j * xi_i X t dim as_n0 as_v2 j * Na X j * (if Nat.eqb j a then x else 1) * DeltaD X t dim as_n0 as_v2 as_n3 a j) = d * Na X a * x).
        { rewrite (Sum_single n a); [rewrite Nat.eqb_refl; unfold d, rho0; ring | auto | ].
          intros j Hj Hne. rewrite (Z a j) by auto. ring. }
        split; [rewrite S1; exact L1 | ].
        etransitivity; [ | exact L2]. f_equal. f_equal. exact S2.
      + apply Nat.eqb_neq in E.
        rewrite !(rsum_ext (seq 0 n) (fun j => _ * DeltaD X t dim as_n0 as_v2 as_n3 i j) (fun _ => 0)).
        * rewrite !rsum_zero by auto. lra.
        * intros j Hj. apply seq_in in Hj. rewrite (Z i j) by auto. ring.
        * intros j Hj. apply seq_in in Hj. rewrite (Z i j) by auto. ring.
    - intros i. destruct (Nat.eqb i a); lra.
    - unfold phi_assoc_one. rewrite Ha. change (ixn [a] 0) with a. cbv zeta.
      rewrite Er.
      change (@ix RNum (p_na p) a) with (Na X a). change (@ix RNum (p_nb p) a) with (Nb X a).
      match goal with |- context [@assoc_site_frac_ab RNum ?z _ _] => assert (Ez : z = d) end.
      { unfold d. rewrite <- (C45_association_strength a a La La) by (auto; lra).
        unfold association_strength. change (@ix RNum (seg_radius p t) a) with (@ix RNum (seg_radius p t) a).
        rewrite (seg_radius_spec p W) by auto. fold X. pose proof (Dp a La).
        set (b := da_n2 p t wd). set (c := da_n3i p wd). set (e := da_xi p t wd). set (E := @nexpm1 RNum _).
        set (kap := @ix2 RNum (p_kappa_aibj p) a a). set (sg := @ix RNum (p_sigma p) a). set (D := Di X t a) in *.
        rn. field. lra. }
      rewrite Ez. fold x. rn. rewrite (proj2 (Rltb_true 0 (Nb X a))) by auto. fold y.
      unfold f_assoc_d. change (N X) with n. rewrite (Sum_single n a).
      + rewrite Nat.eqb_refl. fold rho0. rewrite !f_assoc_R. ring.
      + auto.
      + intros j Hj Hne. apply Nat.eqb_neq in Hne. rewrite Hne, fx_1. ring.
  Qed.
End Point.

(* -------------------------------------------------------------------------- one component *)

Section PurePoint.
  Variables (prs : list (pure_record RNum)) (bin : list (list R)) (p : params RNum).
  Hypothesis Hp : from_records prs bin = Some p.
  Hypothesis Hph : phys p.
  Hypothesis L1 : List.length (p_m p) = 1%nat.
  Variable t : R.
  Hypothesis Ht : 0 < t.
  Let W := wfp_from_records _ _ _ Hp.
  Let X := mix_of p.
  Variables (dim : nat) (local : nat -> R) (conv : wf_shape -> R -> nat -> nat -> R).
  Let D := Di X t 0.
  Let m := M X 0.
  Let i0 : (0 < List.length (p_m p))%nat.
  Proof. rewrite L1. lia. Qed.
  Let Dp : 0 < D.
  Proof. apply (Di_pos p Hph); auto. Qed.
  Let mp0 : 0 < m.
  Proof. apply (Hph 0%nat i0). Qed.
  Let Ehs : @ix RNum (hs_diameter p t) 0 = D.
  Proof. apply (hs_diameter_spec p W); auto. Qed.
  Let Esr : @ix RNum (seg_radius p t) 0 = D / 2.
  Proof. apply (seg_radius_spec p W); auto. Qed.

  (** weighted densities of fundamental measure theory *)
  Definition fmt_w2 : R := M (mix_of p) 0 * conv M_Dft.Delta (Di (mix_of p) t 0 / 2) 0 0.
  Definition fmt_w3 : R := M (mix_of p) 0 * conv Theta (Di (mix_of p) t 0 / 2) 0 0.
  Definition fmt_v2 (k : nat) : R := M (mix_of p) 0 * conv DeltaVec (Di (mix_of p) t 0 / 2) 0 k.

  Lemma pure_fmt_pwd : profile_wd (pure_fmt_weight_functions p t) 1 dim local conv
    = fmt_w2 :: fmt_w3 :: map fmt_v2 (seq 0 dim).
  Proof.
    unfold profile_wd, pure_fmt_weight_functions. cbn [wi_local wi_comp wi_fmt map].
    cbn [filter is_vec wf_sh negb flat_map map]. rewrite !app_nil_r. cbn [app].
    unfold mk1 at 1 2. cbn [seq map app]. unfold fmt_w2, fmt_w3. cbn [wf_prefactor wf_radius wf_sh]. rewrite Esr.
    f_equal. f_equal. 
    etransitivity; [apply (flat_single (fun k i => @ix RNum (p_m p) i * conv DeltaVec (@ix RNum (seg_radius p t) i) i k)) | ].
    apply map_ext. intros k. rewrite Esr. reflexivity.
  Qed.

  Let w := profile_wd (pure_fmt_weight_functions p t) 1 dim local conv.
  Let v1 k := fmt_v2 k / (2 * PI * D).
  Let w0 := fmt_w2 / (PI * D ^ 2).
  Let w1 := fmt_w2 / (2 * PI * D).
  Let dotv1 : dot dim v1 fmt_v2 = dot dim fmt_v2 fmt_v2 / (2 * PI * D).
  Proof.
    unfold dot, Rdiv. rewrite Rmult_comm, <- rsum_scal. apply rsum_ext. intros k _. unfold v1, Rdiv. ring.
  Qed.

  Let third_f3 : 0 < fmt_w3 < 1 -> third fmt_w3 = f3_exact fmt_w3 / (36 * PI).
  Proof. intros H. unfold third, f3_exact. pose proof PI_RGT_0. set (l := ln _). field. lra. Qed.

  Let phi_gen (v : fmt_version) (n1n2 n2n2 : R) :
    @pure_fmt_scalars RNum v (D * (1 / 2)) (fmt_w2 / (D * (1 / 2) * 4 * PI)) fmt_w2 (map fmt_v2 (seq 0 dim)) = Some (n1n2, n2n2) ->
    @pure_phi_fmt RNum v p t w
    = Some (- w0 * ln (1 - fmt_w3) + n1n2 / (1 - fmt_w3) + n2n2 * fmt_w2 * (@fmt_f3 RNum fmt_w3 / (36 * PI))).
  Proof.
    intros H. unfold pure_phi_fmt, w. rewrite pure_fmt_pwd.
    change (@ix RNum (fmt_w2 :: fmt_w3 :: map fmt_v2 (seq 0 dim)) 0) with fmt_w2.
    change (@ix RNum (fmt_w2 :: fmt_w3 :: map fmt_v2 (seq 0 dim)) 1) with fmt_w3.
    change (@skipn (car RNum) 2 (fmt_w2 :: fmt_w3 :: map fmt_v2 (seq 0 dim))) with (map fmt_v2 (seq 0 dim)).
    cbv zeta. rewrite Ehs.
    replace (@nmul RNum D (@nlit RNum 0.5%Q)) with (D * (1 / 2)) by (rn; lra).
    match goal with |- match ?a with _ => _ end = _ => assert (E : a = Some (n1n2, n2n2)) end.
    { rewrite <- H. f_equal. }
    rewrite E. f_equal. unfold pi36m1, w0. set (f := @fmt_f3 RNum _). rn.
    pose proof PI_RGT_0. replace (1 + - fmt_w3) with (1 - fmt_w3) by ring.
    replace (- fmt_w3 + 1) with (1 - fmt_w3) by ring. set (q := 1 - fmt_w3). set (l := ln q).
    unfold Rdiv at 6. fold (n1n2 / q). set (z := n1n2 * / q). change (n1n2 / q) with z. field. split; lra.
  Qed.

  Let r_pos : D * (1 / 2) * 4 * PI <> 0.
  Proof. pose proof PI_RGT_0. assert (0 < D * (1 / 2) * 4 * PI); [ | lra]. apply Rmult_lt_0_compat; lra. Qed.

  Let n1v_dot : @ndot RNum (map (fun x : R => x / (D * (1 / 2) * 4 * PI)) (map fmt_v2 (seq 0 dim))) (map fmt_v2 (seq 0 dim)) = dot dim v1 fmt_v2.
  Proof.
    rewrite map_map. rewrite (ndot_R (fun k => fmt_v2 k / (D * (1 / 2) * 4 * PI)) fmt_v2). unfold dot. apply rsum_ext. intros k _.
    unfold v1. f_equal. f_equal. field.
  Qed.

  Let wb_scalars : @pure_fmt_scalars RNum WhiteBear (D * (1 / 2)) (fmt_w2 / (D * (1 / 2) * 4 * PI)) fmt_w2 (map fmt_v2 (seq 0 dim))
    = Some (w1 * fmt_w2 - dot dim v1 fmt_v2, fmt_w2 * fmt_w2 - dot dim fmt_v2 fmt_v2 * 3).
  Proof.
    unfold pure_fmt_scalars. cbv zeta.
    match goal with |- context [@ndot RNum (map ?f ?a) ?b] => assert (E : @ndot RNum (map f a) b = dot dim v1 fmt_v2) end.
    { rewrite <- n1v_dot. f_equal. }
    rewrite E, ndot_R. f_equal. f_equal. unfold w1. rn. f_equal. f_equal. f_equal. field.
  Qed.

  (** White Bear functional *)
  Theorem C45_white_bear : 1 / 10 ^ 5 <= fmt_w3 < 1 ->
    @pure_phi_fmt RNum WhiteBear p t (profile_wd (pure_fmt_weight_functions p t) 1 dim local conv)
    = Some (white_bear dim w0 w1 fmt_w2 fmt_w3 v1 fmt_v2).
  Proof.
    intros H. fold w. rewrite (phi_gen _ _ _ wb_scalars). f_equal. unfold white_bear.
    rewrite third_f3 by lra. unfold fmt_f3. 
    match goal with |- context [if ?b then _ else _] => replace b with false end.
    2:{ symmetry. change (@nltb RNum) with Rltb. apply Rltb_false. rewrite cutoff_val. lra. }
    rewrite f3_raw_exact by lra. set (f := f3_exact _). unfold Rdiv. ring.
  Qed.
  Theorem C45_white_bear_dilute : 0 < fmt_w3 < 1 -> exists phi,
    @pure_phi_fmt RNum WhiteBear p t (profile_wd (pure_fmt_weight_functions p t) 1 dim local conv) = Some phi /\
    Rabs (phi - white_bear dim w0 w1 fmt_w2 fmt_w3 v1 fmt_v2)
    <= Rabs (fmt_w2 ^ 3 - 3 * fmt_w2 * dot dim fmt_v2 fmt_v2) / (36 * PI) / 10 ^ 24.
  Proof.
    intros H. fold w. eexists. split; [apply (phi_gen _ _ _ wb_scalars) | ]. unfold white_bear.
    rewrite third_f3 by lra. pose proof (C32_switch_harmless _ H) as C. pose proof PI_RGT_0.
    set (f := f3_exact _) in *. set (g := fmt_f3 _) in *.
    match goal with |- Rabs ?a <= _ => replace a with ((fmt_w2 ^ 3 - 3 * fmt_w2 * dot dim fmt_v2 fmt_v2) * / (36 * PI) * (g - f)) by (unfold Rdiv; ring) end.
    rewrite Rabs_mult. rewrite Rabs_mult. rewrite (Rabs_right (/ (36 * PI))).
    2:{ apply Rle_ge. left. apply Rinv_0_lt_compat. lra. }
    unfold Rdiv at 2. apply Rmult_le_compat_l; [ | unfold Rdiv in C; lra].
    apply Rmult_le_pos; [apply Rabs_pos | left; apply Rinv_0_lt_compat; lra].
  Qed.

  (** antisymmetrised version; a vector density exceeding the scalar one removes the third term *)
  Theorem C45_antisymmetrised : 1 / 10 ^ 5 <= fmt_w3 < 1 -> 0 < fmt_w2 ->
    @pure_phi_fmt RNum AntiSymWhiteBear p t (profile_wd (pure_fmt_weight_functions p t) 1 dim local conv)
    = Some (if Rle_dec (dot dim fmt_v2 fmt_v2) (fmt_w2 ^ 2)
            then antisymmetrised dim w0 w1 fmt_w2 fmt_w3 v1 fmt_v2
            else - w0 * ln (1 - fmt_w3) + (w1 * fmt_w2 - dot dim v1 fmt_v2) / (1 - fmt_w3)).
  Proof.
    intros H H2. fold w.
    assert (S : @pure_fmt_scalars RNum AntiSymWhiteBear (D * (1 / 2)) (fmt_w2 / (D * (1 / 2) * 4 * PI)) fmt_w2 (map fmt_v2 (seq 0 dim))
      = Some (w1 * fmt_w2 - dot dim v1 fmt_v2,
              fmt_w2 * fmt_w2 * (if Rle_dec (dot dim fmt_v2 fmt_v2) (fmt_w2 ^ 2) then 1 - dot dim fmt_v2 fmt_v2 / fmt_w2 ^ 2 else 0) ^ 3)).
    { unfold pure_fmt_scalars. cbv zeta.
      match goal with |- context [@ndot RNum (map ?f ?a) ?b] => assert (E : @ndot RNum (map f a) b = dot dim v1 fmt_v2) end.
      { rewrite <- n1v_dot. f_equal. }
      rewrite E, ndot_R. f_equal. f_equal.
      - unfold w1. rn. f_equal. f_equal. f_equal. field.
      - set (q := dot _ _ _). assert (0 < fmt_w2 ^ 2) by (apply pow_lt; auto). rn.
        assert (Q : Rltb 1 (q / fmt_w2 ^ 2) = if Rle_dec q (fmt_w2 ^ 2) then false else true).
        { destruct (Rle_dec q (fmt_w2 ^ 2)) as [L | L].
          - apply Rltb_false. apply Rmult_le_reg_r with (fmt_w2 ^ 2); [auto | ]. unfold Rdiv. rewrite Rmult_assoc, Rinv_l by lra. lra.
          - apply Rltb_true. apply Rmult_lt_reg_r with (fmt_w2 ^ 2); [auto | ]. unfold Rdiv. rewrite Rmult_assoc, Rinv_l by lra. lra. }
        rewrite Q. destruct (Rle_dec q (fmt_w2 ^ 2)).
        + f_equal. f_equal. ring.
        + f_equal. f_equal. ring. }
    rewrite (phi_gen _ _ _ S). f_equal. unfold fmt_f3.
    match goal with |- context [@nltb RNum ?a ?b] => replace (@nltb RNum a b) with false end.
    2:{ symmetry. change (@nltb RNum) with Rltb. apply Rltb_false. rewrite cutoff_val. lra. }
    rewrite f3_raw_exact by lra. unfold antisymmetrised. rewrite third_f3 by lra.
    set (f := f3_exact _). destruct (Rle_dec _ _); unfold Rdiv; ring.
  Qed.

  (* ---------------------------------------------- the specialised and the general functional *)

  (** pointwise on every density profile: chain *)
  Theorem C10_profile_chain : chain_z3 p t conv < 1 ->
    phi_pure_chain p (profile_wd (pure_chain_weight_functions p t) 1 dim local conv)
    = phi_chain p t (profile_wd (chain_weight_functions p t) 1 dim local conv).
  Proof.
    intros H3.
    pose proof (C45_chain prs bin p Hp Hph t Ht dim local conv H3) as C. rewrite L1 in C. rewrite C. clear C.
    assert (Ew : profile_wd (pure_chain_weight_functions p t) 1 dim local conv
      = [local 0%nat; chain_lambda p t conv 0; chain_z3 p t conv]).
    { unfold profile_wd, pure_chain_weight_functions. cbn [wi_local wi_comp wi_fmt].
      cbn [filter is_vec wf_scaled wf_sh negb flat_map map]. rewrite !app_nil_r. unfold mk1. cbn [seq map app].
      f_equal. unfold wf_scaled; cbn [wf_prefactor wf_radius wf_sh]. rewrite Ehs.
      assert (Lh : @List.length R (hs_diameter p t) = 1%nat).
      { unfold hs_diameter. rewrite mk1_length. rewrite (w_ns _ W). exact L1. }
      f_equal; [ | f_equal].
      - rewrite (ix_map (K := RNum) _ _ _ 0) by (exact (eq_ind_r (fun k => (0 < k)%nat) Nat.lt_0_1 Lh)).
        change (nth 0 (hs_diameter p t) 0) with (@ix RNum (hs_diameter p t) 0). rewrite Ehs.
        unfold chain_lambda, shape_integral. fold X. fold D. pose proof PI_RGT_0. set (c := conv _ _ _ _). rn. field. lra.
      - rewrite (ix_map (K := RNum) _ _ _ 0) by auto. unfold chain_z3. rewrite L1. fold X. unfold rsum. cbn [seq map fold_right]. fold D.
        set (c := conv _ _ _ _). change (M X 0) with (nth 0 (p_m p) 0). rn. lra. }
    rewrite Ew. unfold phi_pure_chain.
    match goal with |- context [@ix RNum [?a; ?b; ?c] 0] => change (@ix RNum [a; b; c] 0) with a; change (@ix RNum [a; b; c] 1) with b; change (@ix RNum [a; b; c] 2) with c end.
    cbv zeta. unfold rsum. cbn [seq map fold_right]. fold X. fold D. change (@ix RNum (p_m p) 0) with m. fold m.
    assert (El : @lambda_reg RNum (chain_lambda p t conv 0) = Rabs (chain_lambda p t conv 0) + / 2 ^ 52).
    { unfold lambda_reg, f_eps. rn. destruct (Rltb (chain_lambda p t conv 0) 0) eqn:E.
      - apply Rltb_true in E. rewrite Rabs_left by auto. lra.
      - apply Rltb_false in E. rewrite Rabs_right by lra. lra. }
    rewrite El. set (la := Rabs _ + _).
    assert (Ey : @pure_chain_y RNum (chain_z3 p t conv) = SpecDft.contact D (chain_z2 p t conv) (chain_z3 p t conv)).
    { replace (chain_z2 p t conv) with (chain_z3 p t conv / D).
      - unfold pure_chain_y, SpecDft.contact. set (z := chain_z3 p t conv) in *. rn. field. lra.
      - unfold chain_z2, chain_z3. rewrite L1. unfold rsum. cbn [seq map fold_right]. fold X. fold D. set (c := conv _ _ _ _). field. lra. }
    rewrite Ey. rn. ring.
  Qed.

  (** the pure-fluid contact value is that of Carnahan and Starling *)
  Theorem C45_pure_chain : chain_z3 p t conv < 1 ->
    phi_pure_chain p (profile_wd (pure_chain_weight_functions p t) 1 dim local conv)
    = - local 0%nat * (M X 0 - 1) * (ln (contact_cs (chain_z3 p t conv) * (Rabs (chain_lambda p t conv 0) + / 2 ^ 52)) - 1).
  Proof.
    intros H3. rewrite C10_profile_chain by auto.
    pose proof (C45_chain prs bin p Hp Hph t Ht dim local conv H3) as C. rewrite L1 in C. rewrite C. clear C.
    unfold rsum. cbn [seq map fold_right]. fold X. fold D.
    replace (SpecDft.contact D (chain_z2 p t conv) (chain_z3 p t conv)) with (contact_cs (chain_z3 p t conv)).
    - apply Rminus_diag_uniq; ring.
    - replace (chain_z2 p t conv) with (chain_z3 p t conv / D).
      + unfold contact_cs, SpecDft.contact. set (z := chain_z3 p t conv) in *. field. lra.
      + unfold chain_z2, chain_z3. rewrite L1. unfold rsum. cbn [seq map fold_right]. fold X. fold D. set (c := conv _ _ _ _). field. lra.
  Qed.

  (** dispersion and polar terms *)
  Theorem C10_profile_attraction : nth 0 (nth 0 (p_k_ij p) []) 0 = 0 ->
    p_ndipole p = 0%nat \/ p_nquadpole p = 0%nat ->
    let rho := att_rho p t conv (@psi_dft RNum) 0 in
    / 2 ^ 52 < rho -> phys_state p t 1 [rho] ->
    phi_pure_att p t (profile_wd (att_weight_functions psi_dft p t) 1 dim local conv)
    = phi_att p t (profile_wd (att_weight_functions psi_dft p t) 1 dim local conv).
  Proof.
    intros K0 Hdq rho He PS.
    assert (Hpsi : 0 < @psi_dft RNum) by (unfold psi_dft; rn; lra).
    pose proof (att_pwd prs bin p Hp Hph t Ht dim local conv _ Hpsi) as E. rewrite L1 in E. rewrite E. clear E.
    unfold mk1. cbn [seq map]. fold rho.
    assert (Es : s_rho (@state_new RNum t 1 [rho]) = [rho]).
    { unfold state_new. cbn [s_rho map]. f_equal. rn. field. }
    assert (He' : @f_eps RNum < density [rho] 1).
    { unfold density, f_eps. unfold rsum. cbn [map fold_right]. rn. lra. }
    pose proof (C10_attraction prs bin p Hp Hph L1 t 1 [rho] PS K0 0 0 He' Hdq) as C.
    rewrite (att_wd p W Hph t 1 [rho] PS) in C by auto. rewrite Es in C. exact C.
  Qed.

  (** association *)
  Theorem C10_profile_association : p_nassoc p = 1%nat -> fmt_w3 < 1 ->
    pure_phi_assoc p t (profile_wd (pure_fmt_weight_functions p t) 1 dim local conv)
    = phi_assoc_one p t (profile_wd (assoc_weight_functions p t) 1 dim local conv).
  Proof.
    intros Hn H3. assert (Hc : p_assoc_comp p = [0%nat]).
    { rewrite (w_na _ W) in Hn. destruct (p_assoc_comp p) as [ | a [ | ]] eqn:E; try discriminate.
      f_equal. assert (a < List.length (p_m p))%nat by (apply (assoc_lt p W a); auto). lia. }
    pose proof (pt_dim prs bin p Hp Hph t Ht dim local conv i0) as Hd.
    pose proof (pt_n0 prs bin p Hp Hph t Ht dim local conv 0%nat i0) as H0.
    pose proof (fun k Hk => pt_v2 prs bin p Hp Hph t Ht dim local conv i0 k 0%nat Hk i0) as Hv.
    pose proof (pt_n3 prs bin p Hp Hph t Ht dim local conv i0) as Hw.
    pose proof (pt_n2i prs bin p Hp Hph t Ht dim local conv 0%nat i0) as Hi.
    pose proof (pt_n2 prs bin p Hp Hph t Ht dim local conv) as H2.
    rewrite L1 in Hd, H0, Hw, Hi, H2. rewrite L1 in Hv.
    set (q := profile_wd (assoc_weight_functions p t) 1 dim local conv) in *.
    pose proof PI_RGT_0 as HPI.
    (* the densities in terms of those of the pure functional *)
    assert (A0 : as_n0 p t conv 0 = fmt_w2 / (m * PI * D ^ 2)).
    { unfold as_n0, fmt_w2. fold X. fold D. fold m. set (c := conv _ _ _ _). field. repeat split; lra. }
    assert (A2 : n2i X t (as_n0 p t conv) 0 = fmt_w2).
    { unfold n2i. fold X. fold D. fold m. rewrite A0. field. repeat split; lra. }
    assert (A3 : as_n3 p t conv = fmt_w3).
    { unfold as_n3. rewrite L1. unfold rsum. cbn [seq map fold_right]. unfold fmt_w3. fold X. fold D. fold m. ring. }
    assert (B2 : da_n2 p t q = fmt_w2).
    { rewrite H2. unfold n2s. change (N (mix_of p)) with (List.length (p_m p)). rewrite L1. fold X. unfold rsum. cbn [seq map fold_right].
      fold X in A2. rewrite A2. apply Rplus_0_r. }
    assert (Bv : forall g, (forall k, (k < dim)%nat -> g k = fmt_v2 k * fmt_v2 k) -> @nsumi RNum dim g = dot dim fmt_v2 fmt_v2).
    { intros g G. rewrite nsumi_R. unfold dot. apply Sum_ext. exact G. }
    set (vv := dot dim fmt_v2 fmt_v2) in *.
    set (xi := if Rltb (fmt_w2 / (m * PI * D ^ 2)) (@n0_cutoff RNum) then 1 else 1 - vv / (fmt_w2 * fmt_w2)).
    assert (Bx : da_xi p t q = xi).
    { unfold da_xi, xi. cbv zeta. rewrite B2, Hd, L1.
      rewrite (Bv (fun k => _)).
      2:{ intros k Hk. rewrite nsumi_R. unfold rsum. cbn [seq map fold_right]. rewrite (Hv k Hk). unfold as_v2, fmt_v2. fold X. fold D. fold m. rn. ring. }
      rewrite nsumi_R. unfold rsum. cbn [seq map fold_right]. rewrite H0, A0. rewrite Rplus_0_r. rn.
      match goal with |- (if ?b then _ else _) = _ => destruct b end; [reflexivity | ].
      unfold Rdiv. rewrite Rinv_opp. ring. }
    assert (Br : @ix RNum (da_rho0 p t q) 0 = fmt_w2 / (m * PI * D ^ 2) * xi).
    { unfold da_rho0. rewrite (ix_mk1 (K := RNum)) by auto. cbv zeta. rewrite H0, Hi, Hd. fold X. rewrite A2, A0.
      rewrite (Bv (fun k => _)).
      2:{ intros k Hk. rewrite (Hv k Hk). reflexivity. }
      unfold xi. rn. match goal with |- (if ?b then _ else _) = _ => destruct b end; [ring | ].
      unfold Rdiv. rewrite Rinv_opp. ring. }
    assert (B3 : da_n3i p q = / (1 - fmt_w3)).
    { unfold da_n3i. rewrite Hw, A3. rn. f_equal. ring. }
    unfold phi_assoc_one. rewrite Hc. change (ixn [0%nat] 0) with 0%nat. cbv zeta. rewrite Br, B2, B3, Bx, Esr.
    rewrite pure_fmt_pwd. unfold pure_phi_assoc.
    change (@ix RNum (fmt_w2 :: fmt_w3 :: map fmt_v2 (seq 0 dim)) 0) with fmt_w2.
    change (@ix RNum (fmt_w2 :: fmt_w3 :: map fmt_v2 (seq 0 dim)) 1) with fmt_w3.
    change (@skipn (car RNum) 2 (fmt_w2 :: fmt_w3 :: map fmt_v2 (seq 0 dim))) with (map fmt_v2 (seq 0 dim)).
    cbv zeta. rewrite Ehs, ndot_R. fold vv. change (@ix RNum (p_m p) 0) with m.
    match goal with |- context [if ?b then n1 else ?y] => assert (Ex : (if b then n1 else y) = xi) end.
    { unfold xi. match goal with |- (if ?b then _ else _) = (if ?c then _ else _) => replace c with b end.
      - match goal with |- (if ?b then _ else _) = _ => destruct b end; [reflexivity | ]. rn. unfold Rdiv. ring.
      - change (@nltb RNum) with Rltb. rewrite n0_cutoff_R.
        assert (P2 : 0 < m * PI * D ^ 2).
        { apply Rmult_lt_0_compat; [apply Rmult_lt_0_compat; lra | apply pow_lt; lra]. }
        match goal with |- Rltb _ ?z = _ => replace z with (/ 1000000000 * (m * PI * D ^ 2)) by (rn; field) end.
        destruct (Rltb (fmt_w2 / (m * PI * D ^ 2)) (/ 1000000000)) eqn:E.
        + apply Rltb_true in E. apply Rltb_true. apply Rmult_lt_compat_r with (r := m * PI * D ^ 2) in E; auto.
          unfold Rdiv in E. rewrite (Rmult_assoc fmt_w2), Rinv_l in E by lra. lra.
        + apply Rltb_false in E. apply Rltb_false. apply Rmult_le_compat_r with (r := m * PI * D ^ 2) in E; [ | lra].
          unfold Rdiv in E. rewrite (Rmult_assoc fmt_w2), Rinv_l in E by lra. lra. }
    rewrite Ex. clearbody xi. clear Ex Bx Br.
    set (E := @nexpm1 RNum _). set (kap := @ix2 RNum (p_kappa_aibj p) 0 0). set (sg := @ix RNum (p_sigma p) 0).
    set (na := @ix RNum (p_na p) 0). set (nb := @ix RNum (p_nb p) 0).
    match goal with |- context [@assoc_site_frac_ab RNum ?x na nb] => set (d1 := x) end.
    match goal with |- _ = (if _ then let _ := @assoc_site_frac_ab RNum ?x na nb in _ else _) => set (d2 := x)
     | |- _ = (if _ then (@f_assoc RNum (@assoc_site_frac_ab RNum ?x na nb) * _ + _)%num * _ else _)%num => set (d2 := x) end.
    assert (Ed : d1 = d2).
    { unfold d1, d2. clearbody E kap sg. rn. field. repeat split; lra. }
    rewrite Ed.
    match goal with |- context [(?c / m * xi)%num] => assert (Er : (c / m * xi)%num = fmt_w2 / (m * PI * D ^ 2) * xi) end.
    { clearbody d1 d2. rn. field. repeat split; lra. }
    rewrite Er. clear Er.
    set (A := assoc_site_frac_ab d2 na nb). set (B := assoc_site_frac_a d2 na). clearbody A B.
    match goal with |- context [if ?b then _ else _] => destruct b end.
    - replace ((A - $1) * na / nb + $1)%num with ((A - $1) * (na / nb) + $1)%num by (rn; unfold Rdiv; ring).
      apply Rmult_comm.
    - apply Rmult_comm.
  Qed.
End PurePoint.

(* ----------------------------------------------------------- agreement with a uniform fluid *)

(** In a uniform fluid every convolution is the integral of the weight function times the
    density; the weighted densities are then those of M_Dft.bulk_wd, which C09 and C43 use. *)
Theorem C45_uniform (wi : weight_info RNum) (dim : nat) (rho : list R) :
  profile_wd wi (List.length rho) dim (fun i => nth i rho 0) (fun s r i _ => @shape_integral RNum s r * nth i rho 0)
  = @bulk_wd RNum wi dim rho.
Proof.
  unfold profile_wd, bulk_wd, bulk_weight. cbv zeta. change (@List.length (car RNum) rho) with (@List.length R rho).
  set (n := List.length rho).
  assert (E : forall (w : weight_function RNum) i (k : nat),
    @nmul RNum (@ix RNum (wf_prefactor w) i) (@shape_integral RNum (wf_sh w) (@ix RNum (wf_radius w) i) * nth i rho 0)
    = @nmul RNum (@nmul RNum (@ix RNum (wf_prefactor w) i) (@shape_integral RNum (wf_sh w) (@ix RNum (wf_radius w) i))) (@ix RNum rho i)).
  { intros w i k. symmetry. apply Rmult_assoc. }
  f_equal; [ | f_equal; [ | f_equal; [ | f_equal]]].
  - destruct (wi_local wi); [ | reflexivity]. unfold n. unfold mk1.
    apply (nth_ext _ _ 0 0); [rewrite map_length, seq_length; reflexivity | ].
    intros i Hi. rewrite map_length, seq_length in Hi. rewrite (nth_indep _ 0 (nth 0 rho 0)) by (rewrite map_length, seq_length; auto).
    rewrite (map_nth (fun i => nth i rho 0)), seq_nth by auto. reflexivity.
  - apply flat_map_ext. intros w. apply mk1_ext. intros i _. apply (E w i 0%nat).
  - apply flat_map_ext. intros w. apply flat_map_ext. intros k. apply mk1_ext. intros i _. apply (E w i k).
  - apply map_ext. intros w. apply nsumi_ext. intros i _. apply (E w i 0%nat).
  - apply flat_map_ext. intros w. apply map_ext. intros k. apply nsumi_ext. intros i _. apply (E w i k).
Qed.

(* ------------------------------------------------------------------------------ examples *)
From Interval Require Import Tactic.
From Verif Require Import P_Finite2 P_Split P_Conform.
Set Bullet Behavior "Strict Subproofs".

(** a point of an inhomogeneous fluid: the convolutions are those of the density 1/100, except
    that the local packing is smaller and the vector densities do not vanish *)
Definition slope (s : wf_shape) (r : R) (i k : nat) : R :=
  match s with M_Dft.Delta => 4 * PI * r ^ 2 / 100 | Theta => r ^ 3 / 100 | DeltaVec => r ^ 2 / 100 end.

Lemma slope_n0 p t i : 0 < Di (mix_of p) t i -> as_n0 p t slope i = 1 / 100.
Proof. intros H. unfold as_n0, slope. field. split; [lra | apply PI_neq0]. Qed.
Lemma slope_v2 p t k i : as_v2 p t slope k i = M (mix_of p) i * Di (mix_of p) t i ^ 2 / 400.
Proof. unfold as_v2, slope. field. Qed.
Lemma slope_xi p t i : 0 < Di (mix_of p) t i -> 0 < M (mix_of p) i ->
  xi_i (mix_of p) t 1 (as_n0 p t slope) (as_v2 p t slope) i = 1 - 1 / (16 * PI ^ 2).
Proof.
  intros H HM. unfold xi_i, n2i, dot, rsum. cbn [seq map fold_right]. rewrite !slope_v2, slope_n0 by auto.
  field. repeat split; try lra. apply PI_neq0.
Qed.

(** pure water *)
Lemma w1_D : 2.5 <= Di (mix_of w1) 350 0 <= 3.
Proof. unfold Di. change (Sg (mix_of w1) 0) with (3.000683). change (Ep (mix_of w1) 0) with (366.5121). split; interval. Qed.
Lemma w1_n3 : 0.01 <= as_n3 w1 350 slope <= 0.04.
Proof.
  pose proof w1_D as H. unfold as_n3. change (List.length (p_m w1)) with 1%nat. unfold rsum. cbn [seq map fold_right].
  unfold slope. change (M (mix_of w1) 0) with (1.065587). set (D := Di _ _ _) in *. clearbody D. split; interval.
Qed.
Lemma w1_w3 : fmt_w3 w1 350 slope = as_n3 w1 350 slope.
Proof. unfold as_n3. change (List.length (p_m w1)) with 1%nat. unfold rsum. cbn [seq map fold_right]. unfold fmt_w3. ring. Qed.
Lemma w1_strength : / 2 ^ 26 < DeltaD (mix_of w1) 350 1 (as_n0 w1 350 slope) (as_v2 w1 350 slope) (as_n3 w1 350 slope) 0 0
  * (as_n0 w1 350 slope 0 * xi_i (mix_of w1) 350 1 (as_n0 w1 350 slope) (as_v2 w1 350 slope) 0).
Proof.
  pose proof w1_D as HD. pose proof w1_n3 as H3.
  assert (Hm : 0 < M (mix_of w1) 0) by (change (0 < 1.065587); lra).
  assert (HD0 : 0 < Di (mix_of w1) 350 0) by lra.
  assert (Es : xi_s (mix_of w1) 350 1 (as_n0 w1 350 slope) (as_v2 w1 350 slope) = 1 - 1 / (16 * PI ^ 2)).
  { rewrite <- (slope_xi w1 350 0 HD0 Hm). unfold xi_s, xi_i, n2s, dot. change (N (mix_of w1)) with 1%nat.
    unfold rsum. cbn [seq map fold_right]. rewrite !Rplus_0_r. reflexivity. }
  assert (En : n2s (mix_of w1) 350 (as_n0 w1 350 slope) = 1.065587 * PI * Di (mix_of w1) 350 0 ^ 2 / 100).
  { unfold n2s. change (N (mix_of w1)) with 1%nat. unfold rsum. cbn [seq map fold_right]. unfold n2i.
    rewrite slope_n0 by auto. change (M (mix_of w1) 0) with (1.065587). field. }
  rewrite (slope_xi w1 350 0 HD0 Hm), (slope_n0 w1 350 0 HD0).
  unfold DeltaD, Yij. rewrite Es, En.
  change (Eab (mix_of w1) 0) with (2500.6706).
  assert (Kz : @ix RNum (p_kappa_ab w1) 0 <> 0) by (change (0.034867983 <> 0); lra).
  assert (Sg1 : Sij (mix_of w1) 0 0 = 3.000683) by (unfold Sij; change (Sg (mix_of w1) 0) with (3.000683); lra).
  assert (Kp1 : Kapij (mix_of w1) 0 0 = 0.034867983).
  { unfold Kapij. rewrite Sg1. change (Kab (mix_of w1) 0) with (0.034867983). change (Sg (mix_of w1) 0) with (3.000683).
    rewrite !sqrt_square by lra. field; lra. }
  rewrite Sg1, Kp1. set (D := Di _ _ _) in *. set (n3 := as_n3 _ _ _) in *. clearbody D n3. clear - HD H3. cbv zeta. interval.
Qed.

Example C45_water_case local : exists xa xb,
  mass_action_d (mix_of w1) 350 1 (as_n0 w1 350 slope) (as_v2 w1 350 slope) (as_n3 w1 350 slope) xa xb /\
  (forall i, 0 < xa i <= 1 /\ 0 < xb i <= 1) /\
  phi_assoc_one w1 350 (profile_wd (assoc_weight_functions w1 350) 1 1 local slope)
  = f_assoc_d (mix_of w1) 350 1 (as_n0 w1 350 slope) (as_v2 w1 350 slope) xa xb /\
  pure_phi_assoc w1 350 (profile_wd (pure_fmt_weight_functions w1 350) 1 1 local slope)
  = f_assoc_d (mix_of w1) 350 1 (as_n0 w1 350 slope) (as_v2 w1 350 slope) xa xb.
Proof.
  pose proof w1_n3 as H3. pose proof w1_D as HD. assert (H350 : 0 < 350) by lra.
  destruct (C45_association _ _ _ w1_ok w1_phys 350 H350 1 local slope) with (a := 0%nat) as (xa & xb & A & B & C).
  - cbn; lia.
  - apply w1_comp.
  - change (0 < 1); lra.
  - change (0 < 1); lra.
  - lra.
  - intros i Hi. change (List.length (p_m w1)) with 1%nat in Hi. assert (i = 0%nat) as -> by lia. rewrite slope_n0 by lra. lra.
  - apply w1_strength.
  - exists xa, xb. refine (conj A (conj B (conj C _))).
    rewrite (C10_profile_association _ _ _ w1_ok w1_phys eq_refl 350 H350); auto using w1_nassoc.
    rewrite w1_w3. lra.
Qed.

Lemma w1_scalar : 0 < fmt_w2 w1 350 slope /\ dot 1 (fmt_v2 w1 350 slope) (fmt_v2 w1 350 slope) <= fmt_w2 w1 350 slope ^ 2.
Proof.
  pose proof w1_D as HD. unfold fmt_w2, dot, rsum, fmt_v2. cbn [seq map fold_right]. unfold slope. change (M (mix_of w1) 0) with (1.065587).
  set (D := Di _ _ _) in *. clearbody D. split; [interval | ].
  match goal with |- ?x <= ?y => assert (E : y - x = (1.065587 * (D / 2) ^ 2 / 100) ^ 2 * (16 * PI ^ 2 - 1)) by field;
    enough (0 <= y - x) by lra; rewrite E end.
  apply Rmult_le_pos; [apply pow2_ge_0 | interval].
Qed.
Example C45_white_bear_case local : exists w0 w1' w2 w3 v1 v2, 0 < v2 0%nat /\
  @pure_phi_fmt RNum WhiteBear w1 350 (profile_wd (pure_fmt_weight_functions w1 350) 1 1 local slope)
  = Some (white_bear 1 w0 w1' w2 w3 v1 v2) /\
  @pure_phi_fmt RNum AntiSymWhiteBear w1 350 (profile_wd (pure_fmt_weight_functions w1 350) 1 1 local slope)
  = Some (antisymmetrised 1 w0 w1' w2 w3 v1 v2).
Proof.
  pose proof w1_n3 as H3. pose proof w1_D as HD. assert (H350 : 0 < 350) by lra. destruct w1_scalar as [S1 S2].
  do 4 eexists. exists (fun k => fmt_v2 w1 350 slope k / (2 * PI * Di (mix_of w1) 350 0)), (fmt_v2 w1 350 slope). split; [ | split].
  - unfold fmt_v2, slope. change (M (mix_of w1) 0) with (1.065587). set (D := Di _ _ _) in *. clearbody D. interval.
  - apply (C45_white_bear _ _ _ w1_ok w1_phys eq_refl 350 H350). rewrite w1_w3. lra.
  - rewrite (C45_antisymmetrised _ _ _ w1_ok w1_phys eq_refl 350 H350); [ | rewrite w1_w3; lra | exact S1].
    destruct (Rle_dec _ _) as [_ | n]; [reflexivity | destruct (n S2)].
Qed.

(** ternary mixture of a dipolar, a quadrupolar and an associating component *)
Lemma sample_D i : (i < 3)%nat -> 2.5 <= Di (mix_of sample) 350 i <= 3.5.
Proof.
  intros H. unfold Di. destruct i as [ | [ | [ | i]]]; [ | | | lia].
  - change (Sg (mix_of sample) 0) with (3.2723). change (Ep (mix_of sample) 0) with (210.29). split; interval.
  - change (Sg (mix_of sample) 1) with (3.1869). change (Ep (mix_of sample) 1) with (163.333). split; interval.
  - change (Sg (mix_of sample) 2) with (3.000683). change (Ep (mix_of sample) 2) with (366.5121). split; interval.
Qed.
Lemma sample_D0 i : (i < List.length (p_m sample))%nat -> 0 < Di (mix_of sample) 350 i.
Proof. intros H. change (List.length (p_m sample)) with 3%nat in H. pose proof (sample_D i H). lra. Qed.
Lemma sample_z3 : 0.01 <= chain_z3 sample 350 slope <= 0.5.
Proof.
  pose proof (sample_D 0 ltac:(lia)) as H0. pose proof (sample_D 1 ltac:(lia)) as H1. pose proof (sample_D 2 ltac:(lia)) as H2.
  unfold chain_z3. change (List.length (p_m sample)) with 3%nat. unfold rsum. cbn [seq map fold_right].
  unfold slope. change (M (mix_of sample) 0) with (2.2634). change (M (mix_of sample) 1) with (1.5131). change (M (mix_of sample) 2) with (1.065587).
  set (a := Di _ _ 0) in *. set (b := Di _ _ 1) in *. set (c := Di _ _ 2) in *. clearbody a b c. split; interval.
Qed.
Example C45_chain_case local :
  phi_chain sample 350 (profile_wd (chain_weight_functions sample 350) 3 1 local slope)
  = - Sum i < 3, local i * (M (mix_of sample) i - 1)
      * (ln (contact (Di (mix_of sample) 350 i) (chain_z2 sample 350 slope) (chain_z3 sample 350 slope)
             * (Rabs (chain_lambda sample 350 slope i) + / 2 ^ 52)) - 1).
Proof.
  assert (H350 : 0 < 350) by lra. pose proof sample_z3 as H.
  apply (C45_chain _ _ _ sample_ok sample_phys 350 H350 1 local slope). lra.
Qed.
Lemma slope_att psi i : 0 < psi -> (i < 3)%nat -> att_rho sample 350 slope psi i = 3 / (400 * PI).
Proof.
  intros Hp Hi. pose proof (sample_D i Hi) as H. unfold att_rho, slope. field. repeat split; try lra; try apply PI_neq0.
Qed.
Lemma sample_att psi : 0 < psi -> mk1 3 (att_rho sample 350 slope psi) = repeat (3 / (400 * PI)) 3.
Proof. intros Hp. unfold mk1. cbn [seq map]. rewrite !slope_att by (auto; lia). reflexivity. Qed.
Example C45_attraction_case local : 
  let s := @state_new RNum 350 1 (repeat (3 / (400 * PI)) 3) in
  phi_att sample 350 (profile_wd (@att_weight_functions RNum psi_dft sample 350) 3 1 local slope)
  = a_disp sample s + a_dipole sample s + a_quadrupole sample s + a_dq sample DQ35 s.
Proof.
  assert (H350 : 0 < 350) by lra. assert (Hpsi : 0 < @psi_dft RNum) by (unfold psi_dft; rn; lra).
  assert (B : 0.001 <= 3 / (400 * PI) <= 0.0025) by (split; interval).
  pose proof (C45_attraction _ _ _ sample_ok sample_phys 350 H350 1 local slope (@psi_dft RNum) Hpsi) as H.
  assert (Q : (p_nquadpole sample <= 1)%nat) by (destruct sample_counts as (_ & E & _); rewrite E; lia).
  specialize (H Q). cbv zeta in H. change (List.length (p_m sample)) with 3%nat in H.
  rewrite (sample_att _ Hpsi) in H. apply H.
  - apply phys_state_intro; [exact sample_phys | lra | lra | reflexivity | | | ].
    + intros i Hi. change (List.length (p_m sample)) with 3%nat in Hi. destruct i as [ | [ | [ | i]]]; [ | | | lia]; cbn [nth repeat]; lra.
    + exists 0%nat. change (List.length (p_m sample)) with 3%nat. split; [lia | cbn [nth repeat]; lra].
    + change (List.length (p_m sample)) with 3%nat. unfold rsum. cbn [seq map fold_right nth repeat].
      change (@ix RNum (p_m sample) 0) with (2.2634). change (@ix RNum (p_m sample) 1) with (1.5131). change (@ix RNum (p_m sample) 2) with (1.065587).
      change (@ix RNum (p_sigma sample) 0) with (3.2723). change (@ix RNum (p_sigma sample) 1) with (3.1869). change (@ix RNum (p_sigma sample) 2) with (3.000683).
      set (r := 3 / (400 * PI)) in *. clearbody r. interval.
  - unfold rsum. cbn [seq map fold_right]. rewrite !slope_att by (auto; lia).
    set (r := 3 / (400 * PI)) in *. clearbody r. interval.
Qed.
Example C45_uniform_case : 
  profile_wd (chain_weight_functions sample 350) 3 1 (fun i => nth i [1/1000; 2/1000; 3/1000] 0)
    (fun s r i _ => @shape_integral RNum s r * nth i [1/1000; 2/1000; 3/1000] 0)
  = @bulk_wd RNum (chain_weight_functions sample 350) 1 [1/1000; 2/1000; 3/1000].
Proof. apply (C45_uniform (chain_weight_functions sample 350) 1 [1/1000; 2/1000; 3/1000]). Qed.

(** dimethyl ether: the pure-fluid chain and attraction agree with the mixture versions *)
Example C10_profile_case local :
  phi_pure_chain t_dme (profile_wd (pure_chain_weight_functions t_dme 350) 1 1 local slope)
  = phi_chain t_dme 350 (profile_wd (chain_weight_functions t_dme 350) 1 1 local slope) /\
  phi_pure_att t_dme 350 (profile_wd (@att_weight_functions RNum psi_dft t_dme 350) 1 1 local slope)
  = phi_att t_dme 350 (profile_wd (@att_weight_functions RNum psi_dft t_dme 350) 1 1 local slope).
Proof.
  assert (H350 : 0 < 350) by lra.
  assert (HD : 2.5 <= Di (mix_of t_dme) 350 0 <= 3.5).
  { unfold Di. change (Sg (mix_of t_dme) 0) with (3.2723). change (Ep (mix_of t_dme) 0) with (210.29). split; interval. }
  assert (Er : att_rho t_dme 350 slope (@psi_dft RNum) 0 = 3 / (400 * PI)).
  { unfold att_rho, slope. assert (0 < @psi_dft RNum) by (unfold psi_dft; rn; lra).
    set (q := @psi_dft RNum) in *. change (car RNum) with R in *. clearbody q. field. repeat split; try lra; apply PI_neq0. }
  assert (B : 0.001 <= 3 / (400 * PI) <= 0.0025) by (split; interval).
  split.
  - apply (C10_profile_chain _ _ _ t_dme_ok t_dme_phys eq_refl 350 H350).
    unfold chain_z3. change (List.length (p_m t_dme)) with 1%nat. unfold rsum. cbn [seq map fold_right]. unfold slope.
    change (M (mix_of t_dme) 0) with (2.2634). set (D := Di _ _ _) in *. clearbody D. interval.
  - apply (C10_profile_attraction _ _ _ t_dme_ok t_dme_phys eq_refl 350 H350).
    + reflexivity.
    + right. apply (no_quadrupole _ _ _ t_dme_ok).
      * intros pr [<- | []]. unfold physical_record. cbn. lra.
      * intros pr [<- | []]; reflexivity.
    + cbv zeta. rewrite Er. set (r := 3 / (400 * PI)) in *. clearbody r. interval.
    + cbv zeta. rewrite Er. apply phys_state_intro; [exact t_dme_phys | lra | lra | reflexivity | | | ].
      * intros i Hi. change (List.length (p_m t_dme)) with 1%nat in Hi. assert (i = 0%nat) as -> by lia. cbn [nth]; lra.
      * exists 0%nat. change (List.length (p_m t_dme)) with 1%nat. split; [lia | cbn [nth]; lra].
      * change (List.length (p_m t_dme)) with 1%nat. unfold rsum. cbn [seq map fold_right nth].
        change (@ix RNum (p_m t_dme) 0) with (2.2634). change (@ix RNum (p_sigma t_dme) 0) with (3.2723).
        set (r := 3 / (400 * PI)) in *. clearbody r. interval.
Qed.

Print Assumptions C45_chain.
Print Assumptions C45_attraction.
Print Assumptions C45_association_strength.
Print Assumptions C45_association.
Print Assumptions C45_white_bear.
Print Assumptions C45_white_bear_dilute.
Print Assumptions C45_antisymmetrised.
Print Assumptions C45_pure_chain.
Print Assumptions C45_uniform.
Print Assumptions C10_profile_chain.
Print Assumptions C10_profile_attraction.
Print Assumptions C10_profile_association.
