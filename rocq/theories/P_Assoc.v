(** C11 and C12 (closed-form site fractions), C13 and C14 (cross-association: acceptance, accuracy,
    existence and uniqueness), C38 (cross-association on density profiles). *)
From Coq Require Import ZArith QArith Reals Lra Lia String List Arith Bool.
From Verif Require Import Num RNum RSum Tables M_Params F_Params M_Eos M_Dft Spec F_Spec F_SpecAssoc F_Contrib
  F_MassAction F_MassAction2 F_Newton F_Gauss F_NewtonR F_Cross Samples.
Import ListNotations.
Local Open Scope R_scope.

(* --------------------------------------------------------------------------- C11 *)

(** above the low-density switch the fractions solve the mass-action law exactly, and nothing else
    positive does *)
Theorem C11_solves_mass_action (d na nb : R) : / 2 ^ 26 < d -> 0 < na -> 0 < nb ->
  let xa := @assoc_site_frac_ab RNum d na nb in
  let xb := (xa - 1) * (na / nb) + 1 in
  0 < xa < 1 /\ 0 < xb < 1 /\
  xa * (1 + d * nb * xb) = 1 /\ xb * (1 + d * na * xa) = 1 /\
  forall ya yb, 0 < ya -> 0 < yb -> ya * (1 + d * nb * yb) = 1 -> yb * (1 + d * na * ya) = 1 ->
    ya = xa /\ yb = xb.
Proof.
  intros Hd Ha Hb xa xb. replace (2 ^ 26) with 67108864 in Hd by ring.
  assert (Hd0 : 0 < d) by lra.
  destruct (frac_ab_law d na nb Hd0 Ha Hb) as (A & B & L1 & L2).
  rewrite <- (assoc_site_frac_ab_above d na nb Hd) in A, B, L1, L2. fold xa in A, B, L1, L2. fold xb in B, L1, L2.
  repeat split; try tauto; try apply A; try apply B; auto.
  - (* quadratic in ya: d na ya^2 + (1 + d (nb - na)) ya - 1 = 0 has one positive root *)
    assert (Q : forall y z, 0 < y -> y * (1 + d * nb * z) = 1 -> z * (1 + d * na * y) = 1 ->
       d * na * y ^ 2 + (1 + d * (nb - na)) * y - 1 = 0).
    { intros y z Hy E1 E2. assert (0 < d * na) by (apply Rmult_lt_0_compat; auto).
      assert (P : 0 < 1 + d * na * y) by nra.
      assert (Z : z = / (1 + d * na * y)) by (apply Rmult_eq_reg_r with (1 + d * na * y); [rewrite E2; field | ]; lra).
      rewrite Z in E1. apply Rmult_eq_compat_r with (r := 1 + d * na * y) in E1.
      replace (y * (1 + d * nb * / (1 + d * na * y)) * (1 + d * na * y)) with (y * (1 + d * na * y + d * nb)) in E1 by (field; lra).
      nra. }
    pose proof (Q ya yb H H1 H2) as Q1. pose proof (Q xa xb (proj1 A) L1 L2) as Q2.
    assert (0 < d * na) by (apply Rmult_lt_0_compat; auto).
    assert (F : (ya - xa) * (d * na * ya * xa + 1) = 0) by nra.
    apply Rmult_integral in F. destruct F as [F | F]; [lra | ].
    assert (0 < d * na * ya * xa) by (apply Rmult_lt_0_compat; [apply Rmult_lt_0_compat | apply A]; auto). lra.
  - assert (Q : forall y z, 0 < z -> y * (1 + d * nb * z) = 1 -> z * (1 + d * na * y) = 1 ->
       d * nb * z ^ 2 + (1 + d * (na - nb)) * z - 1 = 0).
    { intros y z Hz E1 E2. assert (0 < d * nb) by (apply Rmult_lt_0_compat; auto).
      assert (P : 0 < 1 + d * nb * z) by nra.
      assert (Z : y = / (1 + d * nb * z)) by (apply Rmult_eq_reg_r with (1 + d * nb * z); [rewrite E1; field | ]; lra).
      rewrite Z in E2. apply Rmult_eq_compat_r with (r := 1 + d * nb * z) in E2.
      replace (z * (1 + d * na * / (1 + d * nb * z)) * (1 + d * nb * z)) with (z * (1 + d * nb * z + d * na)) in E2 by (field; lra).
      nra. }
    pose proof (Q ya yb H0 H1 H2) as Q1. pose proof (Q xa xb (proj1 B) L1 L2) as Q2.
    assert (0 < d * nb) by (apply Rmult_lt_0_compat; auto).
    assert (F : (yb - xb) * (d * nb * yb * xb + 1) = 0) by nra.
    apply Rmult_integral in F. destruct F as [F | F]; [lra | ].
    assert (0 < d * nb * yb * xb) by (apply Rmult_lt_0_compat; [apply Rmult_lt_0_compat | apply B]; auto). lra.
Qed.

(** at and below the switch the result is an expansion: fractions in (0,1], third-order accurate *)
Theorem C11_low_density (d na nb : R) : 0 < d <= / 2 ^ 26 -> 0 < na -> 0 < nb -> d * (na + nb) <= 1 ->
  let xa := @assoc_site_frac_ab RNum d na nb in
  let xb := (xa - 1) * (na / nb) + 1 in
  0 < xa <= 1 /\ 0 < xb <= 1 /\
  forall ya yb, 0 < ya -> 0 < yb -> ya * (1 + d * nb * yb) = 1 -> yb * (1 + d * na * ya) = 1 ->
    0 <= xa - ya <= 2 * nb * (na + nb) ^ 2 * d ^ 3 /\ 0 <= xb - yb <= 2 * na * (na + nb) ^ 2 * d ^ 3.
Proof.
  intros [Hd0 Hd] Ha Hb Hs xa xb. replace (2 ^ 26) with 67108864 in Hd by ring.
  destruct (frac_ab_expansion d na nb Hd0 Ha Hb Hs) as (A & B & C).
  rewrite <- (assoc_site_frac_ab_below d na nb Hd) in A, B, C. fold xa in A, B, C. fold xb in B.
  split; auto. split; auto. intros ya yb Hya Hyb E1 E2.
  destruct (frac_ab_law d na nb Hd0 Ha Hb) as (A' & B' & L1 & L2).
  set (za := frac_ab d na nb) in *. set (zb := (za - 1) * (na / nb) + 1) in *.
  assert (Hdn : 0 < d * na) by (apply Rmult_lt_0_compat; auto).
  assert (Hdb : 0 < d * nb) by (apply Rmult_lt_0_compat; auto).
  assert (Eq : na * (ya - 1) = nb * (yb - 1)).
  { assert (d * (na * (ya - 1) - nb * (yb - 1)) = 0); [ | nra].
    assert (F1 : ya + d * nb * (ya * yb) = 1) by lra. assert (F2 : yb + d * na * (ya * yb) = 1) by lra. nra. }
  assert (Eyb : yb = (ya - 1) * (na / nb) + 1).
  { apply Rmult_eq_reg_l with nb; [ | lra]. replace (nb * ((ya - 1) * (na / nb) + 1)) with (na * (ya - 1) + nb) by (field; lra). lra. }
  assert (Ea : ya = za).
  { assert (Q1 : d * na * ya ^ 2 + (1 + d * (nb - na)) * ya - 1 = 0).
    { rewrite Eyb in E1. replace (ya * (1 + d * nb * ((ya - 1) * (na / nb) + 1))) with (d * na * ya ^ 2 + (1 + d * (nb - na)) * ya) in E1 by (field; lra). lra. }
    assert (Q2 : d * na * za ^ 2 + (1 + d * (nb - na)) * za - 1 = 0).
    { unfold zb in L1. replace (za * (1 + d * nb * ((za - 1) * (na / nb) + 1))) with (d * na * za ^ 2 + (1 + d * (nb - na)) * za) in L1 by (field; lra). lra. }
    assert (F : (ya - za) * (d * na * ya * za + 1) = 0) by nra.
    apply Rmult_integral in F. destruct F as [F | F]; [lra | ].
    assert (0 < d * na * ya * za) by (apply Rmult_lt_0_compat; [apply Rmult_lt_0_compat | apply A']; auto). lra. }
  rewrite Ea in *. split; [auto | ].
  assert (Exb : xb - yb = (xa - za) * (na / nb)) by (rewrite Eyb; unfold xb; ring).
  assert (0 < na / nb) by (apply Rdiv_lt_0_compat; auto).
  rewrite Exb. split; [apply Rmult_le_pos; lra | ].
  replace (2 * na * (na + nb) ^ 2 * d ^ 3) with (2 * nb * (na + nb) ^ 2 * d ^ 3 * (na / nb)) by (field; lra).
  apply Rmult_le_compat_r; lra.
Qed.
(** no association: all sites are free *)
Theorem C11_no_association (na nb : R) : 0 < nb ->
  let xa := @assoc_site_frac_ab RNum 0 na nb in xa = 1 /\ (xa - 1) * (na / nb) + 1 = 1.
Proof.
  intros Hb xa. assert (E : xa = 1); [ | rewrite E; split; [auto | unfold Rdiv; ring]].
  unfold xa. rewrite assoc_site_frac_ab_below by lra. toR. ring.
Qed.
(** without the bound on the number of sites the expansion leaves the unit interval *)
Theorem C11_many_sites_refuted : exists d na nb, 0 <= d /\ 0 < na /\ 0 < nb /\
  1 < @assoc_site_frac_ab RNum d na nb.
Proof.
  exists (/ 2 ^ 27), 1, (2 ^ 30). split; [left; apply Rinv_0_lt_compat; lra | ]. split; [lra | ]. split; [lra | ].
  rewrite assoc_site_frac_ab_below by lra. lra.
Qed.

(** a number above and one below the switch *)
Example C11_case : / 2 ^ 26 < 3 /\ 0 < / 2 ^ 30 <= / 2 ^ 26 /\ / 2 ^ 30 * (1 + 2) <= 1.
Proof. lra. Qed.

(* --------------------------------------------------------------------------- C12 *)

(** below the switch: accurate to third order, and in (0,1] *)
Theorem C12_low_density_partial (d na : R) : 0 < d <= / 2 ^ 26 -> 0 < na <= 2 ^ 24 ->
  let x := @assoc_site_frac_a RNum d na in
  0 < x <= 1 /\ forall y, 0 < y -> y * (1 + d * na * y) = 1 -> 0 <= x - y <= 5 * (d * na) ^ 3.
Proof.
  intros Hd Ha x. replace (2 ^ 26) with 67108864 in Hd by ring. replace (2 ^ 24) with 16777216 in Ha by ring.
  pose proof (assoc_site_frac_a_below d na Hd) as B. destruct B as [B1 B2]; [lra | ]. fold x in B1, B2.
  assert (Hu : 0 < d * na) by (apply Rmult_lt_0_compat; lra).
  assert (Hu4 : d * na <= / 4).
  { apply Rle_trans with (/ 67108864 * 16777216); [apply Rmult_le_compat; lra | lra]. }
  destruct (frac_a_law d na) as [[X0 X1] L]; [lra | lra | ]. unfold one_site_law in L.
  split.
  - split; [lra | ]. unfold x, assoc_site_frac_a. rewrite sqrt_eps_R. rn. rewrite (proj2 (Rltb_false _ _)) by lra. nra.
  - intros y Hy E. assert (Ey : y = frac_a (d * na)); [ | rewrite Ey; lra].
    assert (F : (y - frac_a (d * na)) * (d * na * (y + frac_a (d * na)) + 1) = 0) by nra.
    apply Rmult_integral in F. destruct F as [F | F]; [lra | ].
    assert (0 < d * na * (y + frac_a (d * na))) by (apply Rmult_lt_0_compat; lra). lra.
Qed.
(** above the switch the closed form is never a fraction and never satisfies the law *)
Theorem C12_above_switch_refuted (d na : R) : / 2 ^ 26 < d -> 0 < na ->
  let x := @assoc_site_frac_a RNum d na in 2 < x /\ x * (1 + d * na * x) <> 1.
Proof.
  intros Hd Ha x. replace (2 ^ 26) with 67108864 in Hd by ring.
  pose proof (assoc_site_frac_a_gt2 d na Hd Ha) as G. fold x in G. split; auto.
  assert (0 < d * na) by (apply Rmult_lt_0_compat; lra). nra.
Qed.
Theorem C12_refuted : exists d na, 0 < d /\ 0 < na /\ ~ (0 < @assoc_site_frac_a RNum d na <= 1).
Proof.
  exists 1, 1. split; [lra | ]. split; [lra | ]. destruct (C12_above_switch_refuted 1 1) as [G _]; lra.
Qed.
Example C12_case : 0 < / 2 ^ 30 <= / 2 ^ 26 /\ 0 < 2 <= 2 ^ 24.
Proof. lra. Qed.

(* --------------------------------------------------------------------------- C13 *)

(** For every number type (floating point and all dual numbers), every linear solver and every
    start vector: a value is only returned after an iterate whose residual norm was below the
    tolerance; the returned vector is the next iterate. *)
Theorem C13_any_number {K : Num} (lu : lu_solver K) (p : params K) (t : car K) (rho r : list (car K)) (n2 n3i xi : car K)
    (max_iter : nat) (tol : car K) (x0 : option (list (car K))) a x0' :
  (0 < max_iter)%nat -> nltb (nsum rho) f_eps = false ->
  cross_association lu p t rho r n2 n3i xi max_iter tol x0 = (Ok a, x0') ->
  let start := match x0 with Some x => x | None => repeat (nlit 0.2%Q) (2 * p_nassoc p) end in
  let delta := map (map nre) (ca_delta p t r n2 n3i xi) in
  let na := ca_sel p (p_na p) in let nb := ca_sel p (p_nb p) in
  let rho_re := map nre (ca_sel p rho) in
  let residual x := norm (map nre (ca_grad (p_nassoc p) delta na nb rho_re x)) in
  exists k (y : nat -> list (car K)), (k < max_iter)%nat /\ y O = start /\
    (forall j, (j <= k)%nat -> exists b,
       newton_step lu (p_nassoc p) delta na nb rho_re tol (y j) = Ok (y (S j), b)) /\
    (forall j, (j < k)%nat -> nltb (residual (y j)) tol = false) /\
    nltb (residual (y k)) tol = true /\
    x0' = option_map (fun _ => y (S k)) x0.
Proof.
  intros Hm Hd H. cbv zeta. unfold cross_association in H. rewrite Hd in H.
  set (start := match x0 with Some x => x | None => _ end) in *.
  set (delta := map (map nre) _) in *. set (na := ca_sel p (p_na p)) in *. set (nb := ca_sel p (p_nb p)) in *.
  set (rho_re := map nre (ca_sel p rho)) in *.
  destruct (newton_loop _ _ _) as [x | e] eqn:E; [ | discriminate].
  destruct max_iter as [ | m]; [lia | ].
  destruct (loop_ok _ m start x E) as (k & y & Hk & Y0 & Yj & Yk & Yz).
  assert (Flag : forall u u' b, newton_step lu (p_nassoc p) delta na nb rho_re tol u = Ok (u', b) ->
     b = nltb (norm (map nre (ca_grad (p_nassoc p) delta na nb rho_re u))) tol).
  { intros u u' b Hs. unfold newton_step in Hs. destruct (lu _ _); [ | discriminate]. congruence. }
  exists k, y. split; [lia | ]. split; [exact Y0 | ]. split; [ | split; [ | split]].
  - intros j Hj. destruct (Nat.eq_dec j k) as [-> | Hn]; [exists true; exact Yk | exists false; apply Yj; lia].
  - intros j Hj. symmetry. apply (Flag _ _ _ (Yj j Hj)).
  - symmetry. apply (Flag _ _ _ Yk).
  - rewrite <- Yz in H. destruct (newton_deriv _ _ _); [ | discriminate]. injection H as _ <-.
    destruct x0; auto.
Qed.

(** vanishing density: zero energy, and a start vector for the next call that is all ones *)
Theorem C13_vanishing_density {K : Num} (lu : lu_solver K) (p : params K) t (rho r : list (car K)) n2 n3i xi max_iter tol x0 :
  nltb (nsum rho) f_eps = true ->
  cross_association lu p t rho r n2 n3i xi max_iter tol x0 = (Ok n0, option_map (map (fun _ => n1)) x0).
Proof. intros H. unfold cross_association. rewrite H. destruct x0; auto. Qed.

(** the caller's start vector is overwritten only on success *)
Theorem C13_start_vector_kept {K : Num} (lu : lu_solver K) (p : params K) t (rho r : list (car K)) n2 n3i xi max_iter tol x0 e x0' :
  cross_association lu p t rho r n2 n3i xi max_iter tol x0 = (Err e, x0') -> x0' = x0.
Proof.
  unfold cross_association. destruct (nltb (nsum rho) f_eps); [discriminate | ].
  destruct (newton_loop _ _ _); [ | congruence]. destruct (newton_deriv _ _ _); congruence.
Qed.

(** zero iterations allowed: the start vector is accepted whatever its residual *)
Theorem C13_zero_iterations {K : Num} (lu : lu_solver K) (p : params K) t (rho r : list (car K)) n2 n3i xi tol :
  nltb (nsum rho) f_eps = false -> nderiv K = O ->
  cross_association lu p t rho r n2 n3i xi 0 tol None
  = (Ok (ca_energy (p_nassoc p) (ca_sel p (p_na p)) (ca_sel p (p_nb p)) (ca_sel p rho)
          (repeat (nlit 0.2%Q) (2 * p_nassoc p))), None).
Proof. intros H Hd. unfold cross_association. rewrite H, Hd. reflexivity. Qed.

(* real arithmetic: the association sites of the associating components of [p] *)
Section C13Real.
  Variable lu : lu_solver RNum.
  Hypothesis Hlu : lu_exact lu.            (* the linear solver is exact *)
  Variables (p : params RNum) (t : R) (rho r : list R) (n2 n3i xi : R).
  Notation n := (p_nassoc p).
  (** strengths, site numbers and densities of the associating components *)
  Definition str (i j : nat) : R := @association_strength RNum p t r n2 n3i xi (comp p i) (comp p j).
  Definition sa (i : nat) : R := @ix RNum (p_na p) (comp p i).
  Definition sb (i : nat) : R := @ix RNum (p_nb p) (comp p i).
  Definition den (i : nat) : R := @ix RNum rho (comp p i).
  Notation law := (site_law n str sa sb den).
  Notation resnorm := (residual_norm n str sa sb den).
  Notation update := (newton_update n str sa sb den).
  Notation energy := (site_energy n sa sb den).
  Notation cross := (@cross_association RNum lu p t rho r n2 n3i xi).
  Definition first_guess (x0 : option (list R)) : list R :=
    match x0 with Some x => x | None => repeat (2 / 10) (2 * n) end.

  Let delta : list (list R) := ca_delta p t r n2 n3i xi.
  Let na : list R := ca_sel p (p_na p).
  Let nb : list R := ca_sel p (p_nb p).
  Let rhoa : list R := ca_sel p rho.
  Let D i j := @ix2 RNum delta i j.
  Let f (l : list R) i := @ix RNum l i.

  Lemma delta_str i j : (i < n)%nat -> (j < n)%nat -> D i j = str i j.
  Proof. intros Hi Hj. unfold D, delta, ca_delta. rewrite ix2_mk2 by auto. reflexivity. Qed.
  Lemma na_sa i : (i < n)%nat -> f na i = sa i.
  Proof. intros Hi. unfold f, na, ca_sel. rewrite ix_mk1 by auto. reflexivity. Qed.
  Lemma nb_sb i : (i < n)%nat -> f nb i = sb i.
  Proof. intros Hi. unfold f, nb, ca_sel. rewrite ix_mk1 by auto. reflexivity. Qed.
  Lemma rho_den i : (i < n)%nat -> f rhoa i = den i.
  Proof. intros Hi. unfold f, rhoa, ca_sel. rewrite ix_mk1 by auto. reflexivity. Qed.

  Lemma bonds_a_eq x i : (i < n)%nat -> bonds_a n D (f nb) (f rhoa) x i = bonds_a n str sb den x i.
  Proof. intros Hi. apply Sum_ext. intros j Hj. rewrite delta_str, nb_sb, rho_den by auto. auto. Qed.
  Lemma bonds_b_eq x i : (i < n)%nat -> bonds_b n D (f na) (f rhoa) x i = bonds_b n str sa den x i.
  Proof. intros Hi. apply Sum_ext. intros j Hj. rewrite delta_str, na_sa, rho_den by auto. auto. Qed.
  Lemma resnorm_eq x : residual_norm n D (f na) (f nb) (f rhoa) x = resnorm x.
  Proof.
    unfold residual_norm. f_equal. f_equal; apply Sum_ext; intros i Hi; [rewrite bonds_a_eq by auto | rewrite bonds_b_eq by auto]; auto.
  Qed.
  Lemma update_eq x x' : newton_update n D (f na) (f nb) (f rhoa) x x' <-> update x x'.
  Proof.
    unfold newton_update. split; intros [L H]; (split; [auto | ]); intros i Hi; specialize (H i Hi).
    - rewrite !bonds_a_eq, !bonds_b_eq in H by auto. auto.
    - rewrite !bonds_a_eq, !bonds_b_eq by auto. auto.
  Qed.
  Lemma law_eq x : site_law n D (f na) (f nb) (f rhoa) x <-> law x.
  Proof.
    unfold site_law. split; intros (L & P & H); (split; [auto | ]); (split; [auto | ]); intros i Hi; specialize (H i Hi).
    - rewrite !bonds_a_eq, !bonds_b_eq in H by auto. auto.
    - rewrite !bonds_a_eq, !bonds_b_eq by auto. auto.
  Qed.
  Lemma energy_eq x : @ca_energy RNum n na nb rhoa x = energy x.
  Proof.
    rewrite energy_spec. apply Sum_ext. intros i Hi. pose proof (na_sa i Hi). pose proof (nb_sb i Hi). pose proof (rho_den i Hi).
    unfold f in *. rewrite H, H0, H1. auto.
  Qed.

  Lemma map_nre (l : list (car RNum)) : map (@nre RNum) l = l.
  Proof. apply map_id. Qed.
  Lemma map_map_nre (l : list (list (car RNum))) : map (map (@nre RNum)) l = l.
  Proof. rewrite <- (map_id l) at 2. apply map_ext. exact map_nre. Qed.

  Notation stepf tol := (@newton_step RNum lu n delta na nb rhoa tol).

  Lemma cross_unfold max_iter (tol : R) (x0 : option (list R)) : / 2 ^ 52 <= rsum rho (fun x => x) ->
    cross max_iter tol x0 =
    match newton_loop (stepf tol) max_iter (first_guess x0) with
    | Err e => (Err e, x0)
    | Ok x => (Ok (energy x), option_map (fun _ => x) x0)
    end.
  Proof.
    intros Hd. unfold cross_association. rewrite nsum_R.
    replace (@nltb RNum (rsum rho (fun x => x)) f_eps) with false by (symmetry; apply Rltb_false; rewrite f_eps_R; lra).
    rewrite map_map_nre, map_nre. fold delta na nb rhoa.
    replace (match x0 with Some x => x | None => repeat (@nlit RNum 0.2%Q) (2 * n) end) with (first_guess x0).
    2:{ unfold first_guess. destruct x0; auto. }
    destruct (newton_loop _ _ _) as [x | e]; auto. cbn [newton_deriv nderiv RNum].
    rewrite energy_eq. destruct x0; auto.
  Qed.

  (** acceptance: some iterate had a residual below the tolerance, and none before it *)
  Theorem C13_accepted max_iter (tol : R) (x0 : option (list R)) (a : R) x0' : (0 < max_iter)%nat -> / 2 ^ 52 <= rsum rho (fun x => x) ->
    length (first_guess x0) = (2 * n)%nat ->
    cross max_iter tol x0 = (Ok a, x0') ->
    exists k (y : nat -> list R), (k < max_iter)%nat /\ y O = first_guess x0 /\
      (forall j, (j <= k)%nat -> length (y (S j)) = (2 * n)%nat /\ (no_zero n (y j) -> update (y j) (y (S j)))) /\
      (forall j, (j < k)%nat -> tol <= resnorm (y j)) /\ resnorm (y k) < tol /\
      a = energy (y (S k)) /\ x0' = option_map (fun _ => y (S k)) x0.
  Proof.
    intros Hm Hd Ls H. rewrite cross_unfold in H by auto.
    destruct (newton_loop _ _ _) as [x | e] eqn:E; [ | discriminate].
    destruct max_iter as [ | m]; [lia | ].
    destruct (loop_ok _ m _ x E) as (k & y & Hk & Y0 & Yj & Yk & Yz).
    assert (L : forall j, (j <= S k)%nat -> length (y j) = (2 * n)%nat).
    { induction j as [ | j IH]; intros Hj; [rewrite Y0; auto | ].
      assert (S : exists b, stepf tol (y j) = Ok (y (S j), b)).
      { destruct (Nat.eq_dec j k) as [-> | Hn]; [exists true; exact Yk | exists false; apply Yj; lia]. }
      destruct S as [b S]. unfold newton_step in S.
      pose proof (Hlu (n + n)%nat _ _ (ca_hess_square (K := RNum) n delta na nb rhoa (y j))
        (ca_grad_length (K := RNum) n delta na nb rhoa (y j))) as HL.
      destruct (lu _ _) as [dx | ]; [ | discriminate]. destruct HL as (_ & Ld & _).
      injection S as S _. rewrite <- S. rewrite map_length, combine_length.
      transitivity (Nat.min (2 * n) (n + n))%nat; [f_equal; [apply IH; lia | exact Ld] | lia]. }
    exists k, y. split; [lia | ]. split; [exact Y0 | ].
    assert (U : forall j b, (j <= k)%nat -> stepf tol (y j) = Ok (y (S j), b) ->
      (b = true <-> resnorm (y j) < tol) /\ (no_zero n (y j) -> update (y j) (y (S j)))).
    { intros j b Hj Sj. rewrite <- resnorm_eq, <- update_eq.
      apply (update_spec n delta na nb rhoa lu tol (y j) (y (S j)) b Hlu); auto. }
    split; [ | split; [ | split; [ | split]]].
    - intros j Hj. split; [apply L; lia | ].
      destruct (Nat.eq_dec j k) as [-> | Hn]; [apply (U k true); auto | apply (U j false); auto; apply Yj; lia].
    - intros j Hj. destruct (U j false) as [A _]; [lia | apply Yj; auto | ].
      apply Rnot_lt_le. intros C. apply A in C. discriminate.
    - apply (U k true); auto.
    - injection H as <- _. rewrite Yz. auto.
    - injection H as _ <-. rewrite Yz. auto.
  Qed.

  (** rejection: only for lack of convergence within the iteration limit or for a singular
      linearisation; in the first case no iterate was below the tolerance *)
  Theorem C13_rejected max_iter (tol : R) (x0 : option (list R)) e x0' : (0 < max_iter)%nat -> / 2 ^ 52 <= rsum rho (fun x => x) ->
    length (first_guess x0) = (2 * n)%nat ->
    cross max_iter tol x0 = (Err e, x0') ->
    exists k (y : nat -> list R), (k < max_iter)%nat /\ y O = first_guess x0 /\
      (forall j, (j < k)%nat -> length (y (S j)) = (2 * n)%nat /\ (no_zero n (y j) -> update (y j) (y (S j)))) /\
      (forall j, (j < k)%nat -> tol <= resnorm (y j)) /\
      (e = NotConverged /\ S k = max_iter /\ tol <= resnorm (y k) \/
       e = MatrixSingular /\ (no_zero n (y k) -> forall x', ~ (forall x'', update (y k) x'' <-> x'' = x'))).
  Proof.
    intros Hm Hd Ls H. rewrite cross_unfold in H by auto.
    destruct (newton_loop _ _ _) as [x | e'] eqn:E; [discriminate | ]. injection H as -> _.
    destruct max_iter as [ | m]; [lia | ].
    destruct (loop_err _ m _ e E) as (k & y & Hk & Y0 & Yj & Yk). change (nat -> list R) in y.
    assert (L : forall j, (j <= k)%nat -> length (y j) = (2 * n)%nat).
    { induction j as [ | j IH]; intros Hj; [rewrite Y0; auto | ].
      assert (S := Yj j ltac:(lia)). unfold newton_step in S.
      pose proof (Hlu (n + n)%nat _ _ (ca_hess_square (K := RNum) n delta na nb rhoa (y j))
        (ca_grad_length (K := RNum) n delta na nb rhoa (y j))) as HL.
      destruct (lu _ _) as [dx | ]; [ | discriminate]. destruct HL as (_ & Ld & _).
      injection S as S _. rewrite <- S. rewrite map_length, combine_length.
      transitivity (Nat.min (2 * n) (n + n))%nat; [f_equal; [apply IH; lia | exact Ld] | lia]. }
    exists k, y. split; [lia | ]. split; [exact Y0 | ].
    assert (U : forall j b, (j <= k)%nat -> stepf tol (y j) = Ok (y (S j), b) ->
      (b = true <-> resnorm (y j) < tol) /\ (no_zero n (y j) -> update (y j) (y (S j)))).
    { intros j b Hj Sj. rewrite <- resnorm_eq, <- update_eq.
      apply (update_spec n delta na nb rhoa lu tol (y j) (y (S j)) b Hlu); auto. }
    split; [ | split].
    - intros j Hj. split; [apply L; lia | ]. apply (U j false); [lia | apply Yj; auto].
    - intros j Hj. destruct (U j false) as [A _]; [lia | apply Yj; auto | ].
      apply Rnot_lt_le. intros C. apply A in C. discriminate.
    - destruct Yk as [Yk | (-> & -> & Yk)].
      + right.
        assert (Es : e = MatrixSingular).
        { unfold newton_step in Yk. destruct (lu _ _); [discriminate | congruence]. }
        split; auto. intros Hz x' Hx'.
        assert (Lk : length (y k) = (n + n)%nat) by (rewrite (L k) by lia; lia).
        assert (Hx0 : forall i, (i < n + n)%nat -> nth i (y k) 0 <> 0) by (apply (from_halves n (fun i => nth i (y k) 0 <> 0)); exact Hz).
        pose proof (step_spec lu n delta na nb rhoa tol Hlu (y k) Lk Hx0) as S. rewrite Yk in S. destruct S as [_ S].
        apply S. clear S. intros z Hz0 i Hi.
        assert (Ux : update (y k) x') by (apply Hx'; auto).
        (* x' and x' + z are both updates *)
        set (x'' := map (fun i => nth i x' 0 + z i) (seq 0 (2 * n))).
        assert (Nx : forall i, (i < n + n)%nat -> nth i x'' 0 = nth i x' 0 + z i).
        { intros l Hl. unfold x''. rewrite (nth_indep _ 0 ((fun i => nth i x' 0 + z i) 0%nat)) by (rewrite map_length, seq_length; lia).
          rewrite (map_nth (fun i => nth i x' 0 + z i)), seq_nth by lia. auto. }
        assert (Hs : forall l, (l < n + n)%nat -> z l * (1 + sites n delta na nb rhoa (fun l => nth l (y k) 0) l) + nth l (y k) 0 * sites n delta na nb rhoa z l = 0).
        { intros l Hl. specialize (Hz0 l Hl). rewrite (hess_R n delta na nb rhoa (y k) z l Lk Hl) in Hz0.
          specialize (Hx0 l Hl). apply (Rmult_eq_compat_l (- nth l (y k) 0)) in Hz0. rewrite Rmult_0_r in Hz0.
          eapply eq_trans; [ | exact Hz0]. field. exact Hx0. }
        assert (Ss : forall l, sites n delta na nb rhoa (fun l => nth l x'' 0) l = sites n delta na nb rhoa (fun l => nth l x' 0) l + sites n delta na nb rhoa z l).
        { intros l. unfold sites, row. rewrite <- rsum_plus. apply Sum_ext. intros q Hq. rewrite Nx by auto. ring. }
        assert (Ux'' : update (y k) x'').
        { apply update_eq. apply update_eq in Ux. destruct Ux as [Lx Ux]. split; [unfold x''; rewrite map_length, seq_length; auto | ].
          intros l Hl. destruct (Ux l Hl) as [A B].
          pose proof (sites_a n delta na nb rhoa x'' l Hl) as Ea. pose proof (sites_b n delta na nb rhoa x'' l Hl) as Eb.
          rewrite Ss in Ea, Eb. rewrite sites_a in Ea by auto. rewrite sites_b in Eb by auto.
          fold D in Ea, Eb. unfold f, D in *. rewrite <- Ea, <- Eb.
          pose proof (Hs l ltac:(lia)) as Hl1. pose proof (Hs (n + l)%nat ltac:(lia)) as Hl2.
          rewrite sites_a in Hl1 by auto. rewrite sites_b in Hl2 by auto.
          unfold fa, fb in *. rewrite !Nx by lia. split; lra. }
        apply Hx' in Ux''. pose proof (Nx i Hi) as Q. rewrite Ux'' in Q. lra.
      + left. split; auto. split; auto. destruct (U m false) as [A _]; [lia | exact Yk | ].
        apply Rnot_lt_le. intros C. apply A in C. discriminate.
  Qed.

  (* physically meaningful coefficients *)
  Hypothesis Hstr : forall i j, (i < n)%nat -> (j < n)%nat -> 0 <= str i j.
  Hypothesis Hsites : forall i, (i < n)%nat -> 0 <= sa i /\ 0 <= sb i /\ 0 <= den i.

  Lemma coef k l : (k < n + n)%nat -> (l < n + n)%nat -> 0 <= Dm n delta na nb rhoa k l.
  Proof.
    apply Dm_nonneg.
    - intros i j Hi Hj. fold (D i j). rewrite delta_str by auto. auto.
    - intros j Hj. pose proof (na_sa j Hj). pose proof (nb_sb j Hj). pose proof (rho_den j Hj).
      unfold f in *. change (nth j na 0) with (@ix RNum na j). change (nth j nb 0) with (@ix RNum nb j).
      change (nth j rhoa 0) with (@ix RNum rhoa j). rewrite H, H0, H1. auto.
  Qed.

  (** Newton's method is well defined at every vector of positive fractions *)
  Theorem C13_update_defined x : length x = (2 * n)%nat -> all_positive n x ->
    exists x', forall x'', update x x'' <-> x'' = x'.
  Proof.
    intros Lx Px. assert (Lx' : length x = (n + n)%nat) by lia.
    assert (Px' : forall k, (k < n + n)%nat -> 0 < nth k x 0) by (apply (from_halves n (fun k => 0 < nth k x 0)); exact Px).
    assert (Pz : no_zero n x) by (intros i Hi; destruct (Px i Hi); split; lra).
    destruct (step_positive gauss_lu n delta na nb rhoa 0 gauss_lu_exact coef x Lx' Px') as (x' & E & L').
    destruct (update_spec n delta na nb rhoa gauss_lu 0 x x' _ gauss_lu_exact Lx E) as [_ U].
    specialize (U Pz). exists x'. intros x''. split; [ | intros ->; apply update_eq; auto].
    intros U2. apply update_eq in U2. destruct U as [_ U]. destruct U2 as [L2 U2].
    apply (nth_ext _ _ 0 0); [rewrite L2; transitivity (n + n)%nat; [lia | symmetry; exact L'] | ].
    assert (Z : forall k, (k < n + n)%nat -> nth k x'' 0 - nth k x' 0 = 0).
    { apply (linear_injective (n + n) (Dm n delta na nb rhoa) coef (fun l => nth l x 0) (fun l => nth l x'' 0 - nth l x' 0) Px').
      fold (sites n delta na nb rhoa).
      assert (Es : forall k, sites n delta na nb rhoa (fun l => nth l x'' 0 - nth l x' 0) k
         = sites n delta na nb rhoa (fun l => nth l x'' 0) k - sites n delta na nb rhoa (fun l => nth l x' 0) k).
      { intros k. unfold sites, row. rewrite <- rsum_minus. apply rsum_ext. intros; ring. }
      apply (from_halves n (fun k => (nth k x'' 0 - nth k x' 0) * (1 + sites n delta na nb rhoa (fun l => nth l x 0) k)
         + nth k x 0 * sites n delta na nb rhoa (fun l => nth l x'' 0 - nth l x' 0) k = 0)).
      intros i Hi. destruct (U i Hi) as [A B]. destruct (U2 i Hi) as [A2 B2]. rewrite !Es, !sites_a, !sites_b by auto.
      fold D. unfold fa, fb, f, D in *. split; lra. }
    intros k Hk. rewrite L2 in Hk. specialize (Z k ltac:(lia)). lra.
  Qed.

  (** hence a singular matrix is only reported after an iterate that was not positive *)
  Theorem C13_singular_only_unphysical max_iter tol x0 x0' : (0 < max_iter)%nat -> / 2 ^ 52 <= rsum rho (fun x => x) ->
    length (first_guess x0) = (2 * n)%nat -> cross max_iter tol x0 = (Err MatrixSingular, x0') ->
    exists k (y : nat -> list R), (k < max_iter)%nat /\ y O = first_guess x0 /\
      (forall j, (j < k)%nat -> no_zero n (y j) -> update (y j) (y (S j))) /\ ~ all_positive n (y k).
  Proof.
    intros Hm Hd Ls H. destruct (C13_rejected max_iter tol x0 _ x0' Hm Hd Ls H) as (k & y & Hk & Y0 & Yj & _ & Yk).
    exists k, y. split; auto. split; auto. split; [intros j Hj; apply Yj; auto | ]. intros P.
    destruct Yk as [(C & _) | (_ & C)]; [discriminate | ].
    assert (Lk : length (y k) = (2 * n)%nat) by (destruct k; [rewrite Y0; auto | exact (proj1 (Yj k (Nat.lt_succ_diag_r k)))]).
    assert (Pz : no_zero n (y k)) by (intros i Hi; destruct (P i Hi); split; lra).
    destruct (C13_update_defined (y k) Lk P) as [x' Hx']. apply (C Pz x' Hx').
  Qed.

  (** what the routine returns, given the sequence of Newton iterates *)
  Theorem C13_outcome max_iter tol x0 (y : nat -> list R) : (0 < max_iter)%nat -> / 2 ^ 52 <= rsum rho (fun x => x) ->
    length (first_guess x0) = (2 * n)%nat -> y O = first_guess x0 ->
    (forall j, (j < max_iter)%nat -> all_positive n (y j) /\ update (y j) (y (S j))) ->
    (forall k, (k < max_iter)%nat -> (forall j, (j < k)%nat -> tol <= resnorm (y j)) -> resnorm (y k) < tol ->
       cross max_iter tol x0 = (Ok (energy (y (S k))), option_map (fun _ => y (S k)) x0)) /\
    ((forall j, (j < max_iter)%nat -> tol <= resnorm (y j)) -> cross max_iter tol x0 = (Err NotConverged, x0)).
  Proof.
    intros Hm Hd Ls Y0 Y.
    assert (L : forall j, (j <= max_iter)%nat -> length (y j) = (2 * n)%nat).
    { intros [ | j] Hj; [rewrite Y0; auto | ]. destruct (Y j ltac:(lia)) as [_ [U _]]. auto. }
    assert (St : forall j, (j < max_iter)%nat -> stepf tol (y j) = Ok (y (S j), Rltb (resnorm (y j)) tol)).
    { intros j Hj. destruct (Y j Hj) as [P U]. assert (Lj : length (y j) = (2 * n)%nat) by (apply L; lia).
      assert (Px' : forall k, (k < n + n)%nat -> 0 < nth k (y j) 0) by (apply (from_halves n (fun k => 0 < nth k (y j) 0)); exact P).
      assert (Pz : no_zero n (y j)) by (intros i Hi; destruct (P i Hi); split; lra).
      destruct (step_positive lu n delta na nb rhoa tol Hlu coef (y j) ltac:(lia) Px') as (x' & E & L').
      rewrite E. destruct (update_spec n delta na nb rhoa lu tol (y j) x' _ Hlu Lj E) as [_ U'].
      specialize (U' Pz). destruct (C13_update_defined (y j) Lj P) as [z Hz].
      assert (x' = z) by (apply Hz, update_eq; exact U'). assert (y (S j) = z) by (apply Hz; auto).
      f_equal. f_equal; [congruence | ]. rewrite resid_norm_spec. f_equal. apply resnorm_eq. }
    destruct max_iter as [ | m]; [lia | ]. rewrite cross_unfold by auto. split.
    - intros k Hk Hj Hk2.
      rewrite (loop_ok_conv (stepf tol) m (first_guess x0) (y (S k)) k y); auto; try lia.
      + intros j Hjk. rewrite St by lia. rewrite (proj2 (Rltb_false _ _)); [reflexivity | apply Hj; auto].
      + rewrite St by lia. rewrite (proj2 (Rltb_true _ _)); [reflexivity | auto].
    - intros Hj. rewrite (loop_err_conv (stepf tol) m (first_guess x0) y); auto.
      intros j Hjk. rewrite St by lia. rewrite (proj2 (Rltb_false _ _)); [reflexivity | apply Hj; lia].
  Qed.

  (** an accepted iterate with positive fractions: the returned fractions are close to the solution
      of the mass-action law, and so is the energy *)
  Theorem C13_accuracy tol x x' z : 0 < tol < 1 -> length x = (2 * n)%nat -> all_positive n x ->
    resnorm x < tol -> update x x' -> law z ->
    let q := (1 + tol) / (1 - tol) ^ 2 in
    (forall i, (i < n)%nat -> 0 < fa x' i /\ fa x' i <= q * fa z i /\ fa z i <= q * fa x' i /\
                              0 < fb n x' i /\ fb n x' i <= q * fb n z i /\ fb n z i <= q * fb n x' i) /\
    Rabs (energy x' - energy z) <= 3 / 2 * (q - 1) * Sum i < n, den i * (sa i + sb i).
  Proof.
    intros Ht Lx Px Hr U Hz q.
    assert (Lx' : length x = (n + n)%nat) by lia.
    assert (Px' : forall k, (k < n + n)%nat -> 0 < nth k x 0) by (apply (from_halves n (fun k => 0 < nth k x 0)); exact Px).
    assert (Pz : no_zero n x) by (intros i Hi; destruct (Px i Hi); split; lra).
    destruct (step_positive lu n delta na nb rhoa tol Hlu coef x Lx' Px') as (x1 & E & L1).
    destruct (update_spec n delta na nb rhoa lu tol x x1 _ Hlu Lx E) as [_ U1]. specialize (U1 Pz).
    destruct (C13_update_defined x Lx Px) as [w Hw].
    assert (x1 = x') as -> by (transitivity w; [apply Hw, update_eq; exact U1 | symmetry; apply Hw; auto]).
    replace (Rltb (resid_norm n delta na nb rhoa x) tol) with true in E.
    2:{ symmetry. apply Rltb_true. rewrite resid_norm_spec. fold D. unfold f in *. rewrite <- resnorm_eq in Hr. exact Hr. }
    apply law_eq in Hz. assert (Ex : exact n delta na nb rhoa z) by (apply exact_law; exact Hz).
    destruct (accepted_accurate lu n delta na nb rhoa tol Hlu coef x x' z Lx' Px' Ht E Ex) as (_ & A).
    destruct Ex as [Lz Sz].
    assert (Q1 : 1 <= q).
    { unfold q. apply Rmult_le_reg_r with ((1 - tol) ^ 2); [apply pow_lt; lra | ].
      unfold Rdiv. rewrite Rmult_assoc, Rinv_l by (apply pow_nonzero; lra). nra. }
    assert (qa : (1 + tol) / (1 - tol) <= q).
    { unfold q, Rdiv. apply Rmult_le_compat_l; [lra | ]. apply Rinv_le_contravar; [apply pow_lt; lra | nra]. }
    assert (qb : / (1 - tol) ^ 2 <= q).
    { unfold q, Rdiv. assert (0 < / (1 - tol) ^ 2) by (apply Rinv_0_lt_compat, pow_lt; lra). nra. }
    assert (Pz1 : forall k, (k < n + n)%nat -> 0 < nth k z 0 <= 1).
    { intros k Hk. split; [apply Sz; auto | apply (solves_le1 _ _ coef _ Sz); auto]. }
    assert (B : forall k, (k < n + n)%nat -> 0 < nth k x' 0 /\ nth k x' 0 <= q * nth k z 0 /\ nth k z 0 <= q * nth k x' 0).
    { intros k Hk. destruct (A k Hk) as (A1 & A2 & A3). destruct (Pz1 k Hk). split; auto. split.
      - eapply Rle_trans; [exact A2 | apply Rmult_le_compat_r; lra].
      - eapply Rle_trans; [exact A3 | apply Rmult_le_compat_r; [left; exact A1 | exact qb]]. }
    split.
    - intros i Hi. destruct (B i ltac:(lia)) as (B1 & B2 & B3). destruct (B (n + i)%nat ltac:(lia)) as (B4 & B5 & B6).
      unfold fa, fb. auto 8.
    - rewrite <- !energy_eq. eapply Rle_trans; [apply (energy_close n na nb rhoa x' z q Q1) | ].
      + intros j Hj. pose proof (na_sa j Hj). pose proof (nb_sb j Hj). pose proof (rho_den j Hj).
        unfold f in *. change (nth j na 0) with (@ix RNum na j). change (nth j nb 0) with (@ix RNum nb j).
        change (nth j rhoa 0) with (@ix RNum rhoa j). rewrite H, H0, H1. auto.
      + exact Pz1.
      + exact B.
      + apply Rmult_le_compat_l; [lra | ]. right. apply Sum_ext. intros j Hj.
        pose proof (na_sa j Hj). pose proof (nb_sb j Hj). pose proof (rho_den j Hj).
        unfold f in *. change (nth j na 0) with (@ix RNum na j). change (nth j nb 0) with (@ix RNum nb j).
        change (nth j rhoa 0) with (@ix RNum rhoa j). rewrite H, H0, H1. auto.
  Qed.
End C13Real.

(** A run of Newton's method that ends with the first iterate [y k] whose residual is below the
    tolerance; a step from an iterate without zero entries is the Newton update. *)
Definition newton_run n (delta : nat -> nat -> R) (na nb rho : nat -> R) (tol : R) (k : nat) (y : nat -> list R) : Prop :=
  (forall j, (j <= k)%nat -> length (y j) = (2 * n)%nat /\
     (no_zero n (y j) -> newton_update n delta na nb rho (y j) (y (S j)))) /\
  (forall j, (j < k)%nat -> tol <= residual_norm n delta na nb rho (y j)) /\
  residual_norm n delta na nb rho (y k) < tol.
(** the run for the associating components of a mixture, started from 0.2 *)
Definition mixture_run (p : params RNum) (t v : R) (moles : list R) (tol : R) (k : nat) (y : nat -> list R) : Prop :=
  let X := mix_of p in
  let rho i := nth i moles 0 / v in
  let c := comp p in
  y O = repeat (2 / 10) (2 * p_nassoc p) /\
  newton_run (p_nassoc p) (fun i j => Delta X t rho (c i) (c j)) (fun i => Na X (c i)) (fun i => Nb X (c i))
    (fun i => rho (c i)) tol k y.

(** The contribution of the equation of state: a returned value is the energy after the first
    iterate whose residual is below the tolerance; if its site fractions are positive the value is
    close to the published association energy, which has exactly one set of site fractions
    ([C14_published_law]). *)
Theorem C13_equation_of_state (lu : lu_solver RNum) prs bin p t v moles max_iter tol a :
  lu_exact lu -> from_records prs bin = Some p -> phys p -> assoc_phys p -> phys_state p t v moles ->
  (0 < max_iter)%nat -> 0 < tol < 1 -> / 2 ^ 52 <= Rho (mix_of p) (fun i => nth i moles 0 / v) ->
  a_cross_assoc lu max_iter tol p (@state_new RNum t v moles) = Some a ->
  let X := mix_of p in
  let rho i := nth i moles 0 / v in
  let c := comp p in
  let q := (1 + tol) / (1 - tol) ^ 2 in
  exists k y, (k < max_iter)%nat /\ mixture_run p t v moles tol k y /\
    a = v * site_energy (p_nassoc p) (fun i => Na X (c i)) (fun i => Nb X (c i)) (fun i => rho (c i)) (y (S k)) /\
    (all_positive (p_nassoc p) (y k) -> forall xa xb,
     mass_action X t rho xa xb -> (forall i, (i < N X)%nat -> 0 < xa i <= 1 /\ 0 < xb i <= 1) ->
     Rabs (a - v * f_assoc_xx X rho xa xb) <= v * (3 / 2 * (q - 1) * Sum i < N X, rho i * (Na X i + Nb X i))).
Proof.
  intros Hlu Hp Hph Hap PS Hm Ht Hd Ha X rho c q.
  pose proof (wfp_from_records _ _ _ Hp) as W.
  unfold a_cross_assoc in Ha. change (s_t (@state_new RNum t v moles)) with t in Ha.
  change (s_v (@state_new RNum t v moles)) with v in Ha.
  destruct (fst _) as [b | e] eqn:E; [ | discriminate].
  assert (Ea : a = b * v) by (injection Ha; auto). clear Ha.
  assert (Hd' : / 2 ^ 52 <= rsum (s_rho (@state_new RNum t v moles)) (fun x : R => x)).
  { eapply Rle_trans; [exact Hd | ]. right. unfold Rho. rewrite (rsum_nth _ 0).
    assert (Lr : length (s_rho (@state_new RNum t v moles)) = length (p_m p)).
    { cbn [s_rho state_new]. rewrite map_length. apply (ps_len _ _ _ _ PS). }
    match goal with |- rsum (seq 0 ?n1) _ = rsum (seq 0 ?n2) _ => replace n2 with n1 by (symmetry; exact Lr) end.
    apply Sum_ext. intros i Hi. symmetry.
    apply (s_rho_ix p t v moles (ps_len _ _ _ _ PS) i Hi). }
  pose proof (cross_unfold lu p t (s_rho (@state_new RNum t v moles)) (seg_radius p t)
    (n2_ p t v moles) (n3i_ p t v moles) (@n1 RNum) max_iter tol None Hd') as CU.
  change (fst (cross_association lu p t (s_rho (@state_new RNum t v moles)) (seg_radius p t) (n2_ p t v moles) (n3i_ p t v moles) (@n1 RNum) max_iter tol None) = Ok b) in E.
  pose proof (eq_trans (eq_sym (f_equal fst CU)) E) as E2. clear CU E.
  destruct (newton_loop _ _ _) as [x | e] eqn:EL; [ | discriminate].
  assert (Eb : b = @ca_energy RNum (p_nassoc p) (na_ p) (nb_ p) (rho_ p t v moles) x).
  { symmetry. eapply eq_trans; [exact (energy_eq p (s_rho (@state_new RNum t v moles)) x) | ].
    cbn [fst] in E2. injection E2. auto. }
  destruct max_iter as [ | m]; [lia | ].
  destruct (loop_ok _ m _ x EL) as (k & y & Hk & Y0 & Yj & Yk & Yz). change (nat -> list R) in y.
  assert (L : forall j, (j <= k)%nat -> length (y j) = (2 * p_nassoc p)%nat).
  { induction j as [ | j IH]; intros Hj; [rewrite Y0; cbn [first_guess]; apply repeat_length | ].
    assert (S := Yj j ltac:(lia)). unfold newton_step in S.
    pose proof (Hlu (p_nassoc p + p_nassoc p)%nat _ _ (ca_hess_square (K := RNum) (p_nassoc p) (delta_ p t v moles) (na_ p) (nb_ p) (rho_ p t v moles) (y j))
      (ca_grad_length (K := RNum) (p_nassoc p) (delta_ p t v moles) (na_ p) (nb_ p) (rho_ p t v moles) (y j))) as HL.
    unfold delta_, na_, nb_, rho_ in HL.
    destruct (lu _ _) as [dx | ]; [ | discriminate]. destruct HL as (_ & Ld & _).
    injection S as S _. rewrite <- S. rewrite map_length, combine_length.
    transitivity (Nat.min (2 * p_nassoc p) (p_nassoc p + p_nassoc p))%nat; [f_equal; [apply IH; lia | exact Ld] | lia]. }
  change (@newton_step RNum lu (p_nassoc p) (delta_ p t v moles) (na_ p) (nb_ p) (rho_ p t v moles) tol (y k) = Ok (y (S k), true)) in Yk.
  assert (Ba : forall y i, (i < p_nassoc p)%nat ->
      bonds_a (p_nassoc p) (fun i j => Delta X t rho (c i) (c j)) (fun i => Nb X (c i)) (fun i => rho (c i)) y i =
      bonds_a (p_nassoc p) (@ix2 RNum (delta_ p t v moles)) (@ix RNum (nb_ p)) (@ix RNum (rho_ p t v moles)) y i).
  { intros y' i Hi. apply Sum_ext. intros j Hj.
    rewrite (delta_ix p W Hph t v moles PS), (rho_ix p W t v moles PS), nb_ix by auto. auto. }
  assert (Bb : forall y i, (i < p_nassoc p)%nat ->
      bonds_b (p_nassoc p) (fun i j => Delta X t rho (c i) (c j)) (fun i => Na X (c i)) (fun i => rho (c i)) y i =
      bonds_b (p_nassoc p) (@ix2 RNum (delta_ p t v moles)) (@ix RNum (na_ p)) (@ix RNum (rho_ p t v moles)) y i).
  { intros y' i Hi. apply Sum_ext. intros j Hj.
    rewrite (delta_ix p W Hph t v moles PS), (rho_ix p W t v moles PS), na_ix by auto. auto. }
  assert (Rn : forall y, residual_norm (p_nassoc p) (fun i j => Delta X t rho (c i) (c j)) (fun i => Na X (c i)) (fun i => Nb X (c i))
      (fun i => rho (c i)) y = residual_norm (p_nassoc p) (@ix2 RNum (delta_ p t v moles)) (@ix RNum (na_ p)) (@ix RNum (nb_ p)) (@ix RNum (rho_ p t v moles)) y).
  { intros y'. unfold residual_norm. f_equal.
    f_equal; apply Sum_ext; intros i Hi; [rewrite Ba by auto | rewrite Bb by auto]; auto. }
  assert (Up : forall y y', newton_update (p_nassoc p) (@ix2 RNum (delta_ p t v moles)) (@ix RNum (na_ p)) (@ix RNum (nb_ p)) (@ix RNum (rho_ p t v moles)) y y' ->
    newton_update (p_nassoc p) (fun i j => Delta X t rho (c i) (c j)) (fun i => Na X (c i)) (fun i => Nb X (c i)) (fun i => rho (c i)) y y').
  { intros y1 y2 [L1 H1]. split; auto. intros i Hi. rewrite !Ba, !Bb by auto. apply H1; auto. }
  assert (Yj' : forall j, (j < k)%nat -> @newton_step RNum lu (p_nassoc p) (delta_ p t v moles) (na_ p) (nb_ p) (rho_ p t v moles) tol (y j) = Ok (y (S j), false)) by exact Yj.
  exists k, y. split; [lia | ]. split; [split; [exact Y0 | split; [ | split]] | split].
  - intros j Hj. split; [apply L; lia | ]. intros Z. apply Up.
    destruct (Nat.eq_dec j k) as [-> | Hn].
    + apply (proj2 (update_spec _ _ _ _ _ lu tol (y k) (y (S k)) true Hlu (L k (le_n k)) Yk) Z).
    + apply (proj2 (update_spec _ _ _ _ _ lu tol (y j) (y (S j)) false Hlu (L j Hj) (Yj' j ltac:(lia))) Z).
  - intros j Hj. rewrite Rn. apply Rnot_lt_le. intros Hlt.
    pose proof (proj2 (proj1 (update_spec _ _ _ _ _ lu tol (y j) (y (S j)) false Hlu (L j ltac:(lia)) (Yj' j Hj))) Hlt). discriminate.
  - rewrite Rn. apply (proj1 (proj1 (update_spec _ _ _ _ _ lu tol (y k) (y (S k)) true Hlu (L k (le_n k)) Yk)) eq_refl).
  - rewrite Ea, Eb, <- Yz. rewrite Rmult_comm. f_equal. rewrite energy_spec. apply Sum_ext. intros i Hi.
    rewrite na_ix, nb_ix, (rho_ix p W t v moles PS) by auto. auto.
  - intros P xa xb HM HB.
    destruct (cross_accuracy p W Hph Hap t v moles PS lu tol (y k) (y (S k)) xa xb Hlu Ht (L k (le_n k)) P Yk HM HB) as (_ & _ & A).
    rewrite Ea, Eb. rewrite <- Yz.
    match goal with |- Rabs ?z <= _ => replace z with (v * (@ca_energy RNum (p_nassoc p) (na_ p) (nb_ p) (rho_ p t v moles) (y (S k)) - f_assoc_xx X rho xa xb)) by (unfold X, rho; ring) end.
    assert (Pv : 0 < v) by apply (ps_v _ _ _ _ PS).
    rewrite Rabs_mult, (Rabs_pos_eq v) by lra. apply Rmult_le_compat_l; [lra | exact A].
Qed.

Print Assumptions C11_solves_mass_action.
Print Assumptions C11_low_density.
Print Assumptions C11_no_association.
Print Assumptions C11_many_sites_refuted.
Print Assumptions C12_low_density_partial.
Print Assumptions C12_above_switch_refuted.
Print Assumptions C13_any_number.
Print Assumptions C13_vanishing_density.
Print Assumptions C13_start_vector_kept.
Print Assumptions C13_zero_iterations.
Print Assumptions C13_accepted.
Print Assumptions C13_rejected.
Print Assumptions C13_update_defined.
Print Assumptions C13_singular_only_unphysical.
Print Assumptions C13_outcome.
Print Assumptions C13_accuracy.
Print Assumptions C13_equation_of_state.
