(** C31 (guard of the pure functional), C32 (Taylor switch of f3), C33 (pair potential). *)
From Coq Require Import ZArith QArith Reals Lra Lia List Bool.
From Verif Require Import Num RNum RSum M_Params F_Params M_Eos M_Dft Samples.
From Coquelicot Require Import Coquelicot.
Import ListNotations.
Local Open Scope R_scope.

(* -------------------------------------------------------------------------------- C31 *)

Section Guard.
  Variable (p : params RNum) (t : R) (v : fmt_version).
  Implicit Types profile : list (list R).

  (** the packing fraction in a column of weighted densities *)
  Definition packing (wd : list R) : R := nth 1 wd 0.
  Definition point (wd : list R) : option R :=
    match phi_pure_fmt_assoc (K := RNum) v p t [wd] with Value (Ok [x]) => Some x | _ => None end.

  Lemma guard_true profile :
    existsb (fun wd => @nltb RNum n1 (ix wd 1)) profile = true <-> exists wd, In wd profile /\ 1 < packing wd.
  Proof.
    rewrite existsb_exists. split; intros (wd & I & H); exists wd; (split; [auto | ]).
    - apply Rltb_true in H. revert H. rn. auto.
    - apply Rltb_true. rn. auto.
  Qed.

  Lemma scalars_some r a b c : v <> KierlikRosinberg -> exists z, @pure_fmt_scalars RNum v r a b c = Some z.
  Proof. destruct v; cbn; intros H; eauto. elim H; auto. Qed.
  Lemma pure_phi_some wd : v <> KierlikRosinberg -> exists z, @pure_phi_fmt RNum v p t wd = Some z.
  Proof.
    intros H. unfold pure_phi_fmt. cbv zeta.
    match goal with |- context [pure_fmt_scalars ?a ?b ?c ?d ?e] =>
      destruct (scalars_some b c d e H) as ([x y] & ->) end. eauto.
  Qed.

  (** The functional fails exactly when a packing fraction exceeds one, and then with
      IterationFailed; otherwise it returns one value per grid point, which depends on the
      weighted densities of that point only. *)
  Theorem C31_guard profile : v <> KierlikRosinberg ->
    (phi_pure_fmt_assoc (K := RNum) v p t profile = Value (Err IterationFailed)
       <-> exists wd, In wd profile /\ 1 < packing wd) /\
    ((forall wd, In wd profile -> packing wd <= 1) ->
       exists l, phi_pure_fmt_assoc (K := RNum) v p t profile = Value (Ok l) /\
         map Some l = map point profile).
  Proof.
    intros Hv. unfold phi_pure_fmt_assoc at 1 2.
    set (one := fun wd => match pure_phi_fmt v p t wd with
      | Some phi => Some (if Nat.eqb (p_nassoc p) 1 then phi + pure_phi_assoc p t wd else phi)%num
      | None => None end).
    assert (One : forall wd, exists z, one wd = Some z).
    { intros wd. unfold one. destruct (pure_phi_some wd Hv) as (z & ->). eauto. }
    assert (Col : forall l, exists r, collect_opt (map one l) = Some r /\ map Some r = map one l).
    { induction l as [ | wd l (r & E & M)]; [exists []; auto | ].
      destruct (One wd) as (z & Z). exists (z :: r). cbn [map collect_opt]. rewrite Z, E, M. auto. }
    assert (Pt : forall wd, packing wd <= 1 -> point wd = one wd).
    { intros wd L. unfold point, phi_pure_fmt_assoc.
      assert (G : existsb (fun wd => @nltb RNum n1 (ix wd 1)) [wd] = false).
      { apply Bool.not_true_iff_false. rewrite guard_true. intros (w & [<- | []] & B). lra. }
      rewrite G. fold one. destruct (One wd) as (z & Z). cbn [map collect_opt]. rewrite Z. reflexivity. }
    split.
    - pose proof (guard_true profile) as GT. rewrite <- GT. clear GT.
      match goal with |- (if ?b then _ else _) = _ <-> _ => change (existsb _ profile) with b; destruct b eqn:G end;
        [split; reflexivity | ].
      destruct (Col profile) as (r & E & _). rewrite E. split; discriminate.
    - intros L.
      assert (G : existsb (fun wd => @nltb RNum n1 (ix wd 1)) profile = false).
      { apply Bool.not_true_iff_false. rewrite guard_true. intros (w & I & B). specialize (L w I). lra. }
      rewrite G. destruct (Col profile) as (r & E & M). rewrite E. exists r. split; auto.
      rewrite M. apply map_ext_in. intros wd I. symmetry. apply Pt. auto.
  Qed.

  (** the remaining version does reach the unreachable branch, on every profile with a grid
      point that passes the guard *)
  Theorem C31_other_version_panics profile : v = KierlikRosinberg -> profile <> [] ->
    (forall wd, In wd profile -> packing wd <= 1) ->
    phi_pure_fmt_assoc (K := RNum) v p t profile = Panic.
  Proof.
    intros Hv N L. unfold phi_pure_fmt_assoc.
    assert (G : existsb (fun wd => @nltb RNum n1 (ix wd 1)) profile = false).
    { apply Bool.not_true_iff_false. rewrite guard_true. intros (w & I & B). specialize (L w I). lra. }
    rewrite G. destruct profile as [ | wd l]; [elim N; auto | ]. cbn [map collect_opt].
    unfold pure_phi_fmt at 1. rewrite Hv. reflexivity.
  Qed.
End Guard.

(** Through with_options the pure functional is only ever built for a single component and a
    version it supports, so evaluating a functional never panics there. *)
Theorem C31_never_reached (p : params RNum) v o w :
  In (FPureFmtAssoc w) (f_contributions (f_with_options p v o)) ->
  w = v /\ v <> KierlikRosinberg /\ List.length (p_m p) = 1%nat /\
  forall t profile, phi_pure_fmt_assoc w p t profile <> Panic.
Proof.
  unfold f_with_options. cbn [f_contributions].
  destruct (is_white_bear v && (List.length (p_m p) =? 1)%nat) eqn:E.
  - intros H. apply andb_prop in E. destruct E as [E L]. apply Nat.eqb_eq in L.
    assert (w = v).
    { apply in_app_or in H. destruct H as [[H | []] | H]; [congruence | ].
      apply in_app_or in H. destruct H as [H | [H | []]]; [ | discriminate].
      destruct (existsb _ _); [destruct H as [H | []]; discriminate | destruct H]. }
    subst w. assert (V : v <> KierlikRosinberg) by (intros ->; discriminate).
    split; [auto | split; [auto | split; [auto | ]]]. intros t profile HP.
    destruct (C31_guard p t v profile V) as [A B].
    destruct (existsb (fun wd => @nltb RNum n1 (ix wd 1)) profile) eqn:G.
    + apply guard_true in G. rewrite (proj2 A G) in HP. discriminate.
    + destruct B as (l & B & _).
      * intros wd I. apply Rnot_lt_le. intros C. 
        assert (existsb (fun wd => @nltb RNum n1 (ix wd 1)) profile = true) by (apply guard_true; eauto).
        congruence.
      * rewrite B in HP. discriminate.
  - intros H. exfalso. apply in_app_or in H. destruct H as [[H | []] | H]; [discriminate | ].
    apply in_app_or in H. destruct H as [H | H].
    + destruct (existsb _ _); [destruct H as [H | []]; discriminate | destruct H].
    + apply in_app_or in H. destruct H as [[H | []] | H]; [discriminate | ].
      destruct (Nat.ltb _ _); [destruct H as [H | []]; discriminate | destruct H].
Qed.

Example C31_case :
  let p := from_records_raw [pr_propane] (zeros 1) in
  In (FPureFmtAssoc WhiteBear) (f_contributions (f_new p)) /\
  phi_pure_fmt_assoc WhiteBear p 300 [[0.1; 0.3]; [0.2; 1.5]] = Value (Err IterationFailed) /\
  (exists a b, phi_pure_fmt_assoc WhiteBear p 300 [[0.1; 0.3]; [0.2; 1]] = Value (Ok [a; b])) /\
  ~ (exists w, In (FPureFmtAssoc w) (f_contributions (f_new_full p KierlikRosinberg))).
Proof.
  cbv zeta. set (p := from_records_raw [pr_propane] (zeros 1)).
  assert (V : WhiteBear <> KierlikRosinberg) by discriminate.
  split; [ | split; [ | split]].
  - unfold f_new, f_with_options. cbn [f_contributions is_white_bear andb].
    change (List.length (p_m p)) with 1%nat. cbn [Nat.eqb]. apply in_or_app. left. left. reflexivity.
  - apply (C31_guard p 300 WhiteBear [[0.1; 0.3]; [0.2; 1.5]] V). exists [0.2; 1.5]. split; [cbn; auto | ].
    unfold packing. cbn [nth]. lra.
  - destruct (C31_guard p 300 WhiteBear [[0.1; 0.3]; [0.2; 1]] V) as [_ B].
    destruct B as (l & E & M).
    { intros wd [<- | [<- | []]]; unfold packing; cbn [nth]; lra. }
    pose proof (f_equal (@List.length (option R)) M) as L. rewrite !map_length in L.
    destruct l as [ | a [ | b [ | ]]]; try discriminate L. exists a, b. exact E.
  - intros (w & H). apply C31_never_reached in H. destruct H as (_ & H & _). auto.
Qed.

(* -------------------------------------------------------------------------------- C32 *)

(** f3 of White Bear FMT *)
Definition f3_exact (n : R) : R := ((1 - n) ^ 2 * ln (1 - n) + n) / (n ^ 2 * (1 - n) ^ 2).

Lemma f3_raw_exact n : 0 < n < 1 -> @fmt_f3_raw RNum n = f3_exact n.
Proof.
  intros H. unfold fmt_f3_raw, f3_exact. rn. replace (1 + - n) with (1 - n) by ring.
  field. lra.
Qed.

Lemma cutoff_val : @n3_cutoff RNum = 1 / 100000.
Proof. unfold n3_cutoff. rn. lits. lra. Qed.

(** logarithm: the sixth order Taylor polynomial of ln(1-n) is too large by at most n^7/(1-n) *)
Lemma ln_taylor6 n : 0 < n < 1 ->
  - (n ^ 7 / (1 - n)) <= ln (1 - n) + (n + n ^ 2 / 2 + n ^ 3 / 3 + n ^ 4 / 4 + n ^ 5 / 5 + n ^ 6 / 6) <= 0.
Proof.
  intros H.
  set (h := fun x => ln (1 - x) + (x + x ^ 2 / 2 + x ^ 3 / 3 + x ^ 4 / 4 + x ^ 5 / 5 + x ^ 6 / 6)).
  destruct (MVT_cor2 h (fun x => - (x ^ 6 / (1 - x))) 0 n) as (c & E & Hc).
  - lra.
  - intros c Hc. apply is_derive_Reals. unfold h. auto_derive; [lra | ]. field. lra.
  - unfold h in E at 2. replace (1 - 0) with 1 in E by ring. rewrite ln_1 in E.
    change (h n) with (ln (1 - n) + (n + n ^ 2 / 2 + n ^ 3 / 3 + n ^ 4 / 4 + n ^ 5 / 5 + n ^ 6 / 6)) in E.
    set (L := ln (1 - n) + _) in *. replace L with (- (c ^ 6 / (1 - c)) * n) by lra.
    assert (C6 : 0 <= c ^ 6 <= n ^ 6).
    { split; [apply pow_le; lra | apply pow_incr; lra]. }
    assert (I : 0 < / (1 - c) <= / (1 - n)).
    { split; [apply Rinv_0_lt_compat; lra | apply Rinv_le_contravar; lra]. }
    assert (Q : 0 <= c ^ 6 / (1 - c) <= n ^ 6 / (1 - n)).
    { unfold Rdiv. split; [apply Rmult_le_pos; lra | apply Rmult_le_compat; lra]. }
    replace (n ^ 7 / (1 - n)) with (n ^ 6 / (1 - n) * n) by (field; lra). nra.
Qed.

Lemma taylor_poly n :
  @fmt_f3_taylor RNum n = 3 / 2 + 8 / 3 * n + 15 / 4 * n ^ 2 + 24 / 5 * n ^ 3 + 35 / 6 * n ^ 4.
Proof. unfold fmt_f3_taylor. rn. lra. Qed.

(** The Taylor polynomial used below the cutoff is smaller than the exact expression by an
    amount of order n3^5 (the bounds hold well beyond the cutoff of 1e-5). *)
Theorem C32_taylor_error n : 0 < n <= 1 / 100 ->
  5 * n ^ 5 <= f3_exact n - @fmt_f3_taylor RNum n <= 8 * n ^ 5.
Proof.
  intros H. rewrite taylor_poly. unfold f3_exact.
  destruct (ln_taylor6 n) as [A B]; [lra | ].
  set (S6 := n + n ^ 2 / 2 + n ^ 3 / 3 + n ^ 4 / 4 + n ^ 5 / 5 + n ^ 6 / 6) in *.
  set (e := ln (1 - n) + S6) in *. replace (ln (1 - n)) with (e - S6) by (unfold e; ring).
  assert (D : 0 < n ^ 2 * (1 - n) ^ 2) by (apply Rmult_lt_0_compat; apply pow_lt; lra).
  replace (((1 - n) ^ 2 * (e - S6) + n) / (n ^ 2 * (1 - n) ^ 2) -
    (3 / 2 + 8 / 3 * n + 15 / 4 * n ^ 2 + 24 / 5 * n ^ 3 + 35 / 6 * n ^ 4))
    with (((1 - n) ^ 2 * e + (7 * n ^ 7 - 6 * n ^ 8)) / (n ^ 2 * (1 - n) ^ 2)).
  2: { unfold S6. field. lra. }
  assert (E : - n ^ 7 <= (1 - n) ^ 2 * e <= 0).
  { split; [ | assert (0 <= (1 - n) ^ 2) by (apply pow_le; lra); nra].
    apply Rle_trans with ((1 - n) ^ 2 * (- (n ^ 7 / (1 - n)))).
    - replace ((1 - n) ^ 2 * (- (n ^ 7 / (1 - n)))) with (- n ^ 7 * (1 - n)) by (field; lra).
      assert (0 < n ^ 7) by (apply pow_lt; lra). nra.
    - apply Rmult_le_compat_l; [apply pow_le; lra | auto]. }
  assert (P7 : 0 < n ^ 7) by (apply pow_lt; lra).
  assert (N8 : n ^ 8 = n * n ^ 7) by ring.
  assert (Q : 5 * n ^ 5 * (n ^ 2 * (1 - n) ^ 2) = 5 * n ^ 7 * (1 - n) ^ 2) by ring.
  assert (Q' : 8 * n ^ 5 * (n ^ 2 * (1 - n) ^ 2) = 8 * n ^ 7 * (1 - n) ^ 2) by ring.
  split.
  - apply Rmult_le_reg_r with (n ^ 2 * (1 - n) ^ 2); auto.
    rewrite Q. unfold Rdiv. rewrite (Rmult_assoc _ (/ _)), (Rinv_l (n ^ 2 * (1 - n) ^ 2)), Rmult_1_r by lra. rewrite N8.
    assert ((1 - n) ^ 2 <= 1) by nra. nra.
  - apply Rmult_le_reg_r with (n ^ 2 * (1 - n) ^ 2); auto.
    rewrite Q'. unfold Rdiv. rewrite (Rmult_assoc _ (/ _)), (Rinv_l (n ^ 2 * (1 - n) ^ 2)), Rmult_1_r by lra. rewrite N8.
    assert (98 / 100 <= (1 - n) ^ 2) by nra. nra.
Qed.

(** So what the functional uses differs from the exact expression by less than 1e-24 at every
    packing fraction, far below the rounding of a double. *)
Theorem C32_switch_harmless n : 0 < n < 1 -> Rabs (@fmt_f3 RNum n - f3_exact n) <= 1 / 10 ^ 24.
Proof.
  intros H. unfold fmt_f3. destruct (@nltb RNum n n3_cutoff) eqn:E.
  - apply Rltb_true in E. rewrite cutoff_val in E. assert (E' : n < 1 / 10 ^ 5) by lra. clear E.
    assert (H' : 0 < n <= 1 / 100) by (split; [lra | apply Rle_trans with (1 / 10 ^ 5); lra]).
    destruct (C32_taylor_error n H') as [A B].
    assert (P5 : 0 <= n ^ 5 <= (1 / 10 ^ 5) ^ 5) by (split; [apply pow_le; lra | apply pow_incr; lra]).
    rewrite Rabs_minus_sym, Rabs_right by lra. lra.
  - rewrite f3_raw_exact by lra. rewrite Rminus_diag_eq by reflexivity. rewrite Rabs_R0. lra.
Qed.

Example C32_case : 0 < 1 / 10 ^ 6 <= 1 / 100 /\ @fmt_f3 RNum (1 / 10 ^ 6) = @fmt_f3_taylor RNum (1 / 10 ^ 6)
  /\ @fmt_f3 RNum (3 / 10) = f3_exact (3 / 10).
Proof.
  split; [lra | split].
  - unfold fmt_f3. change (@nltb RNum) with Rltb. rewrite (proj2 (Rltb_true (1 / 10 ^ 6) (@n3_cutoff RNum))); [reflexivity | ].
    rewrite cutoff_val. lra.
  - unfold fmt_f3. change (@nltb RNum) with Rltb. rewrite (proj2 (Rltb_false (3 / 10) (@n3_cutoff RNum))); [apply f3_raw_exact; lra | ].
    rewrite cutoff_val. lra.
Qed.

(* -------------------------------------------------------------------------------- C33 *)

(** the potential of component i at distance number j *)
Section Pair.
  Variables (prs : list (pure_record RNum)) (bin : list (list R)) (p : params RNum).
  Hypothesis Hp : from_records prs bin = Some p.
  Variables (i : nat) (pr : pure_record RNum).
  Hypothesis Hi : nth_error prs i = Some pr.
  Hypothesis Hs : 0 < r_sigma (pr_model pr).
  Hypothesis He : 0 < r_epsilon_k (pr_model pr).
  Let sigma := r_sigma (pr_model pr).
  Let eps := r_epsilon_k (pr_model pr).

  Definition potential (rs : list R) (j : nat) : R := nth j (nth i (pair_potential (K := RNum) p rs) []) 0.

  Lemma potential_eq rs j : (j < List.length rs)%nat ->
    potential rs j = 4 * eps * ((sigma / nth j rs 0) ^ 12 - (sigma / nth j rs 0) ^ 6).
  Proof.
    intros Hj. unfold potential, pair_potential.
    pose proof (from_records_raw_of _ _ _ Hp) as Hr.
    assert (L : (i < List.length (p_m p))%nat).
    { rewrite Hr. cbn. rewrite !map_length. apply nth_error_Some. congruence. }
    change (nth j (nth i ?M []) 0) with (@ix2 RNum M i j). rewrite ix2_mk2 by auto.
    assert (S : @ix RNum (p_sigma p) i = sigma).
    { rewrite Hr. cbn [from_records_raw p_sigma]. unfold ix. apply nth_error_nth.
      rewrite !nth_error_map, Hi. reflexivity. }
    assert (E : @ix RNum (p_epsilon_k p) i = eps).
    { rewrite Hr. cbn [from_records_raw p_epsilon_k]. unfold ix. apply nth_error_nth.
      rewrite !nth_error_map, Hi. reflexivity. }
    rewrite S, E. change (@ix RNum rs j) with (nth j rs 0). rn. reflexivity.
  Qed.

  (** sigma^6 / r^6 *)
  Let s6 r := (sigma / r) ^ 6.
  Lemma s6_pos r : 0 < r -> 0 < s6 r.
  Proof. intros H. apply pow_lt. apply Rdiv_lt_0_compat; auto. Qed.
  Lemma s6_lt r r' : 0 < r -> r < r' -> s6 r' < s6 r.
  Proof.
    intros H L. unfold s6. unfold Rdiv. rewrite !Rpow_mult_distr.
    apply Rmult_lt_compat_l; [apply pow_lt; auto | ]. rewrite !pow_inv.
    apply Rinv_lt_contravar; [apply Rmult_lt_0_compat; apply pow_lt; lra | ].
    assert (G : forall k, r ^ S k < r' ^ S k).
    { induction k; [cbn; lra | ]. change (r * r ^ S k < r' * r' ^ S k).
      assert (0 < r ^ S k) by (apply pow_lt; auto). nra. }
    apply G.
  Qed.
  Let u r := 4 * eps * (s6 r * s6 r - s6 r).
  Lemma potential_u rs j : (j < List.length rs)%nat -> potential rs j = u (nth j rs 0).
  Proof. intros Hj. rewrite potential_eq by auto. unfold u, s6. ring. Qed.
  Lemma s6_sigma : s6 sigma = 1.
  Proof. unfold s6, Rdiv. rewrite Rinv_r by (apply Rgt_not_eq; exact Hs). ring. Qed.

  Variables (rs : list R) (j : nat).
  Hypothesis Hj : (j < List.length rs)%nat.
  Let r := nth j rs 0.
  Hypothesis Hr : 0 < r.
  Let rmin := Rpower 2 (/ 6) * sigma.

  Lemma rmin_6 : (Rpower 2 (/ 6)) ^ 6 = 2.
  Proof.
    rewrite <- Rpower_pow by (unfold Rpower; apply exp_pos). rewrite Rpower_mult.
    replace (/ 6 * INR 6) with 1 by (cbn; lra). apply Rpower_1. lra.
  Qed.
  Lemma s6_rmin : s6 rmin = 1 / 2.
  Proof.
    assert (P : 0 < Rpower 2 (/ 6)) by (unfold Rpower; apply exp_pos).
    unfold s6, rmin. replace (sigma / (Rpower 2 (/ 6) * sigma)) with (/ Rpower 2 (/ 6))
      by (field; split; apply Rgt_not_eq; auto).
    rewrite pow_inv, rmin_6. lra.
  Qed.
  Lemma rmin_pos : 0 < rmin.
  Proof. apply Rmult_lt_0_compat; [unfold Rpower; apply exp_pos | exact Hs]. Qed.

  Theorem C33_zero_at_sigma : r = sigma -> potential rs j = 0.
  Proof. intros E. rewrite potential_u by auto. fold r. rewrite E. unfold u. rewrite s6_sigma. ring. Qed.
  Theorem C33_repulsive_inside : r < sigma -> 0 < potential rs j.
  Proof.
    intros L. rewrite potential_u by auto. fold r. unfold u. pose proof (s6_lt r sigma Hr L) as Q.
    rewrite s6_sigma in Q. assert (0 < eps) by exact He. 
    apply Rmult_lt_0_compat; nra.
  Qed.
  Theorem C33_attractive_outside : sigma < r -> potential rs j < 0.
  Proof.
    intros L. rewrite potential_u by auto. fold r. unfold u.
    assert (Q : s6 r < s6 sigma) by (apply s6_lt; [exact Hs | auto]). rewrite s6_sigma in Q.
    pose proof (s6_pos r Hr). assert (0 < eps) by exact He.
    assert (0 < eps * (s6 r * (1 - s6 r))) by (apply Rmult_lt_0_compat; [auto | nra]). lra.
  Qed.
  Theorem C33_lower_bound : - eps <= potential rs j.
  Proof.
    rewrite potential_u by auto. fold r. unfold u. assert (0 < eps) by exact He.
    assert (0 <= (2 * s6 r - 1) * (2 * s6 r - 1)) by apply Rle_0_sqr.
    assert (0 <= eps * ((2 * s6 r - 1) * (2 * s6 r - 1))) by (apply Rmult_le_pos; lra). lra.
  Qed.
  Theorem C33_minimum : potential rs j = - eps <-> r = Rpower 2 (/ 6) * sigma.
  Proof.
    rewrite potential_u by auto. fold r rmin. unfold u. assert (0 < eps) by exact He. split.
    - intros E. assert (Z : eps * ((2 * s6 r - 1) * (2 * s6 r - 1)) = 0) by lra.
      apply Rmult_integral in Z. destruct Z as [Z | Z]; [lra | ].
      assert (S : s6 r = 1 / 2) by (apply Rmult_integral in Z; lra). rewrite <- s6_rmin in S.
      destruct (Rtotal_order r rmin) as [L | [L | L]]; auto; exfalso.
      + apply s6_lt in L; auto. lra.
      + apply s6_lt in L; [lra | apply rmin_pos].
    - intros ->. rewrite s6_rmin. lra.
  Qed.

  (** repulsion up to the minimum, attraction beyond it *)
  Theorem C33_monotone k : (k < List.length rs)%nat -> r < nth k rs 0 ->
    (nth k rs 0 <= Rpower 2 (/ 6) * sigma -> potential rs k < potential rs j) /\
    (Rpower 2 (/ 6) * sigma <= r -> potential rs j < potential rs k).
  Proof.
    intros Hk L. fold rmin. rewrite !potential_u by auto. fold r. unfold u. assert (0 < eps) by exact He.
    set (r' := nth k rs 0) in *. assert (0 < r') by lra.
    pose proof (s6_lt r r' Hr L) as Q. pose proof (s6_pos r' H0).
    assert (M : forall x, 0 < x -> x <= rmin -> 1 / 2 <= s6 x).
    { intros x Hx [Lx | ->]; [apply s6_lt in Lx; auto | ]; rewrite s6_rmin in *; lra. }
    assert (M' : forall x, rmin <= x -> s6 x <= 1 / 2).
    { intros x [Lx | <-]; [apply s6_lt in Lx; [ | apply rmin_pos] | ]; rewrite s6_rmin in *; lra. }
    split; intros B; (apply Rmult_lt_compat_l; [lra | ]).
    - specialize (M r' H0 B). nra.
    - specialize (M' r B). nra.
  Qed.
End Pair.

Example C33_case : from_records [pr_propane] (zeros 1) = Some (from_records_raw [pr_propane] (zeros 1)) /\
  nth_error [pr_propane] 0 = Some pr_propane /\
  0 < potential (from_records_raw [pr_propane] (zeros 1)) 0 [3; 4] 0 /\
  potential (from_records_raw [pr_propane] (zeros 1)) 0 [3; 4] 1 < 0.
Proof.
  assert (P : from_records [pr_propane] (zeros 1) = Some (from_records_raw [pr_propane] (zeros 1))) by reflexivity.
  split; [exact P | split; [reflexivity | split]].
  - apply (C33_repulsive_inside _ _ _ P 0 pr_propane eq_refl); cbn; try lra; lia.
  - apply (C33_attractive_outside _ _ _ P 0 pr_propane eq_refl); cbn; try lra; lia.
Qed.

Print Assumptions C31_guard.
Print Assumptions C31_never_reached.
Print Assumptions C32_taylor_error.
Print Assumptions C32_switch_harmless.
Print Assumptions C33_lower_bound.
Print Assumptions C33_minimum.
Print Assumptions C33_monotone.
